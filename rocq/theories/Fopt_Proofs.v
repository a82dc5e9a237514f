(** The optimizers on floats: ranges, absorbed steps, infinite state. *)
From Coq Require Import ZArith List Reals Lra Lia Bool.
From Flocq Require Import Core BinarySingleNaN Relative Plus_error.
Import ListNotations.
From Verif Require Import Float_Model Float_Spec Float_Proofs Fopt_Model Fopt_Spec.
Local Open Scope R_scope.

Section Floats.
  Variables prec emax : Z.
  Context (prec_gt_0_ : Prec_gt_0 prec) (prec_lt_emax_ : Prec_lt_emax prec emax).
  Notation float := (binary_float prec emax).
  Notation fexp := (SpecFloat.fexp prec emax).
  Notation emin := (SpecFloat.emin prec emax).
  Notation rnd := (round radix2 fexp ZnearestE).
  Notation bpow := (bpow radix2).
  Notation top := (bpow emax - bpow (emax - prec)).
  Notation inf := (B754_infinity false : float).
  Local Instance fexp_valid' : Valid_exp fexp := FLT_exp_valid emin prec.
  Local Instance fexp_mono' : Monotone_exp fexp := FLT_exp_monotone emin prec.
  Local Notation rnd_le := (rnd_le prec emax prec_gt_0_).
  Local Notation rnd_zero := (rnd_zero prec emax).

  (** ** Signs *)
  Lemma sign_neg (x : float) : Bsign x = true -> B2R x <= 0.
  Proof. destruct x as [| | |s m e B]; cbn; intros H; try lra. subst s. apply F2R_le_0. cbn. lia. Qed.
  Lemma sign_pos (x : float) : Bsign x = false -> 0 <= B2R x.
  Proof. destruct x as [| | |s m e B]; cbn; intros H; try lra. subst s. apply F2R_ge_0. cbn. lia. Qed.
  Lemma pos_sign (x : float) : 0 < B2R x -> Bsign x = false.
  Proof. intros H. destruct (Bsign x) eqn:E; [|reflexivity]. apply sign_neg in E. lra. Qed.
  Lemma pos_finite (x : float) : 0 < B2R x -> is_finite x = true.
  Proof. destruct x; cbn; intros; lra || reflexivity. Qed.

  (** ** Products of the same sign, sums of numbers that are not negative *)
  Lemma mul_nonneg (x y : float) : is_finite x = true -> is_finite y = true -> Bsign x = Bsign y ->
    (is_finite (fmul x y) = true /\ B2R (fmul x y) = rnd (B2R x * B2R y) /\ 0 <= B2R (fmul x y)) \/ fmul x y = inf.
  Proof.
    intros Fx Fy S. pose proof (Bmult_correct prec emax _ _ mode_NE x y) as C. cbn [round_mode] in C.
    assert (P : 0 <= B2R x * B2R y).
    { destruct (Bsign x) eqn:E.
      - pose proof (sign_neg x E). pose proof (sign_neg y (eq_sym S)). nra.
      - pose proof (sign_pos x E). pose proof (sign_pos y (eq_sym S)). nra. }
    destruct (Rlt_bool _ _).
    - left. destruct C as (C1 & C2 & _). rewrite Fx, Fy in C2. split; [exact C2|]. split; [exact C1|].
      unfold fmul. rewrite C1. rewrite <- rnd_zero. apply rnd_le. exact P.
    - right. rewrite S, xorb_nilpotent in C. unfold fmul. apply B2SF_inj. rewrite C. reflexivity.
  Qed.
  Lemma mul_overflow (x y : float) : is_finite x = true -> is_finite y = true -> Bsign x = Bsign y ->
    bpow emax <= B2R x * B2R y -> fmul x y = inf.
  Proof.
    intros Fx Fy S H. destruct (mul_nonneg x y Fx Fy S) as [(F & V & _)|I]; [|exact I]. exfalso.
    pose proof (float_top prec emax prec_gt_0_ (fmul x y)) as T. pose proof (top_lt prec emax) as L.
    assert (R : rnd (bpow emax) <= rnd (B2R x * B2R y)) by (apply rnd_le; exact H).
    rewrite (round_generic radix2 fexp ZnearestE (bpow emax)) in R by (apply (format_top_bpow prec emax prec_gt_0_ prec_lt_emax_)).
    rewrite V in T. lra.
  Qed.
  Lemma add_nonneg (a b : float) : nonnegative a -> nonnegative b ->
    (is_finite a = true /\ is_finite b = true /\ is_finite (fadd a b) = true /\ B2R (fadd a b) = rnd (B2R a + B2R b) /\
       0 <= B2R a /\ 0 <= B2R b /\ 0 <= B2R (fadd a b)) \/ fadd a b = inf.
  Proof.
    intros [[Fa Pa]| ->] [[Fb Pb]| ->].
    - pose proof (Bplus_correct prec emax _ _ mode_NE a b Fa Fb) as C. cbn [round_mode] in C.
      destruct (Rlt_bool _ _) eqn:E.
      + left. destruct C as (C1 & C2 & _). do 3 (split; [assumption|]). split; [exact C1|]. do 2 (split; [assumption|]).
        unfold fadd. rewrite C1, <- rnd_zero. apply rnd_le. lra.
      + right. destruct C as (C1 & C2).
        assert (S : Bsign a = false).
        { destruct (Bsign a) eqn:Sa; [exfalso|reflexivity]. pose proof (sign_neg a Sa). symmetry in C2. pose proof (sign_neg b C2).
          assert (Z : B2R a + B2R b = 0) by lra. rewrite Z, rnd_zero, Rabs_R0, Rlt_bool_true in E by apply bpow_gt_0. discriminate. }
        rewrite S in C1. unfold fadd. apply B2SF_inj. rewrite C1. reflexivity.
    - right. destruct a; try discriminate; reflexivity.
    - right. destruct b; try discriminate; reflexivity.
    - right. reflexivity.
  Qed.
  Lemma add_nonnegative (a b : float) : nonnegative a -> nonnegative b -> nonnegative (fadd a b).
  Proof. intros Ha Hb. destruct (add_nonneg a b Ha Hb) as [(_ & _ & F & _ & _ & _ & P)| ->]; [left|right]; auto. Qed.
  Lemma add_inf (a : float) : nonnegative a -> fadd a inf = inf /\ fadd inf a = inf.
  Proof. intros [[F _]| ->]; [|split; reflexivity]. destruct a; try discriminate; split; reflexivity. Qed.

  (** ** Square roots and denominators *)
  Lemma sqrt_nonneg (x : float) : nonnegative x ->
    (is_finite x = true /\ is_finite (fsqrt x) = true /\ B2R (fsqrt x) = rnd (sqrt (B2R x)) /\ 0 <= B2R (fsqrt x)) \/ (x = inf /\ fsqrt x = inf).
  Proof.
    intros [[F P]| ->]; [|right; split; reflexivity]. left. split; [exact F|].
    pose proof (Bsqrt_correct prec emax _ _ mode_NE x) as (C1 & C2 & _). cbn [round_mode] in C1.
    assert (Q : is_finite (fsqrt x) = true).
    { unfold fsqrt. rewrite C2. destruct x as [| | |s m e B]; try discriminate; try reflexivity.
      destruct s; [|reflexivity]. exfalso. cbn in P. assert (N : F2R (Float radix2 (Z.neg m) e) < 0) by (apply F2R_lt_0; cbn; lia). cbn in P. lra. }
    split; [exact Q|]. split; [exact C1|]. unfold fsqrt. rewrite C1, <- rnd_zero. apply rnd_le. apply sqrt_pos.
  Qed.
  Lemma denominator_ok (x eps : float) : nonnegative x -> 0 < B2R eps ->
    let d := fadd (fsqrt x) eps in
    (is_finite x = true /\ is_finite d = true /\ B2R eps <= B2R d /\ B2R (fsqrt x) <= B2R d) \/ d = inf.
  Proof.
    intros Hx He d. pose proof (pos_finite eps He) as Fe.
    assert (Ne : nonnegative eps) by (left; split; [exact Fe|lra]).
    destruct (sqrt_nonneg x Hx) as [(Fx & Fs & _ & Ps)|(-> & E)].
    - assert (Ns : nonnegative (fsqrt x)) by (left; auto).
      destruct (add_nonneg _ _ Ns Ne) as [(_ & _ & F & V & _ & _ & _)|I]; [left|right; exact I].
      split; [exact Fx|]. split; [exact F|]. unfold d. rewrite V.
      split; [rewrite <- (rnd_float prec emax eps) at 1|rewrite <- (rnd_float prec emax (fsqrt x)) at 1]; apply rnd_le; lra.
    - right. unfold d. rewrite E. apply add_inf. exact Ne.
  Qed.
  Lemma div_inf (x : float) : is_finite x = true -> exists s, fdiv x inf = B754_zero s.
  Proof. destruct x; try discriminate; intros _; eexists; reflexivity. Qed.
  Lemma mul_zero (x : float) s : is_finite x = true -> exists s', fmul x (B754_zero s) = B754_zero s'.
  Proof. destruct x; try discriminate; intros _; eexists; reflexivity. Qed.
  Lemma sub_zero (p : float) s : same_number (fsub p (B754_zero s)) p.
  Proof.
    destruct p as [s0| | |s0 m e B]; try (left; reflexivity). right. cbn. unfold fsub, Bminus.
    destruct (Bool.eqb s0 (negb s)); repeat split; reflexivity.
  Qed.
  Lemma same_number_finite (x y : float) : same_number x y -> is_finite x = is_finite y.
  Proof. intros [-> |(A & B & _)]; congruence. Qed.
  Lemma same_number_trans (x y z : float) : same_number x y -> same_number y z -> same_number x z.
  Proof.
    intros [-> |(A & B & C)] [<- |(D & E & F)]; [left; reflexivity|right; auto|right; auto|right].
    split; [exact A|]. split; [exact E|]. congruence.
  Qed.
  Lemma sub_not_nan (p q : float) : is_nan p = false -> is_finite q = true -> is_nan (fsub p q) = false.
  Proof.
    intros Np Fq. destruct (is_finite p) eqn:Fp.
    - pose proof (Bminus_correct prec emax _ _ mode_NE p q Fp Fq) as C. cbn [round_mode] in C. destruct (Rlt_bool _ _).
      + destruct C as (_ & C & _). apply (finite_not_nan prec emax). exact C.
      + destruct C as (C & _). unfold fsub. destruct (Bminus mode_NE p q); try reflexivity. discriminate.
    - destruct p; try discriminate. destruct q; try discriminate; reflexivity.
  Qed.

  (** ** AdaGrad *)
  Lemma mul_small (a g : float) : is_finite a = true -> is_finite g = true -> Rabs (B2R a) <= 1 ->
    is_finite (fmul a g) = true /\ Rabs (B2R (fmul a g)) <= Rabs (B2R g) /\ (0 < B2R a -> Bsign (fmul a g) = Bsign g).
  Proof.
    intros Fa Fg Ha.
    assert (B : - Rabs (B2R g) <= B2R a * B2R g <= Rabs (B2R g)).
    { apply Rabs_le_inv. rewrite Rabs_mult. pose proof (Rabs_pos (B2R g)). nra. }
    assert (G : rnd (Rabs (B2R g)) = Rabs (B2R g)).
    { apply round_generic; [typeclasses eauto|]. apply generic_format_abs. apply generic_format_B2R. }
    assert (R : - Rabs (B2R g) <= rnd (B2R a * B2R g) <= Rabs (B2R g)).
    { split; [|rewrite <- G; apply rnd_le; lra]. rewrite <- G at 1. rewrite <- round_NE_opp. apply rnd_le. lra. }
    pose proof (float_top prec emax prec_gt_0_ g) as T.
    assert (T' : - top <= rnd (B2R a * B2R g) <= top).
    { assert (Rabs (B2R g) <= top) by (apply Rabs_le; lra). lra. }
    destruct (fmul_ok prec emax prec_gt_0_ prec_lt_emax_ a g Fa Fg T') as (F & V).
    split; [exact F|]. split; [rewrite V; apply Rabs_le; exact R|].
    intros P. pose proof (Bmult_correct prec emax _ _ mode_NE a g) as C. cbn [round_mode] in C.
    rewrite (within_top prec emax _ T') in C. destruct C as (_ & _ & C).
    unfold fmul. rewrite C; [|apply (finite_not_nan prec emax); exact F]. rewrite (pos_sign a P). apply xorb_false_l.
  Qed.
  Lemma square_nonneg (g : float) : is_finite g = true -> nonnegative (fmul g g).
  Proof. intros F. destruct (mul_nonneg g g F F eq_refl) as [(A & _ & B)| ->]; [left|right]; auto. Qed.
  Lemma one_le_top : 1 <= top.
  Proof. apply (int_top prec emax prec_gt_0_ prec_lt_emax_ 1). pose proof (pow_prec_ge prec emax prec_gt_0_ prec_lt_emax_). lia. Qed.
  Lemma div_small (x d : float) b : is_finite x = true -> 0 < B2R d -> Rabs (B2R x) <= b * B2R d -> b <= top -> is_finite (fdiv x d) = true.
  Proof.
    intros Fx Hd Hx Hb. apply (fdiv_ok prec emax prec_gt_0_ prec_lt_emax_); [exact Fx|lra|].
    apply (rnd_top prec emax prec_gt_0_ prec_lt_emax_). apply Rabs_le_inv. unfold Rdiv. rewrite Rabs_mult, Rabs_inv, (Rabs_pos_eq (B2R d)) by lra.
    apply (Rle_trans _ b); [|exact Hb]. apply (Rmult_le_reg_r (B2R d)); [exact Hd|]. rewrite Rmult_assoc, Rinv_l by lra. lra.
  Qed.
  Lemma adagrad_quotient (lr eps h g : float) :
    is_finite lr = true -> Rabs (B2R lr) <= 1 -> 0 < B2R eps -> 1 <= B2R eps * top -> nonnegative h -> is_finite g = true ->
    is_finite (fdiv (fmul lr g) (fadd (fsqrt (fadd h (fmul g g))) eps)) = true.
  Proof.
    intros Fl Hl He Ht Hh Fg. destruct (mul_small lr g Fl Fg Hl) as (Fx & Bx & _).
    pose proof (square_nonneg g Fg) as Hs. pose proof (add_nonnegative h _ Hh Hs) as Hh'.
    destruct (denominator_ok _ eps Hh' He) as [(F' & Fd & De & Ds)|I].
    2: { rewrite I. destruct (div_inf _ Fx) as (s & ->). reflexivity. }
    pose proof (float_top prec emax prec_gt_0_ g) as Tg.
    assert (Tg' : Rabs (B2R g) <= top) by (apply Rabs_le; lra).
    destruct (Rle_or_lt 1 (Rabs (B2R g))) as [G|G].
    - assert (D1 : 1 <= B2R (fadd (fsqrt (fadd h (fmul g g))) eps)).
      { apply (Rle_trans _ (B2R (fsqrt (fadd h (fmul g g))))); [|exact Ds].
        destruct (sqrt_nonneg _ Hh') as [(_ & _ & V & _)|(E & _)]; [|rewrite E in F'; discriminate].
        assert (R1 : rnd 1 = 1) by (apply (rnd_int prec emax prec_gt_0_ prec_lt_emax_ 1); pose proof (pow_prec_ge prec emax prec_gt_0_ prec_lt_emax_); lia).
        rewrite V, <- R1. apply rnd_le. rewrite <- sqrt_1. apply sqrt_le_1_alt.
        destruct (add_nonneg h _ Hh Hs) as [(_ & Fs & _ & W & Ph & _ & _)|E]; [|rewrite E in F'; discriminate].
        rewrite W, <- R1. apply rnd_le. destruct (mul_nonneg g g Fg Fg eq_refl) as [(_ & U & _)|E]; [|rewrite E in Fs; discriminate].
        assert (Q : 1 <= rnd (B2R g * B2R g)).
        { rewrite <- R1 at 1. apply rnd_le. replace (B2R g * B2R g) with (Rabs (B2R g) * Rabs (B2R g)); [nra|].
          rewrite <- Rabs_mult. apply Rabs_pos_eq. nra. }
        rewrite U. lra. }
      apply (div_small _ _ (Rabs (B2R g))); [exact Fx|lra|nra|exact Tg'].
    - apply (div_small _ _ top); [exact Fx|lra| |lra].
      apply (Rle_trans _ 1); [lra|]. apply (Rle_trans _ (B2R eps * top)); [exact Ht|].
      pose proof one_le_top. nra.
  Qed.
  Lemma adagrad_step (lr eps p h g : float) :
    is_finite lr = true -> Rabs (B2R lr) <= 1 -> 0 < B2R eps -> 1 <= B2R eps * top ->
    is_nan p = false -> nonnegative h -> is_finite g = true ->
    is_nan (fst (adagrad_elem lr eps (p, h) g)) = false /\ nonnegative (snd (adagrad_elem lr eps (p, h) g)).
  Proof.
    intros Fl Hl He Ht Np Hh Fg. unfold adagrad_elem. cbn [fst snd]. split.
    - apply sub_not_nan; [exact Np|]. apply adagrad_quotient; auto.
    - apply add_nonnegative; [exact Hh|]. apply square_nonneg. exact Fg.
  Qed.
  Lemma adagrad_stuck (lr eps p g : float) : is_finite (fmul lr g) = true -> 0 < B2R eps -> is_finite g = true ->
    same_number (fst (adagrad_elem lr eps (p, inf) g)) p /\ snd (adagrad_elem lr eps (p, inf) g) = inf.
  Proof.
    intros Fx He Fg. unfold adagrad_elem. cbn [fst snd]. destruct (add_inf _ (square_nonneg g Fg)) as (_ & ->). split; [|reflexivity].
    assert (Ne : nonnegative eps) by (left; split; [apply pos_finite; exact He|lra]).
    change (fsqrt inf) with inf. destruct (add_inf _ Ne) as (_ & ->). destruct (div_inf _ Fx) as (s & ->). apply sub_zero.
  Qed.
  Lemma adagrad_blow (lr eps p h g : float) : is_finite (fmul lr g) = true -> 0 < B2R eps -> is_finite g = true -> nonnegative h ->
    bpow emax <= B2R g * B2R g ->
    same_number (fst (adagrad_elem lr eps (p, h) g)) p /\ snd (adagrad_elem lr eps (p, h) g) = inf.
  Proof.
    intros Fx He Fg Hh Hg. unfold adagrad_elem. cbn [fst snd]. rewrite (mul_overflow g g Fg Fg eq_refl Hg).
    destruct (add_inf h Hh) as (-> & _). split; [|reflexivity].
    assert (Ne : nonnegative eps) by (left; split; [apply pos_finite; exact He|lra]).
    change (fsqrt inf) with inf. destruct (add_inf _ Ne) as (_ & ->). destruct (div_inf _ Fx) as (s & ->). apply sub_zero.
  Qed.

  (** ** Adam *)
  Notation step1 := (bpow (fexp 0)).
  Lemma below_one (y : float) : B2R y < 1 -> B2R y <= 1 - step1.
  Proof.
    intros H. destruct (sizes prec emax prec_gt_0_ prec_lt_emax_) as [P E].
    assert (F1 : generic_format radix2 fexp (bpow 0)) by (apply generic_format_bpow; unfold SpecFloat.fexp, SpecFloat.emin; lia).
    change 1 with (bpow 0). rewrite <- pred_bpow. apply pred_ge_gt; [typeclasses eauto|apply generic_format_B2R|exact F1|exact H].
  Qed.
  Lemma one_minus (y : float) : is_finite y = true -> 0 <= B2R y < 1 ->
    is_finite (fsub fone y) = true /\ step1 <= B2R (fsub fone y) <= 1.
  Proof.
    intros Fy Hy. destruct (sizes prec emax prec_gt_0_ prec_lt_emax_) as [P E]. destruct (fone_ok prec emax prec_gt_0_ prec_lt_emax_) as (F1 & V1).
    assert (R1 : rnd 1 = 1) by (apply (rnd_int prec emax prec_gt_0_ prec_lt_emax_ 1); pose proof (pow_prec_ge prec emax prec_gt_0_ prec_lt_emax_); lia).
    assert (D : rnd step1 = step1).
    { apply round_generic; [typeclasses eauto|]. apply generic_format_bpow. unfold SpecFloat.fexp, SpecFloat.emin. lia. }
    assert (B : step1 <= rnd (1 - B2R y) <= 1).
    { split; [rewrite <- D at 1|rewrite <- R1 at 2]; apply rnd_le; [|lra]. pose proof (below_one y (proj2 Hy)). lra. }
    pose proof one_le_top. pose proof (bpow_gt_0 radix2 (fexp 0)).
    destruct (fsub_ok prec emax prec_gt_0_ prec_lt_emax_ fone y F1 Fy) as (F & V); [rewrite V1; lra|].
    split; [exact F|]. rewrite V, V1. exact B.
  Qed.
  Lemma step1_inv : / step1 <= top.
  Proof.
    destruct (sizes prec emax prec_gt_0_ prec_lt_emax_) as [P E]. rewrite <- bpow_opp.
    apply (Rle_trans _ (bpow prec)).
    - apply bpow_le. unfold SpecFloat.fexp, SpecFloat.emin. lia.
    - rewrite <- IZR_Zpower by lia. apply (int_top prec emax prec_gt_0_ prec_lt_emax_). pose proof (pow_prec_ge prec emax prec_gt_0_ prec_lt_emax_). cbn. lia.
  Qed.
  Lemma correction_ok (powf : float -> float -> float) (b t : float) : powf_ok powf b -> is_finite t = true -> 1 <= B2R t ->
    is_finite (correction powf b t) = true /\ 1 <= B2R (correction powf b t).
  Proof.
    intros Hp Ft Ht. destruct (Hp t Ft Ht) as (Fy & Hy). destruct (one_minus _ Fy Hy) as (Fc & C1 & C2).
    destruct (fone_ok prec emax prec_gt_0_ prec_lt_emax_) as (F1 & V1). pose proof (bpow_gt_0 radix2 (fexp 0)) as Pd.
    assert (R1 : rnd 1 = 1) by (apply (rnd_int prec emax prec_gt_0_ prec_lt_emax_ 1); pose proof (pow_prec_ge prec emax prec_gt_0_ prec_lt_emax_); lia).
    unfold correction. set (c := fsub fone (powf b t)) in *.
    assert (I : 1 <= 1 / B2R c <= / step1).
    { unfold Rdiv. rewrite Rmult_1_l. split; [rewrite <- Rinv_1|]; apply Rinv_le_contravar; lra. }
    pose proof step1_inv. pose proof one_le_top.
    destruct (fdiv_ok prec emax prec_gt_0_ prec_lt_emax_ fone c F1) as (F & V); [lra| |].
    - rewrite V1. apply (rnd_top prec emax prec_gt_0_ prec_lt_emax_). lra.
    - split; [exact F|]. rewrite V, V1, <- R1 at 1. apply rnd_le. apply I.
  Qed.
  Lemma mul_nonnegative (v b : float) : nonnegative v -> 0 < B2R b -> nonnegative (fmul v b).
  Proof.
    intros [[F P]| ->] H.
    - pose proof (pos_finite b H) as Fb. destruct (Bsign v) eqn:S.
      + assert (Z : B2R v = 0) by (apply sign_neg in S; lra).
        destruct v as [s| | |s m e B]; try discriminate.
        * left. destruct b; try discriminate; cbn in *; split; try reflexivity; lra.
        * exfalso. cbn in S. subst s. cbn in Z. assert (N : F2R (Float radix2 (Z.neg m) e) < 0) by (apply F2R_lt_0; cbn; lia). cbn in Z. lra.
      + destruct (mul_nonneg v b F Fb) as [(A & _ & B)| ->]; [rewrite S; symmetry; apply pos_sign; exact H|left|right]; auto.
    - right. pose proof (pos_sign b H) as S. destruct b as [| | |s m e B]; cbn in *; try lra. subst s. reflexivity.
  Qed.
  Lemma inf_mul (b : float) : 0 < B2R b -> fmul inf b = inf.
  Proof. intros H. pose proof (pos_sign b H) as S. destruct b as [| | |s m e B]; cbn in *; try lra. subst s. reflexivity. Qed.
  Lemma adam_square (b2 g : float) : is_finite b2 = true -> 0 < B2R b2 < 1 -> is_finite g = true ->
    nonnegative (fmul (fmul (fsub fone b2) g) g) /\
    (bpow emax <= B2R (fmul (fsub fone b2) g) * B2R g -> fmul (fmul (fsub fone b2) g) g = inf).
  Proof.
    intros Fb Hb Fg. destruct (one_minus b2 Fb) as (Ft & T1 & T2); [lra|]. pose proof (bpow_gt_0 radix2 (fexp 0)) as Pd.
    destruct (mul_small _ g Ft Fg) as (Fx & _ & S); [apply Rabs_le; lra|]. specialize (S ltac:(lra)).
    split; [|intros H; apply mul_overflow; auto].
    destruct (mul_nonneg _ g Fx Fg S) as [(A & _ & B)| ->]; [left|right]; auto.
  Qed.
  Lemma adam_v_nonneg (b2 v g : float) : is_finite b2 = true -> 0 < B2R b2 < 1 -> is_finite g = true -> nonnegative v ->
    nonnegative (adam_v b2 v g).
  Proof.
    intros Fb Hb Fg Hv. unfold adam_v. apply add_nonnegative; [apply mul_nonnegative; [exact Hv|lra]|]. apply adam_square; auto.
  Qed.
  Lemma adam_v_stuck (b2 g : float) : is_finite b2 = true -> 0 < B2R b2 < 1 -> is_finite g = true -> adam_v b2 inf g = inf.
  Proof.
    intros Fb Hb Fg. unfold adam_v. rewrite inf_mul by lra. apply add_inf. apply adam_square; auto.
  Qed.
  Lemma adam_v_blow (b2 v g : float) : is_finite b2 = true -> 0 < B2R b2 < 1 -> is_finite g = true -> nonnegative v ->
    bpow emax <= B2R (fmul (fsub fone b2) g) * B2R g -> adam_v b2 v g = inf.
  Proof.
    intros Fb Hb Fg Hv H. unfold adam_v. rewrite (proj2 (adam_square b2 g Fb Hb Fg) H). apply add_inf. apply mul_nonnegative; [exact Hv|lra].
  Qed.
  Lemma adam_infinite_v (powf : float -> float -> float) (alpha eps b1 b2 : float) (s : adam_state prec emax) (g : float) :
    is_finite alpha = true -> 0 < B2R eps -> powf_ok powf b2 -> is_finite (s_t s) = true -> 1 <= B2R (s_t s) ->
    adam_v b2 (s_v s) g = inf -> is_finite (adam_m_hat powf b1 s g) = true ->
    same_number (s_p (adam_elem powf alpha eps b1 b2 s g)) (s_p s) /\ s_v (adam_elem powf alpha eps b1 b2 s g) = inf.
  Proof.
    intros Fa He Hp Ft Ht Hv Fm. unfold adam_elem. cbn [s_p s_v]. rewrite Hv. split; [|reflexivity].
    destruct (correction_ok powf b2 (s_t s) Hp Ft Ht) as (_ & C). rewrite inf_mul by lra. change (fsqrt inf) with inf.
    assert (Ne : nonnegative eps) by (left; split; [apply pos_finite; exact He|lra]).
    destruct (add_inf _ Ne) as (_ & ->). destruct (div_inf _ Fm) as (z & ->). destruct (mul_zero alpha z Fa) as (z' & ->). apply sub_zero.
  Qed.
  Lemma adam_not_nan (powf : float -> float -> float) (alpha eps b1 b2 : float) (s : adam_state prec emax) (g : float) :
    is_finite alpha = true -> 0 < B2R alpha -> 0 < B2R eps -> powf_ok powf b2 -> is_finite b2 = true -> 0 < B2R b2 < 1 ->
    is_finite (s_t s) = true -> 1 <= B2R (s_t s) -> nonnegative (s_v s) -> is_finite (s_p s) = true -> is_finite g = true ->
    is_finite (adam_m_hat powf b1 s g) = true ->
    is_nan (s_p (adam_elem powf alpha eps b1 b2 s g)) = false /\ nonnegative (s_v (adam_elem powf alpha eps b1 b2 s g)).
  Proof.
    intros Fa Pa He Hp Fb Hb Ft Ht Hv Fp Fg Fm. pose proof (adam_v_nonneg b2 _ g Fb Hb Fg Hv) as Hv'.
    split; [|exact Hv']. unfold adam_elem. cbn [s_p].
    destruct (correction_ok powf b2 (s_t s) Hp Ft Ht) as (_ & C).
    assert (Hh : nonnegative (fmul (adam_v b2 (s_v s) g) (correction powf b2 (s_t s)))) by (apply mul_nonnegative; [exact Hv'|lra]).
    set (m := adam_m_hat powf b1 s g) in *.
    destruct (denominator_ok _ eps Hh He) as [(_ & Fd & De & _)|I].
    - set (d := fadd _ eps) in *. 
      assert (Q : is_nan (fdiv m d) = false).
      { pose proof (Bdiv_correct prec emax _ _ mode_NE m d) as D. cbn [round_mode] in D. specialize (D ltac:(lra)).
        destruct (Rlt_bool _ _).
        - destruct D as (_ & D & _). apply (finite_not_nan prec emax). unfold fdiv. rewrite D. exact Fm.
        - unfold fdiv. destruct (Bdiv mode_NE m d); try reflexivity. discriminate. }
      assert (Q2 : is_nan (fmul alpha (fdiv m d)) = false).
      { destruct (is_finite (fdiv m d)) eqn:Fq.
        - pose proof (Bmult_correct prec emax _ _ mode_NE alpha (fdiv m d)) as D. cbn [round_mode] in D. destruct (Rlt_bool _ _).
          + destruct D as (_ & D & _). rewrite Fa, Fq in D. apply (finite_not_nan prec emax). exact D.
          + unfold fmul. destruct (Bmult mode_NE alpha (fdiv m d)); try reflexivity. discriminate.
        - destruct (fdiv m d) as [|s0| |]; try discriminate. destruct alpha; cbn in Pa, Fa; try lra; try discriminate. reflexivity. }
      destruct (is_finite (fmul alpha (fdiv m d))) eqn:F2.
      + apply sub_not_nan; [apply (finite_not_nan prec emax); exact Fp|exact F2].
      + destruct (fmul alpha (fdiv m d)); try discriminate. destruct (s_p s); try discriminate; reflexivity.
    - rewrite I. destruct (div_inf _ Fm) as (z & ->). destruct (mul_zero alpha z Fa) as (z' & ->).
      apply sub_not_nan; [apply (finite_not_nan prec emax); exact Fp|reflexivity].
  Qed.

  (** ** The step counter *)
  Lemma counts_next (t : float) k : counts t k -> (0 <= k < 2 ^ prec)%Z -> counts (fadd t fone) (k + 1).
  Proof.
    intros (F & V) Hk. destruct (fone_ok prec emax prec_gt_0_ prec_lt_emax_) as (F1 & V1).
    assert (R : rnd (IZR k + 1) = IZR (k + 1)).
    { rewrite <- plus_IZR. apply (rnd_int prec emax prec_gt_0_ prec_lt_emax_). lia. }
    destruct (fadd_ok prec emax prec_gt_0_ prec_lt_emax_ t fone F F1) as (A & B).
    - rewrite V, V1, R. pose proof (int_top prec emax prec_gt_0_ prec_lt_emax_ (k + 1) ltac:(lia)). lra.
    - split; [exact A|]. rewrite B, V, V1. exact R.
  Qed.
  Lemma rnd_tie : (1 < prec)%Z -> rnd (bpow prec + 1) = bpow prec.
  Proof.
    intros P1. destruct (sizes prec emax prec_gt_0_ prec_lt_emax_) as [P E].
    assert (B1 : 1 < bpow prec) by (change 1 with (bpow 0); apply bpow_lt; lia).
    assert (M : mag radix2 (bpow prec + 1) = (prec + 1)%Z :> Z).
    { apply mag_unique_pos. replace (prec + 1 - 1)%Z with prec by ring. split; [lra|]. rewrite bpow_plus. change (bpow 1) with 2. lra. }
    assert (C : cexp radix2 fexp (bpow prec + 1) = 1%Z).
    { unfold cexp. rewrite M. unfold SpecFloat.fexp, SpecFloat.emin. lia. }
    unfold round, scaled_mantissa. rewrite C.
    assert (S : (bpow prec + 1) * bpow (- (1)) = bpow (prec - 1) + / 2).
    { rewrite Rmult_plus_distr_r, <- bpow_plus. change (bpow (- (1))) with (/ 2). replace (prec + - (1))%Z with (prec - 1)%Z by ring. lra. }
    rewrite S. rewrite <- IZR_Zpower by lia. set (n := Z.pow radix2 (prec - 1)).
    assert (Ev : Z.even n = true).
    { unfold n. cbn [radix_val radix2]. replace (prec - 1)%Z with (Z.succ (prec - 2)) by lia. rewrite Z.pow_succ_r by lia. rewrite Z.even_mul. reflexivity. }
    assert (Q : ZnearestE (IZR n + / 2) = n).
    { unfold Znearest. assert (Fl : Zfloor (IZR n + / 2) = n) by (apply Zfloor_imp; rewrite plus_IZR; lra). rewrite Fl.
      replace (IZR n + / 2 - IZR n) with (/ 2) by ring. rewrite Rcompare_Eq by lra. rewrite Ev. reflexivity. }
    rewrite Q. unfold F2R. cbn [Fnum Fexp]. unfold n. rewrite IZR_Zpower by lia. rewrite <- bpow_plus. f_equal. ring.
  Qed.
  Lemma bpow_prec_top : 0 <= bpow prec <= top.
  Proof.
    destruct (sizes prec emax prec_gt_0_ prec_lt_emax_) as [P E]. pose proof (int_top prec emax prec_gt_0_ prec_lt_emax_ (2 ^ prec)) as T.
    pose proof (pow_prec_ge prec emax prec_gt_0_ prec_lt_emax_). specialize (T ltac:(lia)).
    change (2 ^ prec)%Z with (Z.pow radix2 prec) in T. rewrite IZR_Zpower in T by lia. exact T.
  Qed.
  Lemma counts_stuck (t : float) : (1 < prec)%Z -> counts t (2 ^ prec) -> counts (fadd t fone) (2 ^ prec).
  Proof.
    intros P1 (F & V). destruct (sizes prec emax prec_gt_0_ prec_lt_emax_) as [P E]. destruct (fone_ok prec emax prec_gt_0_ prec_lt_emax_) as (F1 & V1).
    change (2 ^ prec)%Z with (Z.pow radix2 prec) in *. rewrite IZR_Zpower in V by lia.
    destruct (fadd_ok prec emax prec_gt_0_ prec_lt_emax_ t fone F F1) as (A & B).
    - rewrite V, V1, rnd_tie by exact P1. pose proof bpow_prec_top. lra.
    - split; [exact A|]. rewrite B, V, V1, rnd_tie by exact P1. rewrite IZR_Zpower by lia. reflexivity.
  Qed.

  (** ** Steps that are too small *)
  Lemma half_gap x : 0 < x -> generic_format radix2 fexp x -> pred radix2 fexp x <= x - ulp radix2 fexp x / 2.
  Proof.
    intros Hx Fx. rewrite pred_eq_pos by lra. unfold pred_pos. destruct (Req_bool_spec x (bpow (mag radix2 x - 1))) as [Ex|_].
    - rewrite (ulp_neq_0 radix2 fexp x) by lra. unfold cexp.
      assert (G : bpow (fexp (mag radix2 x)) / 2 <= bpow (fexp (mag radix2 x - 1))).
      { replace (bpow (fexp (mag radix2 x)) / 2) with (bpow (fexp (mag radix2 x) + - (1))).
        - apply bpow_le. unfold SpecFloat.fexp. lia.
        - rewrite bpow_plus. change (bpow (- (1))) with (/ 2). reflexivity. }
      lra.
    - pose proof (ulp_ge_0 radix2 fexp x). lra.
  Qed.
  Lemma absorbed x d : generic_format radix2 fexp x -> x <> 0 -> Rabs d < ulp radix2 fexp x / 4 -> rnd (x - d) = x.
  Proof.
    assert (Pos : forall x d, generic_format radix2 fexp x -> 0 < x -> Rabs d < ulp radix2 fexp x / 4 -> rnd (x - d) = x).
    { clear x d. intros x d Fx Hx Hd. apply Rabs_lt_inv in Hd. pose proof (half_gap x Hx Fx) as Hp.
      assert (Hs : succ radix2 fexp x = x + ulp radix2 fexp x) by (apply succ_eq_pos; lra).
      apply Rle_antisym.
      - apply round_N_le_midp; [typeclasses eauto|exact Fx|]. rewrite Hs. lra.
      - apply round_N_ge_midp; [typeclasses eauto|exact Fx|]. lra. }
    intros Fx Nx Hd. destruct (Rlt_or_le 0 x) as [P|P]; [apply Pos; auto|].
    assert (E : rnd (- x - - d) = - x).
    { apply Pos; [apply generic_format_opp; exact Fx|lra|]. rewrite ulp_opp, Rabs_Ropp. exact Hd. }
    replace (- x - - d) with (- (x - d)) in E by ring. rewrite round_NE_opp in E. lra.
  Qed.
  Lemma sgd_absorbed (alpha p g : float) : is_finite p = true -> B2R p <> 0 -> is_finite (fmul alpha g) = true ->
    Rabs (B2R (fmul alpha g)) < ulp radix2 fexp (B2R p) / 4 -> same_number (sgd_elem alpha p g) p.
  Proof.
    intros Fp Np Fx H. unfold sgd_elem.
    assert (A : rnd (B2R p - B2R (fmul alpha g)) = B2R p) by (apply absorbed; auto using generic_format_B2R).
    destruct (fsub_ok prec emax prec_gt_0_ prec_lt_emax_ p (fmul alpha g) Fp Fx) as (F & V).
    - rewrite A. apply (float_top prec emax prec_gt_0_).
    - right. split; [exact F|]. split; [exact Fp|]. rewrite V. exact A.
  Qed.

  (** ** Steps as formulas with every operation rounded *)
  Lemma overflow_not_finite (x : float) s : B2SF x = binary_overflow prec emax mode_NE s -> is_finite x = false.
  Proof. unfold binary_overflow. cbn. destruct x; cbn; intros H; try reflexivity; discriminate. Qed.
  Lemma fadd_fin (a b : float) : is_finite (fadd a b) = true -> is_finite a = true /\ is_finite b = true /\ B2R (fadd a b) = nearest prec emax (B2R a + B2R b).
  Proof.
    intros F. assert (Fa : is_finite a = true) by (destruct a as [|[]| |], b as [|[]| |]; try discriminate F; reflexivity).
    assert (Fb : is_finite b = true) by (destruct a as [|[]| |], b as [|[]| |]; try discriminate F; reflexivity). split; [exact Fa|]. split; [exact Fb|].
    pose proof (Bplus_correct prec emax _ _ mode_NE a b Fa Fb) as C. cbn [round_mode] in C. destruct (Rlt_bool _ _); [apply C|].
    destruct C as (C & _). apply overflow_not_finite in C. unfold fadd in F. congruence.
  Qed.
  Lemma fsub_fin (a b : float) : is_finite (fsub a b) = true -> is_finite a = true /\ is_finite b = true /\ B2R (fsub a b) = nearest prec emax (B2R a - B2R b).
  Proof.
    intros F. assert (Fa : is_finite a = true) by (destruct a as [|[]| |], b as [|[]| |]; try discriminate F; reflexivity).
    assert (Fb : is_finite b = true) by (destruct a as [|[]| |], b as [|[]| |]; try discriminate F; reflexivity). split; [exact Fa|]. split; [exact Fb|].
    pose proof (Bminus_correct prec emax _ _ mode_NE a b Fa Fb) as C. cbn [round_mode] in C. destruct (Rlt_bool _ _); [apply C|].
    destruct C as (C & _). apply overflow_not_finite in C. unfold fsub in F. congruence.
  Qed.
  Lemma fmul_fin (a b : float) : is_finite (fmul a b) = true -> is_finite a = true /\ is_finite b = true /\ B2R (fmul a b) = nearest prec emax (B2R a * B2R b).
  Proof.
    intros F. assert (Fa : is_finite a = true) by (destruct a as [|[]| |], b as [|[]| |]; try discriminate F; reflexivity).
    assert (Fb : is_finite b = true) by (destruct a as [|[]| |], b as [|[]| |]; try discriminate F; reflexivity). split; [exact Fa|]. split; [exact Fb|].
    pose proof (Bmult_correct prec emax _ _ mode_NE a b) as C. cbn [round_mode] in C. destruct (Rlt_bool _ _); [apply C|].
    apply overflow_not_finite in C. unfold fmul in F. congruence.
  Qed.
  Lemma fdiv_fin (a b : float) : is_finite (fdiv a b) = true -> B2R b <> 0 -> is_finite a = true /\ B2R (fdiv a b) = nearest prec emax (B2R a / B2R b).
  Proof.
    intros F Nb. assert (Fa : is_finite a = true) by (destruct a as [|[]| |], b as [|[]| |]; try discriminate F; reflexivity). split; [exact Fa|].
    pose proof (Bdiv_correct prec emax _ _ mode_NE a b Nb) as C. cbn [round_mode] in C. destruct (Rlt_bool _ _); [apply C|].
    apply overflow_not_finite in C. unfold fdiv in F. congruence.
  Qed.
  Lemma fadd_fits (a b : float) : is_finite a = true -> is_finite b = true -> Rabs (nearest prec emax (B2R a + B2R b)) < bpow emax ->
    is_finite (fadd a b) = true /\ B2R (fadd a b) = nearest prec emax (B2R a + B2R b).
  Proof.
    intros Fa Fb H. pose proof (Bplus_correct prec emax _ _ mode_NE a b Fa Fb) as C. cbn [round_mode] in C. unfold nearest in *.
    rewrite Rlt_bool_true in C by exact H. destruct C as (C1 & C2 & _). split; assumption.
  Qed.
  Lemma fmul_fits (a b : float) : is_finite a = true -> is_finite b = true -> Rabs (nearest prec emax (B2R a * B2R b)) < bpow emax ->
    is_finite (fmul a b) = true /\ B2R (fmul a b) = nearest prec emax (B2R a * B2R b).
  Proof.
    intros Fa Fb H. pose proof (Bmult_correct prec emax _ _ mode_NE a b) as C. cbn [round_mode] in C. unfold nearest in *.
    rewrite Rlt_bool_true in C by exact H. destruct C as (C1 & C2 & _). rewrite Fa, Fb in C2. split; assumption.
  Qed.
  Notation N := (nearest prec emax).
  Lemma root_fits (x eps : float) : nonnegative x -> is_finite (fadd (fsqrt x) eps) = true -> Rabs (N (N (sqrt (B2R x)) + B2R eps)) < bpow emax.
  Proof.
    intros Nx F. destruct (sqrt_nonneg x Nx) as [(_ & _ & Vs & _)|(_ & E)].
    - unfold nearest at 2. rewrite <- Vs. apply fadd_fin in F. destruct F as (_ & _ & <-). apply abs_B2R_lt_emax.
    - rewrite E in F. destruct eps as [|[]| |]; discriminate.
  Qed.
  Lemma product_fits (a b : float) : is_finite (fmul a b) = true -> Rabs (N (B2R a * B2R b)) < bpow emax.
  Proof. intros F. apply fmul_fin in F. destruct F as (_ & _ & <-). apply abs_B2R_lt_emax. Qed.
  Lemma sgd_rounded (alpha p g : float) : is_finite (sgd_elem alpha p g) = true ->
    B2R (sgd_elem alpha p g) = N (B2R p - N (B2R alpha * B2R g)).
  Proof. unfold sgd_elem. intros F. apply fsub_fin in F. destruct F as (_ & F & ->). apply fmul_fin in F. destruct F as (_ & _ & ->). reflexivity. Qed.
  Lemma momentum_rounded (lr mu p v g : float) : let r := momentum_elem lr mu (p, v) g in is_finite (fst r) = true ->
    B2R (snd r) = N (N (B2R v * B2R mu) - N (B2R lr * B2R g)) /\ B2R (fst r) = N (B2R p + B2R (snd r)).
  Proof.
    unfold momentum_elem. cbn [fst snd]. intros F. apply fadd_fin in F. destruct F as (_ & F & ->). split; [|reflexivity].
    apply fsub_fin in F. destruct F as (F1 & F2 & ->). apply fmul_fin in F1, F2. destruct F1 as (_ & _ & ->), F2 as (_ & _ & ->). reflexivity.
  Qed.
  Lemma root_positive (x eps : float) : nonnegative x -> is_finite x = true -> 0 < B2R eps -> Rabs (N (N (sqrt (B2R x)) + B2R eps)) < bpow emax ->
    is_finite (fadd (fsqrt x) eps) = true /\ B2R (fadd (fsqrt x) eps) = N (N (sqrt (B2R x)) + B2R eps) /\ B2R (fadd (fsqrt x) eps) <> 0.
  Proof.
    intros Nx Fx He B. destruct (sqrt_nonneg x Nx) as [(_ & Fs & Vs & Ps)|(-> & _)]; [|discriminate].
    destruct (fadd_fits (fsqrt x) eps Fs (pos_finite _ He)) as (F & V); [rewrite Vs; exact B|].
    split; [exact F|]. rewrite Vs in V. split; [exact V|].
    destruct (denominator_ok x eps Nx He) as [(_ & _ & D & _)|D]; [lra|]. rewrite D in F. discriminate.
  Qed.
  Lemma adagrad_rounded (lr eps p h g : float) : let r := adagrad_elem lr eps (p, h) g in
    nonnegative h -> is_finite g = true -> 0 < B2R eps -> is_finite (fst r) = true -> is_finite (snd r) = true ->
    Rabs (N (N (sqrt (B2R (snd r))) + B2R eps)) < bpow emax ->
    B2R (snd r) = N (B2R h + N (B2R g * B2R g)) /\
    B2R (fst r) = N (B2R p - N (N (B2R lr * B2R g) / N (N (sqrt (B2R (snd r))) + B2R eps))).
  Proof.
    unfold adagrad_elem. cbn [fst snd]. intros Nh Fg He F1 F2 B.
    assert (Nn : nonnegative (fadd h (fmul g g))) by (apply add_nonnegative; [exact Nh|apply square_nonneg; exact Fg]).
    destruct (root_positive _ eps Nn F2 He B) as (_ & Vd & Nd). split.
    - apply fadd_fin in F2. destruct F2 as (_ & F2 & ->). apply fmul_fin in F2. destruct F2 as (_ & _ & ->). reflexivity.
    - apply fsub_fin in F1. destruct F1 as (_ & F1 & ->). apply fdiv_fin in F1; [|exact Nd]. destruct F1 as (F1 & ->). apply fmul_fin in F1. destruct F1 as (_ & _ & ->). rewrite Vd. reflexivity.
  Qed.
  Lemma correction_rounded (powf : float -> float -> float) (b t : float) : powf_ok powf b -> is_finite t = true -> 1 <= B2R t ->
    B2R (correction powf b t) = N (1 / N (1 - B2R (powf b t))).
  Proof.
    intros Hp Ft Ht. destruct (correction_ok powf b t Hp Ft Ht) as (F & _). destruct (Hp t Ft Ht) as (Fy & Hy). destruct (one_minus _ Fy Hy) as (Fc & C1 & C2).
    destruct (fone_ok prec emax prec_gt_0_ prec_lt_emax_) as (_ & V1). pose proof (bpow_gt_0 radix2 (fexp 0)) as Pd.
    unfold correction in *. apply fdiv_fin in F; [|lra]. destruct F as (_ & ->). apply fsub_fin in Fc. destruct Fc as (_ & _ & ->). rewrite V1. reflexivity.
  Qed.
  Lemma adam_rounded (powf : float -> float -> float) (alpha eps b1 b2 : float) (s : adam_state prec emax) (g : float) :
    let r := adam_elem powf alpha eps b1 b2 s g in
    let c1 := N (1 / N (1 - B2R (powf b1 (s_t s)))) in let c2 := N (1 / N (1 - B2R (powf b2 (s_t s)))) in
    let root := N (N (sqrt (N (B2R (s_v r) * c2))) + B2R eps) in
    powf_ok powf b1 -> powf_ok powf b2 -> is_finite (s_t s) = true -> 1 <= B2R (s_t s) -> 0 < B2R eps ->
    is_finite b2 = true -> 0 < B2R b2 < 1 -> nonnegative (s_v s) -> is_finite g = true ->
    is_finite (s_p r) = true -> is_finite (s_v r) = true -> Rabs (N (B2R (s_v r) * c2)) < bpow emax -> Rabs root < bpow emax ->
    B2R (s_m r) = N (N (B2R (s_m s) * B2R b1) + N (N (1 - B2R b1) * B2R g)) /\
    B2R (s_v r) = N (N (B2R (s_v s) * B2R b2) + N (N (N (1 - B2R b2) * B2R g) * B2R g)) /\
    B2R (s_p r) = N (B2R (s_p s) - N (B2R alpha * N (N (B2R (s_m r) * c1) / root))).
  Proof.
    intros r c1 c2 root P1 P2 Ft Ht He Fb2 Hb2 Nv Fg Fp Fv B1 B2.
    destruct (correction_ok powf b1 (s_t s) P1 Ft Ht) as (Fc1 & _). destruct (correction_ok powf b2 (s_t s) P2 Ft Ht) as (Fc2 & G2).
    pose proof (correction_rounded powf b1 (s_t s) P1 Ft Ht) as Vc1. pose proof (correction_rounded powf b2 (s_t s) P2 Ft Ht) as Vc2. fold c1 in Vc1. fold c2 in Vc2.
    destruct (fone_ok prec emax prec_gt_0_ prec_lt_emax_) as (_ & V1).
    unfold adam_elem in r. cbn [s_p s_v s_m] in *. unfold r in Fp, Fv, B1, B2, root |- *. cbn [s_p s_v s_m] in *. clear r.
    set (v' := adam_v b2 (s_v s) g) in *. set (vh := fmul v' (correction powf b2 (s_t s))) in *.
    destruct (fmul_fits v' (correction powf b2 (s_t s)) Fv Fc2) as (Fvh & Vvh); [rewrite Vc2; exact B1|]. fold vh in Fvh, Vvh.
    assert (Nvh : nonnegative vh) by (apply mul_nonnegative; [apply adam_v_nonneg; auto|lra]).
    unfold root in B2 |- *. rewrite <- Vc2, <- Vvh in B2 |- *.
    destruct (root_positive vh eps Nvh Fvh He B2) as (_ & Vd & Nd).
    apply fsub_fin in Fp. destruct Fp as (_ & Fp & ->). apply fmul_fin in Fp. destruct Fp as (_ & Fp & ->). apply fdiv_fin in Fp; [|exact Nd]. destruct Fp as (Fm & ->).
    rewrite Vd. unfold adam_m_hat in *. apply fmul_fin in Fm. destruct Fm as (Fm & _ & ->). rewrite Vc1. split; [|split; [|reflexivity]].
    - unfold adam_m in *. apply fadd_fin in Fm. destruct Fm as (Fa & Fb & ->). apply fmul_fin in Fa, Fb. destruct Fa as (_ & _ & ->), Fb as (Fb & _ & ->).
      apply fsub_fin in Fb. destruct Fb as (_ & _ & ->). rewrite V1. reflexivity.
    - unfold v', adam_v in *. apply fadd_fin in Fv. destruct Fv as (Fa & Fb & ->). apply fmul_fin in Fa, Fb. destruct Fa as (_ & _ & ->), Fb as (Fb & _ & ->).
      apply fmul_fin in Fb. destruct Fb as (Fb & _ & ->). apply fsub_fin in Fb. destruct Fb as (_ & _ & ->). rewrite V1. reflexivity.
  Qed.
End Floats.
