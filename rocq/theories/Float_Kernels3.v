(** Softplus, sigmoid cross entropy, relu, elu; infinities and NaN. *)
From Coq Require Import ZArith List Reals Lra Lia Permutation.
From Flocq Require Import Core BinarySingleNaN.
Import ListNotations.
From Verif Require Import Float_Model Float_Spec Float_Proofs Float_Kernels Float_Kernels2.
Local Open Scope R_scope.

Section Floats.
  Variables prec emax : Z.
  Context (prec_gt_0_ : Prec_gt_0 prec) (prec_lt_emax_ : Prec_lt_emax prec emax).
  Hypothesis roomy : (2 * prec + 1 < emax)%Z.
  Notation float := (binary_float prec emax).
  Notation fexp := (SpecFloat.fexp prec emax).
  Notation rnd := (round radix2 fexp ZnearestE).
  Notation bpow := (bpow radix2).
  Notation top := (bpow emax - bpow (emax - prec)).
  Notation within := (@within prec emax).
  Notation infinity := (@B754_infinity prec emax false).
  Notation NaN := (@B754_nan prec emax).
  Local Instance fexp_valid3 : Valid_exp fexp := FLT_exp_valid _ prec.

  Lemma one_cases : exists m e B, (@fone prec emax _ _) = B754_finite false m e B.
  Proof.
    pose proof (is_finite_strict_Bone prec emax _ _) as S. pose proof (Bsign_Bone prec emax _ _) as G.
    unfold fone. destruct Bone as [s|s| |s m e B]; try discriminate S. cbn in G. subst s. exists m, e, B. reflexivity.
  Qed.
  Lemma nan_add (a : float) : fadd a NaN = NaN /\ fadd NaN a = NaN.
  Proof. split; destruct a; reflexivity. Qed.
  Lemma nan_sub (a : float) : fsub a NaN = NaN /\ fsub NaN a = NaN.
  Proof. split; destruct a; reflexivity. Qed.
  Lemma nan_mul (a : float) : fmul a NaN = NaN /\ fmul NaN a = NaN.
  Proof. split; destruct a; reflexivity. Qed.
  Lemma nan_div (a : float) : fdiv a NaN = NaN /\ fdiv NaN a = NaN.
  Proof. split; destruct a; reflexivity. Qed.
  Lemma infinity_plus_one : fadd infinity fone = infinity /\ fadd fone infinity = infinity.
  Proof. destruct one_cases as (m & e & B & ->). split; reflexivity. Qed.
  Lemma infinity_ratio : fdiv infinity infinity = NaN.
  Proof. reflexivity. Qed.

  (** Not NaN, and between the two bounds if finite... *)
  Lemma mul_bound (p gy : float) c : is_finite p = true -> - c <= B2R p <= c -> 0 <= c -> c <= 1 -> is_finite gy = true ->
    within (- Rabs (B2R gy)) (Rabs (B2R gy)) (fmul p gy).
  Proof. intros Fp Bp Hc Hc1 Fg. apply mul_unit; auto. split; [exact Fp|lra]. Qed.
  Lemma fmul_comm (a b : float) : is_finite a = true -> is_finite b = true -> - top <= rnd (B2R a * B2R b) <= top ->
    B2R (fmul a b) = B2R (fmul b a).
  Proof.
    intros Fa Fb H. destruct (fmul_ok prec emax _ _ a b Fa Fb H) as [_ E]. rewrite Rmult_comm in H.
    destruct (fmul_ok prec emax _ _ b a Fb Fa H) as [_ E']. rewrite E, E', Rmult_comm. reflexivity.
  Qed.
  Lemma fmul_finite_not_nan (a b : float) : is_finite a = true -> is_finite b = true -> is_nan (fmul a b) = false.
  Proof.
    intros Fa Fb. pose proof (Bmult_correct prec emax _ _ mode_NE a b) as C. destruct (Rlt_bool _ _).
    - destruct C as (_ & C & _). apply finite_not_nan. unfold fmul. rewrite C, Fa, Fb. reflexivity.
    - unfold fmul. destruct (Bmult mode_NE a b); try reflexivity. cbn in C. unfold binary_overflow, overflow_to_inf in C. cbn in C. discriminate C.
  Qed.

  Section Exp.
    Variable libm_exp : float -> float.
    Hypothesis Hexp : exp_ok libm_exp.

    (** [e / (1 + e)] for a finite exponential. *)
    Lemma plus_one_ok (e : float) : is_finite e = true -> 0 <= B2R e ->
      is_finite (fadd e fone) = true /\ 1 <= B2R (fadd e fone) /\ B2R e <= B2R (fadd e fone) /\
      is_finite (fadd fone e) = true /\ B2R (fadd fone e) = B2R (fadd e fone).
    Proof.
      intros F H. destruct (fone_ok prec emax _ _) as [F1 B1].
      assert (R : - top <= rnd (B2R e + 1) <= top).
      { apply add_small; auto; [apply float_top; auto|]. pose proof (two_small prec prec_gt_0_). lra. }
      destruct (fadd_ok prec emax _ _ e fone F F1) as [A B]; [rewrite B1; exact R|]. rewrite B1 in B.
      destruct (fadd_ok prec emax _ _ fone e F1 F) as [A' B']; [rewrite B1, Rplus_comm; exact R|]. rewrite B1 in B'.
      split; [exact A|]. rewrite B. split; [rewrite <- (rnd_one prec emax) at 1; try assumption; apply rnd_le; auto; lra|].
      split; [rewrite <- (rnd_float prec emax e) at 1; apply rnd_le; auto; lra|]. split; [exact A'|]. rewrite B', Rplus_comm. reflexivity.
    Qed.
    Lemma logistic_ok (e d : float) : is_finite e = true -> 0 <= B2R e -> is_finite d = true -> 1 <= B2R d -> B2R e <= B2R d -> within 0 1 (fdiv e d).
    Proof.
      intros F H Fd Hd Hle.
      assert (Q : 0 <= B2R e / B2R d <= 1).
      { split; [apply Rmult_le_pos; [lra|left; apply Rinv_0_lt_compat; lra]|].
        apply (Rmult_le_reg_r (B2R d)); [lra|]. unfold Rdiv. rewrite Rmult_assoc, Rinv_l by lra. lra. }
      pose proof (rnd_unit prec emax _ _ _ Q) as R. destruct (fdiv_ok prec emax _ _ e d F ltac:(lra)) as [A B]; [apply unit_top; auto; lra|].
      split; [exact A|]. rewrite B. exact R.
    Qed.

    Lemma softplus_grad_ok (x gy : float) : is_finite x = true -> is_finite (libm_exp x) = true -> is_finite gy = true ->
      within (- Rabs (B2R gy)) (Rabs (B2R gy)) (softplus_grad libm_exp x gy).
    Proof.
      intros F Fe Fg. destruct (exp_not_negative _ _ _ Hexp x F) as [E|[_ H]]; [rewrite E in Fe; discriminate|].
      unfold softplus_grad. cbv zeta. destruct (plus_one_ok _ Fe H) as (A & B & C & _). destruct (logistic_ok _ _ Fe H A B C) as [Fr Br].
      destruct (mul_bound (fdiv (libm_exp x) (fadd (libm_exp x) fone)) gy 1 Fr ltac:(lra) ltac:(lra) ltac:(lra) Fg) as [F2 B2].
      assert (T : - top <= rnd (B2R (fdiv (libm_exp x) (fadd (libm_exp x) fone)) * B2R gy) <= top).
      { assert (Q : - Rabs (B2R gy) <= B2R (fdiv (libm_exp x) (fadd (libm_exp x) fone)) * B2R gy <= Rabs (B2R gy)).
        { apply Rabs_le_inv. rewrite Rabs_mult. pose proof (Rabs_pos (B2R gy)). assert (Rabs (B2R (fdiv (libm_exp x) (fadd (libm_exp x) fone))) <= 1) by (apply Rabs_le; lra). nra. }
        apply rnd_top; auto. pose proof (float_top prec emax _ (Babs gy)) as T. rewrite B2R_Babs in T. lra. }
      rewrite Rmult_comm in T. destruct (fmul_ok prec emax _ _ _ _ Fg Fr T) as [F3 E3]. split; [exact F3|].
      rewrite (fmul_comm _ _ Fg Fr T). exact B2.
    Qed.
    Lemma softplus_grad_overflow (x gy : float) : libm_exp x = infinity -> softplus_grad libm_exp x gy = NaN.
    Proof.
      intros E. unfold softplus_grad. cbv zeta. rewrite E, (proj1 infinity_plus_one), infinity_ratio. apply nan_mul.
    Qed.
    Lemma sigmoid_xent_grad_ok (x t gy : float) : is_finite x = true -> is_finite (libm_exp x) = true -> within 0 1 t -> is_finite gy = true ->
      within (- Rabs (B2R gy)) (Rabs (B2R gy)) (sigmoid_xent_grad libm_exp x t gy).
    Proof.
      intros F Fe [Ft Bt] Fg. destruct (exp_not_negative _ _ _ Hexp x F) as [E|[_ H]]; [rewrite E in Fe; discriminate|].
      unfold sigmoid_xent_grad. cbv zeta. destruct (plus_one_ok _ Fe H) as (A & B & C & A' & E'). rewrite <- E' in B, C.
      destruct (logistic_ok _ _ Fe H A' B C) as [Fr Br].
      set (q := fdiv (libm_exp x) (fadd fone (libm_exp x))) in *.
      assert (R : -1 <= rnd (B2R q - B2R t) <= 1).
      { pose proof (rnd_one prec emax _ _) as O. split.
        - replace (-1) with (- rnd 1) by lra. rewrite <- round_NE_opp. apply rnd_le; auto; lra.
        - replace 1 with (rnd 1) at 1 by lra. apply rnd_le; auto; lra. }
      destruct (fsub_ok prec emax _ _ q t Fr Ft) as [Fs Es]; [apply unit_top; auto; lra|].
      apply (mul_bound _ gy 1); auto; lra.
    Qed.
    Lemma sigmoid_xent_grad_overflow (x t gy : float) : libm_exp x = infinity -> sigmoid_xent_grad libm_exp x t gy = NaN.
    Proof.
      intros E. unfold sigmoid_xent_grad. cbv zeta. rewrite E, (proj2 infinity_plus_one), infinity_ratio.
      rewrite (proj2 (nan_sub t)). apply nan_mul.
    Qed.

    (** ** Elu *)
    Lemma below_zero (a : float) : is_finite a = true -> Bltb fzero a = false -> B2R a <= 0.
    Proof. intros F H. rewrite (Bltb_correct prec emax fzero a eq_refl F) in H. destruct (Rlt_bool_spec (B2R (@fzero prec emax)) (B2R a)) as [|Q]; [discriminate|exact Q]. Qed.
    Lemma elu_negative (alpha a : float) : is_finite a = true -> B2R a <= 0 -> is_finite alpha = true ->
      within (- Rabs (B2R alpha)) (Rabs (B2R alpha)) (fmul alpha (fsub (libm_exp a) fone)) /\
      exists d, -1 <= d <= 0 /\ B2R (fmul alpha (fsub (libm_exp a) fone)) = rnd (B2R alpha * d).
    Proof.
      intros F H Fa. pose proof (exp_nonpositive _ _ _ Hexp a F H) as W. pose proof (sub_one_ok prec emax _ _ _ W) as [F1 B1].
      set (p := fsub (libm_exp a) fone) in *.
      assert (Q : - Rabs (B2R alpha) <= B2R alpha * B2R p <= Rabs (B2R alpha)).
      { apply Rabs_le_inv. rewrite Rabs_mult. pose proof (Rabs_pos (B2R alpha)). assert (Rabs (B2R p) <= 1) by (apply Rabs_le; lra). nra. }
      assert (G : rnd (Rabs (B2R alpha)) = Rabs (B2R alpha)) by (rewrite <- B2R_Babs; apply rnd_float).
      assert (R : - Rabs (B2R alpha) <= rnd (B2R alpha * B2R p) <= Rabs (B2R alpha)).
      { rewrite <- G. split; [rewrite <- round_NE_opp|]; apply rnd_le; auto; lra. }
      pose proof (float_top prec emax _ (Babs alpha)) as T. rewrite B2R_Babs in T.
      destruct (fmul_ok prec emax _ _ alpha p Fa F1 ltac:(lra)) as [F2 E2]. split; [split; [exact F2|rewrite E2; exact R]|].
      exists (B2R p). split; [lra|exact E2].
    Qed.
    Lemma elu_ok (alpha a : float) : is_finite a = true -> is_finite alpha = true ->
      (0 < B2R a -> elu libm_exp alpha a = a) /\
      (B2R a <= 0 -> within (- Rabs (B2R alpha)) (Rabs (B2R alpha)) (elu libm_exp alpha a)).
    Proof.
      intros F Fa. unfold elu. split; intros H.
      - rewrite (Bltb_correct prec emax fzero a eq_refl F). rewrite Rlt_bool_true by exact H. reflexivity.
      - rewrite (Bltb_correct prec emax fzero a eq_refl F). rewrite Rlt_bool_false by exact H. apply elu_negative; assumption.
    Qed.
    (** The slope that [elu_grad] multiplies with is between 0 and [alpha] (or 1). *)
    Lemma elu_grad_ok (alpha x gy : float) : is_finite x = true -> is_finite alpha = true -> is_finite gy = true ->
      is_nan (elu_grad libm_exp alpha x gy) = false /\
      exists s, elu_grad libm_exp alpha x gy = fmul s gy /\ is_finite s = true /\
        (0 < B2R x -> B2R s = 1) /\ (B2R x <= 0 -> 0 <= B2R alpha -> 0 <= B2R s <= B2R alpha).
    Proof.
      intros F Fa Fg. unfold elu_grad. destruct (Bltb fzero x) eqn:E.
      - destruct (fone_ok prec emax _ _) as [F1 B1]. split; [apply fmul_finite_not_nan; assumption|].
        exists fone. split; [reflexivity|]. split; [exact F1|]. split; [intros _; exact B1|]. intros H.
        rewrite (Bltb_correct prec emax fzero x eq_refl F) in E. rewrite Rlt_bool_false in E by exact H. discriminate.
      - pose proof (below_zero x F E) as H. destruct (elu_negative alpha x F H Fa) as [[F2 B2] (d & Hd & Q)].
        set (m := fmul alpha (fsub (libm_exp x) fone)) in *.
        (* m has the opposite sign of alpha and is not larger, so the sum cannot overflow. *)
        assert (S : - Rabs (B2R alpha) <= B2R m + B2R alpha <= Rabs (B2R alpha)).
        { destruct (Rle_or_lt 0 (B2R alpha)) as [P|P].
          - rewrite Rabs_right in * by lra. assert (B2R m <= 0). { rewrite Q. rewrite <- (rnd_zero prec emax). apply rnd_le; auto. nra. } lra.
          - rewrite Rabs_left in * by lra. assert (0 <= B2R m). { rewrite Q. rewrite <- (rnd_zero prec emax) at 1. apply rnd_le; auto. nra. } lra. }
        pose proof (float_top prec emax _ (Babs alpha)) as T. rewrite B2R_Babs in T.
        destruct (fadd_ok prec emax _ _ m alpha F2 Fa) as [F3 E3]; [apply rnd_top; auto; lra|].
        split; [apply fmul_finite_not_nan; assumption|]. exists (fadd m alpha). split; [reflexivity|]. split; [exact F3|]. split; [lra|].
        intros _ P. rewrite E3. rewrite Rabs_right in * by lra.
        assert (B2R m <= 0). { rewrite Q. rewrite <- (rnd_zero prec emax). apply rnd_le; auto. nra. }
        split; [rewrite <- (rnd_zero prec emax); apply rnd_le; auto; lra|]. rewrite <- (rnd_float prec emax alpha) at 2. apply rnd_le; auto; lra.
    Qed.

    (** ** NaN and infinite inputs of softmax *)
    Lemma sums_nan (l : list float) (s : float) : sums l s -> In NaN l -> s = NaN.
    Proof.
      induction 1 as [|x|l1 l2 a b H1 IH1 H2 IH2|l1 l2 a P H IH]; intros Hin.
      - destruct Hin.
      - destruct Hin as [->|[]]. reflexivity.
      - apply in_app_or in Hin. destruct Hin as [Q|Q]; [rewrite (IH1 Q)|rewrite (IH2 Q)]; apply nan_add.
      - apply IH. apply (Permutation_in _ (Permutation_sym P) Hin).
    Qed.
    Lemma softmax_poisoned (l out : list float) : softmax_lane libm_exp l out ->
      In NaN (lane_exps libm_exp l) -> out = repeat NaN (length l).
    Proof.
      intros (s & Hs & ->) Hin. rewrite (sums_nan _ s Hs Hin).
      assert (L : length (lane_exps libm_exp l) = length l) by (unfold lane_exps; apply map_length). rewrite <- L. clear.
      induction (lane_exps libm_exp l) as [|e es IH]; cbn [map length repeat]; [reflexivity|]. rewrite (proj1 (nan_div e)), IH. reflexivity.
    Qed.
    Lemma max_infinity_keeps (l : list float) : fold_left fmax l infinity = infinity.
    Proof.
      induction l as [|x l IH]; cbn [fold_left]; [reflexivity|]. replace (fmax infinity x) with infinity; [exact IH|].
      destruct x as [s|s| |s m e B]; try reflexivity. destruct s; reflexivity.
    Qed.
    Lemma max_with_infinity (l : list float) : forall a, is_nan a = false -> In infinity l -> fold_left fmax l a = infinity.
    Proof.
      induction l as [|x l IH]; intros a Ha Hin; [destruct Hin|]. cbn [fold_left]. destruct Hin as [->|Hin].
      - replace (fmax a infinity) with infinity; [apply max_infinity_keeps|]. unfold fmax. rewrite Ha. cbn [is_nan].
        destruct a as [s|s| |s m e B]; try reflexivity; [|discriminate Ha]. destruct s; reflexivity.
      - apply IH; [|exact Hin]. unfold fmax. rewrite Ha. destruct (is_nan x) eqn:E; [exact Ha|]. destruct (Bltb a x); assumption.
    Qed.
    Lemma softmax_nan (l out : list float) : softmax_lane libm_exp l out -> In NaN l \/ In infinity l -> out = repeat NaN (length l).
    Proof.
      intros H [Hin|Hin]; apply (softmax_poisoned l out H); unfold lane_exps; apply in_map_iff.
      - exists NaN. split; [|exact Hin]. rewrite (proj2 (nan_sub (lane_max l))). apply (exp_nan _ _ _ Hexp).
      - exists infinity. split; [|exact Hin]. unfold lane_max. rewrite max_with_infinity; [|reflexivity|exact Hin]. apply (exp_nan _ _ _ Hexp).
    Qed.
  End Exp.

  Section Log.
    Variables libm_exp libm_ln : float -> float.
    Hypothesis Hexp : exp_ok libm_exp.
    Hypothesis Hln : ln_ok libm_ln.
    Lemma softplus_ok (x : float) : is_finite x = true -> is_finite (libm_exp x) = true ->
      is_finite (softplus libm_exp libm_ln x) = true /\ 0 <= B2R (softplus libm_exp libm_ln x).
    Proof.
      intros F Fe. destruct (exp_not_negative _ _ _ Hexp x F) as [E|[_ H]]; [rewrite E in Fe; discriminate|].
      destruct (plus_one_ok _ Fe H) as (A & B & _). unfold softplus. destruct (ln_from_one _ _ _ Hln _ A B) as [F2 B2]. split; [exact F2|lra].
    Qed.
    Lemma softplus_overflow (x : float) : libm_exp x = infinity -> softplus libm_exp libm_ln x = infinity.
    Proof. intros E. unfold softplus. rewrite E, (proj1 infinity_plus_one). apply (ln_plus_infinity _ _ _ Hln). Qed.
    Lemma sigmoid_xent_ok (x t : float) : is_finite x = true -> within 0 1 t ->
      is_finite (sigmoid_xent libm_exp libm_ln x t) = true /\ 0 <= B2R (sigmoid_xent libm_exp libm_ln x t).
    Proof.
      intros F [Ft Bt].
      assert (W : within 0 1 (libm_exp (Bopp (Babs x)))).
      { apply (exp_nonpositive _ _ _ Hexp); [rewrite is_finite_Bopp, is_finite_Babs; exact F|]. rewrite B2R_Bopp, B2R_Babs. pose proof (Rabs_pos (B2R x)). lra. }
      destruct W as [Fe Be]. destruct (plus_one_ok _ Fe (proj1 Be)) as (A & B & _).
      assert (A2 : B2R (fadd (libm_exp (Bopp (Babs x))) fone) <= 2).
      { destruct (fone_ok prec emax _ _) as [F1 B1].
        destruct (fadd_ok prec emax _ _ (libm_exp (Bopp (Babs x))) fone Fe F1) as [_ E].
        - apply add_small; auto; [apply float_top; auto|]. rewrite B1. pose proof (two_small prec prec_gt_0_). lra.
        - rewrite E, B1. pose proof (pow_prec_ge prec emax _ _). rewrite <- (rnd_int prec emax _ _ 2) by lia. apply rnd_le; auto. lra. }
      destruct (ln_from_one _ _ _ Hln _ A B) as [Fl Bl]. unfold sigmoid_xent.
      set (lg := libm_ln (fadd (libm_exp (Bopp (Babs x))) fone)) in *.
      destruct (fmax_ok prec emax fzero x eq_refl F) as (Fm & Em & _). change (B2R (@fzero prec emax)) with 0 in Em.
      pose proof (float_top prec emax _ x) as T. pose proof (two_small prec prec_gt_0_) as T2. pose proof (top_big prec emax _ roomy) as TB.
      assert (Mb : 0 <= B2R (fmax fzero x) <= top).
      { rewrite Em. split; [apply Rmax_l|]. apply Rmax_lub; lra. }
      assert (R : - top <= rnd (B2R lg + B2R (fmax fzero x)) <= top) by (rewrite Rplus_comm; apply add_small; auto; lra).
      destruct (fadd_ok prec emax _ _ lg (fmax fzero x) Fl Fm R) as [Fs Es].
      assert (Low : B2R (fmax fzero x) <= B2R (fadd lg (fmax fzero x))).
      { rewrite Es. rewrite <- (rnd_float prec emax (fmax fzero x)) at 1. apply rnd_le; auto. lra. }
      destruct (Rle_or_lt 0 (B2R x)) as [P|P].
      - assert (Q : 0 <= rnd (B2R t * B2R x) <= B2R x).
        { split; [rewrite <- (rnd_zero prec emax)|rewrite <- (rnd_float prec emax x) at 2]; apply rnd_le; auto; nra. }
        destruct (fmul_ok prec emax _ _ t x Ft F ltac:(lra)) as [Fq Eq].
        rewrite Em, Rmax_right in Low by lra. pose proof (float_top prec emax _ (fadd lg (fmax fzero x))) as T3.
        destruct (fsub_ok prec emax _ _ (fadd lg (fmax fzero x)) (fmul t x) Fs Fq) as [Fr Er]; [apply rnd_top; auto; rewrite Eq; lra|].
        split; [exact Fr|]. rewrite Er. rewrite <- (rnd_zero prec emax). apply rnd_le; auto. rewrite Eq. lra.
      - assert (Q : B2R x <= rnd (B2R t * B2R x) <= 0).
        { split; [rewrite <- (rnd_float prec emax x) at 1|rewrite <- (rnd_zero prec emax)]; apply rnd_le; auto; nra. }
        destruct (fmul_ok prec emax _ _ t x Ft F ltac:(lra)) as [Fq Eq].
        rewrite Em, Rmax_left in * by lra.
        assert (Up : B2R (fadd lg (fmax fzero x)) <= 2).
        { rewrite Es. pose proof (pow_prec_ge prec emax _ _). rewrite <- (rnd_int prec emax _ _ 2) by lia. apply rnd_le; auto. lra. }
        assert (R2 : - top <= rnd (- B2R (fmul t x) + B2R (fadd lg (fmax fzero x))) <= top).
        { apply add_small; auto; [rewrite Eq; lra|]. lra. }
        destruct (fsub_ok prec emax _ _ (fadd lg (fmax fzero x)) (fmul t x) Fs Fq) as [Fr Er].
        { replace (B2R (fadd lg (fmax fzero x)) - B2R (fmul t x)) with (- B2R (fmul t x) + B2R (fadd lg (fmax fzero x))) by ring. exact R2. }
        split; [exact Fr|]. rewrite Er. rewrite <- (rnd_zero prec emax). apply rnd_le; auto. rewrite Eq. lra.
    Qed.
  End Log.
  Lemma relu_nan gy : relu NaN = fzero /\ relu_grad NaN gy = fmul fzero gy.
  Proof. split; reflexivity. Qed.
End Floats.
