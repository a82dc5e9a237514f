(** Rounding facts and the ranges of the float kernels. *)
From Coq Require Import ZArith List Reals Lra Lia Permutation.
From Flocq Require Import Core BinarySingleNaN Relative Plus_error.
Import ListNotations.
From Verif Require Import Float_Model Float_Spec.
Local Open Scope R_scope.

Section Floats.
  Variables prec emax : Z.
  Context (prec_gt_0_ : Prec_gt_0 prec) (prec_lt_emax_ : Prec_lt_emax prec emax).
  Notation float := (binary_float prec emax).
  Notation fexp := (SpecFloat.fexp prec emax).
  Notation emin := (SpecFloat.emin prec emax).
  Notation rnd := (round radix2 fexp ZnearestE).
  Notation bpow := (bpow radix2).
  Local Instance fexp_valid : Valid_exp fexp := FLT_exp_valid emin prec.
  Local Instance fexp_mono : Monotone_exp fexp := FLT_exp_monotone emin prec.

  Lemma sizes : (0 < prec)%Z /\ (prec < emax)%Z.
  Proof. split; [exact prec_gt_0_|exact prec_lt_emax_]. Qed.
  Lemma rnd_le x y : x <= y -> rnd x <= rnd y.
  Proof. apply round_le; typeclasses eauto. Qed.
  Lemma rnd_float (x : float) : rnd (B2R x) = B2R x.
  Proof. apply round_generic; [typeclasses eauto|]. apply generic_format_B2R. Qed.
  Lemma rnd_zero : rnd 0 = 0.
  Proof. apply round_0. typeclasses eauto. Qed.
  Lemma format_int z : (Z.abs z <= 2 ^ prec)%Z -> generic_format radix2 fexp (IZR z).
  Proof.
    destruct sizes as [P E]. intros H. destruct (Z.eq_dec (Z.abs z) (2 ^ prec)) as [Q|Q].
    - assert (F : generic_format radix2 fexp (bpow prec)).
      { apply generic_format_bpow. unfold SpecFloat.fexp, SpecFloat.emin. lia. }
      destruct (Z.abs_spec z) as [[_ A]|[_ A]]; rewrite A in Q.
      + rewrite Q. rewrite <- IZR_Zpower in F by lia. exact F.
      + replace z with (- 2 ^ prec)%Z by lia. rewrite opp_IZR. apply generic_format_opp. rewrite <- IZR_Zpower in F by lia. exact F.
    - change (generic_format radix2 (FLT_exp emin prec) (IZR z)). apply generic_format_FLT. exists (Float radix2 z 0).
      + unfold F2R. cbn. ring.
      + cbn. change (Z.pow_pos 2) with (Z.pow_pos 2). lia.
      + cbn. unfold SpecFloat.emin. lia.
  Qed.
  Lemma rnd_int z : (Z.abs z <= 2 ^ prec)%Z -> rnd (IZR z) = IZR z.
  Proof. intros H. apply round_generic; [typeclasses eauto|]. apply format_int. exact H. Qed.
  Lemma pow_prec_ge : (2 <= 2 ^ prec)%Z.
  Proof. destruct sizes as [P _]. change 2%Z with (2 ^ 1)%Z at 1. apply Z.pow_le_mono_r; lia. Qed.

  (** The largest finite number. *)
  Notation top := (bpow emax - bpow (emax - prec)).
  Lemma fexp_top : fexp emax = (emax - prec)%Z.
  Proof. destruct sizes as [P E]. unfold SpecFloat.fexp, SpecFloat.emin. lia. Qed.
  Lemma top_pred : pred radix2 fexp (bpow emax) = top.
  Proof. rewrite pred_bpow, fexp_top. reflexivity. Qed.
  Lemma format_top_bpow : generic_format radix2 fexp (bpow emax).
  Proof. apply generic_format_bpow. destruct sizes as [P E]. unfold SpecFloat.fexp, SpecFloat.emin. lia. Qed.
  Lemma format_top : generic_format radix2 fexp top.
  Proof. rewrite <- top_pred. apply generic_format_pred; [typeclasses eauto|exact format_top_bpow]. Qed.
  Lemma top_lt : top < bpow emax.
  Proof. pose proof (bpow_gt_0 radix2 (emax - prec)). lra. Qed.
  Lemma float_top (x : float) : - top <= B2R x <= top.
  Proof. pose proof (abs_B2R_le_emax_minus_prec prec emax prec_gt_0_ x) as H. apply Rabs_le_inv in H. exact H. Qed.
  Lemma rnd_top r : - top <= r <= top -> - top <= rnd r <= top.
  Proof.
    intros [H1 H2].
    assert (T : rnd top = top) by (apply round_generic; [typeclasses eauto|exact format_top]).
    assert (T' : rnd (- top) = - top) by (apply round_generic; [typeclasses eauto|]; apply generic_format_opp; exact format_top).
    split; [rewrite <- T'|rewrite <- T]; apply rnd_le; assumption.
  Qed.
  (** Up to half a unit in the last place above it, numbers are rounded to it. *)
  Lemma rnd_near_top r : Rabs r < bpow emax - bpow (emax - prec - 1) -> - top <= rnd r <= top.
  Proof.
    assert (N : forall r, r < bpow emax - bpow (emax - prec - 1) -> rnd r <= top).
    { clear r. intros r H. apply round_N_le_midp; [typeclasses eauto|exact format_top|].
      rewrite <- top_pred at 2. rewrite succ_pred; [|typeclasses eauto|exact format_top_bpow].
      assert (B : bpow (emax - prec) = 2 * bpow (emax - prec - 1)).
      { replace (emax - prec)%Z with (1 + (emax - prec - 1))%Z at 1 by ring. rewrite bpow_plus. reflexivity. }
      lra. }
    intros H. split; [|apply N; apply (Rle_lt_trans _ (Rabs r)); [apply Rle_abs|exact H]].
    assert (Q : rnd (- r) <= top). { apply N. apply (Rle_lt_trans _ (Rabs r)); [|exact H]. rewrite <- Rabs_Ropp. apply Rle_abs. }
    rewrite round_NE_opp in Q. lra.
  Qed.
  Lemma within_top r : - top <= r <= top -> Rlt_bool (Rabs r) (bpow emax) = true.
  Proof. intros H. apply Rlt_bool_true. apply (Rle_lt_trans _ top); [apply Rabs_le; exact H|exact top_lt]. Qed.

  (** ** Operations without overflow *)
  Lemma fadd_ok (a b : float) : is_finite a = true -> is_finite b = true -> - top <= rnd (B2R a + B2R b) <= top ->
    is_finite (fadd a b) = true /\ B2R (fadd a b) = rnd (B2R a + B2R b).
  Proof.
    intros Fa Fb H. pose proof (Bplus_correct prec emax _ _ mode_NE a b Fa Fb) as C. cbn [round_mode] in C.
    rewrite (within_top _ H) in C. destruct C as (C1 & C2 & _). split; assumption.
  Qed.
  Lemma fsub_ok (a b : float) : is_finite a = true -> is_finite b = true -> - top <= rnd (B2R a - B2R b) <= top ->
    is_finite (fsub a b) = true /\ B2R (fsub a b) = rnd (B2R a - B2R b).
  Proof.
    intros Fa Fb H. pose proof (Bminus_correct prec emax _ _ mode_NE a b Fa Fb) as C. cbn [round_mode] in C.
    rewrite (within_top _ H) in C. destruct C as (C1 & C2 & _). split; assumption.
  Qed.
  Lemma fmul_ok (a b : float) : is_finite a = true -> is_finite b = true -> - top <= rnd (B2R a * B2R b) <= top ->
    is_finite (fmul a b) = true /\ B2R (fmul a b) = rnd (B2R a * B2R b).
  Proof.
    intros Fa Fb H. pose proof (Bmult_correct prec emax _ _ mode_NE a b) as C. cbn [round_mode] in C.
    rewrite (within_top _ H) in C. destruct C as (C1 & C2 & _). rewrite Fa, Fb in C2. split; assumption.
  Qed.
  Lemma fdiv_ok (a b : float) : is_finite a = true -> B2R b <> 0 -> - top <= rnd (B2R a / B2R b) <= top ->
    is_finite (fdiv a b) = true /\ B2R (fdiv a b) = rnd (B2R a / B2R b).
  Proof.
    intros Fa Fb H. pose proof (Bdiv_correct prec emax _ _ mode_NE a b Fb) as C. cbn [round_mode] in C.
    rewrite (within_top _ H) in C. destruct C as (C1 & C2 & _). rewrite Fa in C2. split; assumption.
  Qed.
  Lemma fone_ok : is_finite (@fone prec emax _ _) = true /\ B2R (@fone prec emax _ _) = 1.
  Proof. split; [apply is_finite_Bone|apply Bone_correct]. Qed.
  (** A subtraction of a larger number is finite and not positive, or minus infinity. *)
  Lemma fsub_nonpos (a b : float) : is_finite a = true -> is_finite b = true -> B2R a <= B2R b ->
    (is_finite (fsub a b) = true /\ B2R (fsub a b) = rnd (B2R a - B2R b) /\ B2R (fsub a b) <= 0) \/ fsub a b = B754_infinity true.
  Proof.
    intros Fa Fb H. pose proof (Bminus_correct prec emax _ _ mode_NE a b Fa Fb) as C. cbn [round_mode] in C.
    destruct (Rlt_bool _ _) eqn:E.
    - left. destruct C as (C1 & C2 & _). split; [exact C2|]. split; [exact C1|]. unfold fsub. rewrite C1. rewrite <- rnd_zero. apply rnd_le. lra.
    - right. destruct C as (C1 & C2).
      assert (S : Bsign a = true).
      { destruct (Bsign a) eqn:Sa; [reflexivity|exfalso]. symmetry in C2. apply Bool.negb_false_iff in C2.
        assert (A : 0 <= B2R a). { destruct a as [| | |s m e B]; cbn in *; try lra; try discriminate. subst s. apply F2R_ge_0. cbn. lia. }
        assert (B : B2R b <= 0). { destruct b as [| | |s m e Bb]; cbn in *; try lra; try discriminate. subst s. apply F2R_le_0. cbn. lia. }
        assert (Z : B2R a - B2R b = 0) by lra. rewrite Z, rnd_zero, Rabs_R0 in E.
        rewrite Rlt_bool_true in E by apply bpow_gt_0. discriminate. }
      rewrite S in C1. unfold fsub. apply B2SF_inj. rewrite C1. reflexivity.
  Qed.

  (** ** The largest element of a lane *)
  Lemma max_float_top : B2R (@Bmax_float prec emax _ _) = top.
  Proof.
    destruct sizes as [P E]. unfold Bmax_float. rewrite B2R_SF2B. cbn [SF2R]. unfold F2R. cbn [Fnum Fexp cond_Zopp].
    assert (M : Z.pos (shift_pos (Z.to_pos prec) 1 - 1) = (2 ^ prec - 1)%Z).
    { rewrite Pos2Z.inj_sub.
      - rewrite shift_pos_correct, Z.mul_1_r, Z.pow_pos_fold, Z2Pos.id by lia. reflexivity.
      - change (Z.pos 1 < Z.pos (shift_pos (Z.to_pos prec) 1))%Z.
        rewrite shift_pos_correct, Z.mul_1_r, Z.pow_pos_fold, Z2Pos.id by lia. pose proof pow_prec_ge. lia. }
    rewrite M, minus_IZR. change 2%Z with (radix_val radix2). rewrite IZR_Zpower by lia.
    rewrite Rmult_minus_distr_r, <- bpow_plus. replace (prec + (emax - prec))%Z with emax by ring. ring.
  Qed.
  Lemma min_value_ok : is_finite (@min_value prec emax _ _) = true /\ forall x : float, B2R (@min_value prec emax _ _) <= B2R x.
  Proof.
    split.
    - unfold min_value. rewrite is_finite_Bopp. reflexivity.
    - intros x. unfold min_value. rewrite B2R_Bopp, max_float_top. pose proof (float_top x). lra.
  Qed.
  Lemma finite_not_nan (x : float) : is_finite x = true -> is_nan x = false.
  Proof. destruct x; cbn; congruence. Qed.
  Lemma fmax_ok (a b : float) : is_finite a = true -> is_finite b = true ->
    is_finite (fmax a b) = true /\ B2R (fmax a b) = Rmax (B2R a) (B2R b) /\ (fmax a b = a \/ fmax a b = b).
  Proof.
    intros Fa Fb. unfold fmax. rewrite (finite_not_nan a Fa), (finite_not_nan b Fb), (Bltb_correct prec emax a b Fa Fb).
    destruct (Rlt_bool_spec (B2R a) (B2R b)) as [H|H].
    - split; [exact Fb|]. split; [rewrite Rmax_right by lra; reflexivity|right; reflexivity].
    - split; [exact Fa|]. split; [rewrite Rmax_left by lra; reflexivity|left; reflexivity].
  Qed.
  Lemma fmax_masked (a : float) : is_finite a = true -> fmax a (B754_infinity true) = a.
  Proof. intros F. destruct a as [s|s| |s m e B]; try discriminate F; reflexivity. Qed.
  Lemma fold_max_ok (l : list float) : forall a, is_finite a = true -> Forall logit l ->
    is_finite (fold_left fmax l a) = true /\ B2R a <= B2R (fold_left fmax l a) /\
    Forall (fun x => is_finite x = true -> B2R x <= B2R (fold_left fmax l a)) l /\ (fold_left fmax l a = a \/ In (fold_left fmax l a) l).
  Proof.
    induction l as [|x l IH]; intros a Fa Fl; cbn [fold_left].
    - split; [exact Fa|]. split; [lra|]. split; [constructor|left; reflexivity].
    - inversion Fl as [|? ? [Fx| ->] Fl']; subst.
      + destruct (fmax_ok a x Fa Fx) as (M1 & M2 & M3).
        destruct (IH (fmax a x) M1 Fl') as (I1 & I2 & I3 & I4). rewrite M2 in I2.
        pose proof (Rmax_l (B2R a) (B2R x)). pose proof (Rmax_r (B2R a) (B2R x)).
        split; [exact I1|]. split; [lra|]. split; [constructor; [intros _; lra|exact I3]|].
        destruct I4 as [I4|I4]; [|right; right; exact I4]. rewrite I4. destruct M3 as [-> | ->]; [left; reflexivity|right; left; reflexivity].
      + rewrite (fmax_masked a Fa). destruct (IH a Fa Fl') as (I1 & I2 & I3 & I4).
        split; [exact I1|]. split; [exact I2|]. split; [constructor; [discriminate|exact I3]|].
        destruct I4 as [I4|I4]; [left; exact I4|right; right; exact I4].
  Qed.
  Lemma lane_max_ok (l : list float) : Forall logit l -> Exists (fun x => is_finite x = true) l ->
    is_finite (lane_max l) = true /\ Forall (fun x => is_finite x = true -> B2R x <= B2R (lane_max l)) l /\
    exists x, In x l /\ is_finite x = true /\ B2R x = B2R (lane_max l).
  Proof.
    intros Fl Hn. destruct min_value_ok as [F0 L0]. destruct (fold_max_ok l min_value F0 Fl) as (I1 & I2 & I3 & I4).
    split; [exact I1|]. split; [exact I3|]. destruct I4 as [I4|I4].
    - apply Exists_exists in Hn. destruct Hn as (x & Hx & Fx). exists x. split; [exact Hx|]. split; [exact Fx|].
      rewrite Forall_forall in I3. specialize (I3 x Hx Fx). unfold lane_max in *. rewrite I4 in *. specialize (L0 x). lra.
    - exists (lane_max l). split; [exact I4|]. split; [exact I1|reflexivity].
  Qed.

  (** ** Exponentials *)
  Section Exp.
    Variable libm_exp : float -> float.
    Hypothesis Hexp : exp_ok libm_exp.
    Lemma exp_sub (a b : float) : is_finite a = true -> is_finite b = true -> B2R a <= B2R b -> within 0 1 (libm_exp (fsub a b)).
    Proof.
      intros Fa Fb H. destruct (fsub_nonpos a b Fa Fb H) as [(F & _ & L)| ->].
      - apply (exp_nonpositive _ _ _ Hexp); assumption.
      - destruct (exp_minus_infinity _ _ _ Hexp) as [F L]. split; [exact F|lra].
    Qed.
    Lemma exp_sub_same (a b : float) : is_finite a = true -> is_finite b = true -> B2R a = B2R b -> within 1 1 (libm_exp (fsub a b)).
    Proof.
      intros Fa Fb H. destruct (fsub_ok a b Fa Fb) as [F E].
      - rewrite H. replace (B2R b - B2R b) with 0 by ring. rewrite rnd_zero. destruct (float_top b). pose proof (bpow_gt_0 radix2 emax). lra.
      - rewrite H in E. replace (B2R b - B2R b) with 0 in E by ring. rewrite rnd_zero in E.
        destruct (fsub a b) as [s| | |s m e B]; try discriminate F.
        + apply (exp_zero _ _ _ Hexp).
        + exfalso. cbn [B2R] in E. apply eq_0_F2R in E. destruct s; discriminate E.
    Qed.
    Lemma exp_masked (b : float) : is_finite b = true -> within 0 0 (libm_exp (fsub (B754_infinity true) b)).
    Proof.
      intros F. assert (E : fsub (B754_infinity true) b = B754_infinity true) by (destruct b as [s|s| |s m e B]; try discriminate F; reflexivity).
      rewrite E. apply (exp_minus_infinity _ _ _ Hexp).
    Qed.
    Lemma lane_exps_ok (l : list float) : Forall logit l -> Exists (fun x => is_finite x = true) l ->
      Forall (within 0 1) (lane_exps libm_exp l) /\ Exists (within 1 1) (lane_exps libm_exp l).
    Proof.
      intros Fl Hn. destruct (lane_max_ok l Fl Hn) as (M1 & M2 & x & Hx & Fx & M3). rewrite Forall_forall in Fl, M2. split.
      - apply Forall_forall. intros e He. apply in_map_iff in He. destruct He as (y & <- & Hy).
        destruct (Fl y Hy) as [Fy| ->]; [apply exp_sub; auto|]. destruct (exp_masked (lane_max l) M1) as [F E]. split; [exact F|lra].
      - apply Exists_exists. exists (libm_exp (fsub x (lane_max l))). split; [apply in_map_iff; exists x; split; [reflexivity|exact Hx]|].
        apply exp_sub_same; auto.
    Qed.
  End Exp.

  (** ** Sums *)
  Lemma int_top z : (0 <= z <= 2 ^ prec)%Z -> 0 <= IZR z <= top.
  Proof.
    intros [H1 H2]. destruct sizes as [P E]. split; [apply IZR_le; exact H1|].
    apply Rle_trans with (bpow prec).
    - rewrite <- IZR_Zpower by lia. apply IZR_le. exact H2.
    - rewrite <- max_float_top. rewrite max_float_top.
      assert (Q : bpow prec <= bpow (emax - 1)) by (apply bpow_le; lia).
      assert (Q2 : bpow (emax - prec) <= bpow (emax - 1)) by (apply bpow_le; lia).
      assert (Q3 : bpow emax = 2 * bpow (emax - 1)). { replace emax with (1 + (emax - 1))%Z at 1 by ring. rewrite bpow_plus. reflexivity. }
      lra.
  Qed.
  Lemma sums_ok (l : list float) (s : float) : sums l s -> Forall (within 0 1) l -> (Z.of_nat (length l) <= 2 ^ prec)%Z ->
    within 0 (IZR (Z.of_nat (length l))) s /\ (Exists (within 1 1) l -> 1 <= B2R s).
  Proof.
    induction 1 as [|x|l1 l2 a b H1 IH1 H2 IH2|l1 l2 a P H IH]; intros Hl Hn.
    - split; [split; [reflexivity|cbn; lra]|intros H; inversion H].
    - inversion Hl; subst. split; [exact H1|]. intros H. inversion H as [? ? [_ Q]|? ? Q]; subst; [lra|inversion Q].
    - apply Forall_app in Hl. destruct Hl as [L1 L2]. rewrite app_length, Nat2Z.inj_add in *.
      destruct (IH1 L1 ltac:(lia)) as ((F1 & B1) & O1). destruct (IH2 L2 ltac:(lia)) as ((F2 & B2) & O2).
      set (n1 := Z.of_nat (length l1)) in *. set (n2 := Z.of_nat (length l2)) in *.
      assert (N1 : (0 <= n1)%Z) by (unfold n1; lia). assert (N2 : (0 <= n2)%Z) by (unfold n2; lia).
      assert (R : 0 <= rnd (B2R a + B2R b) <= IZR (n1 + n2)).
      { split; [rewrite <- rnd_zero; apply rnd_le; lra|]. rewrite <- rnd_int by lia. apply rnd_le. rewrite plus_IZR. lra. }
      pose proof (int_top (n1 + n2) ltac:(lia)) as T.
      destruct (fadd_ok a b F1 F2 ltac:(lra)) as [F E]. split.
      + split; [exact F|]. rewrite E. exact R.
      + intros Hex. rewrite E. pose proof pow_prec_ge. rewrite <- (rnd_int 1) by lia. apply rnd_le. apply Exists_app in Hex.
        destruct Hex as [Q|Q]; [specialize (O1 Q)|specialize (O2 Q)]; lra.
    - pose proof (Permutation_length P) as Q. rewrite <- Q in *.
      assert (L1 : Forall (within 0 1) l1). { apply Forall_forall. intros x Hx. rewrite Forall_forall in Hl. apply Hl. apply (Permutation_in x P Hx). }
      destruct (IH L1 Hn) as (I1 & I2). split; [exact I1|]. intros Hex. apply I2. apply Exists_exists in Hex. destruct Hex as (x & Hx & W).
      apply Exists_exists. exists x. split; [|exact W]. apply (Permutation_in x (Permutation_sym P) Hx).
  Qed.
End Floats.
