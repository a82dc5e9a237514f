(** The sparse cross entropy loss, lanes of minus infinities, and functions that
    satisfy the assumptions of Float_Spec.v. *)
From Coq Require Import ZArith List Reals Lra Lia Permutation.
From Flocq Require Import Core BinarySingleNaN.
Import ListNotations.
From Verif Require Import Float_Model Float_Spec Float_Proofs Float_Kernels Float_Kernels2 Float_Kernels3.
Local Open Scope R_scope.

Section Floats.
  Variables prec emax : Z.
  Context (prec_gt_0_ : Prec_gt_0 prec) (prec_lt_emax_ : Prec_lt_emax prec emax).
  Notation float := (binary_float prec emax).
  Notation fexp := (SpecFloat.fexp prec emax).
  Notation rnd := (round radix2 fexp ZnearestE).
  Notation bpow := (bpow radix2).
  Notation top := (bpow emax - bpow (emax - prec)).
  Notation within := (@within prec emax).
  Notation infinity := (@B754_infinity prec emax false).
  Notation NaN := (@B754_nan prec emax).
  Local Instance fexp_valid4 : Valid_exp fexp := FLT_exp_valid _ prec.

  Section Loss.
    Hypothesis roomy : (2 * prec + 1 < emax)%Z.
    Variables libm_exp libm_ln : float -> float.
    Hypothesis Hexp : exp_ok libm_exp.
    Hypothesis Hln : ln_ok libm_ln.
    Lemma opp_nonpositive (p : float) : nonpositive p -> nonnegative (Bopp p).
    Proof.
      intros [[F H]| ->]; [|right; reflexivity]. left. rewrite is_finite_Bopp, B2R_Bopp. split; [exact F|lra].
    Qed.
    Lemma sparse_xent_ok (l : list float) label loss log_x : Forall logit l -> Exists (fun x => is_finite x = true) l ->
      (Z.of_nat (length l) <= 2 ^ prec)%Z -> sparse_xent_lane libm_exp libm_ln l label loss log_x ->
      nonnegative loss /\
      (Forall (fun x => is_finite x = true -> Rabs (B2R x) <= bpow (emax - 3)) l ->
       (forall x, nth_error l label = Some x -> is_finite x = true) -> is_finite loss = true).
    Proof.
      intros HL HE Hn (Hlog & p & Hp & ->). destruct (log_softmax_ok prec emax _ _ roomy _ _ Hexp Hln l log_x HL HE Hn Hlog) as (Len & NP & Fin).
      split.
      - apply opp_nonpositive. rewrite Forall_forall in NP. apply NP. apply (nth_error_In _ _ Hp).
      - intros Hb Hx. rewrite is_finite_Bopp. destruct (nth_error l label) as [x|] eqn:E.
        + destruct (Fin Hb label x E (Hx x eq_refl)) as (y & Hy & Fy). rewrite Hp in Hy. injection Hy as <-. exact Fy.
        + apply nth_error_None in E. rewrite <- Len in E. apply nth_error_None in E. congruence.
    Qed.
  End Loss.

  Section Masked.
    Variable libm_exp : float -> float.
    Hypothesis Hexp : exp_ok libm_exp.
    Lemma sums_zero (l : list float) (s : float) : sums l s -> Forall (within 0 0) l -> exists b, s = B754_zero b.
    Proof.
      assert (Z : forall x : float, within 0 0 x -> exists b, x = B754_zero b).
      { intros x [F B]. assert (E : B2R x = 0) by lra. destruct x as [b|b| |b m e B']; try discriminate F; [exists b; reflexivity|].
        exfalso. cbn in E. unfold F2R in E. cbn in E. pose proof (bpow_gt_0 radix2 e). destruct b; cbn in E;
          pose proof (IZR_lt 0 (Z.pos m) eq_refl); pose proof (IZR_lt (Z.neg m) 0 eq_refl); nra. }
      induction 1 as [|x|l1 l2 a b H1 IH1 H2 IH2|l1 l2 a P H IH]; intros HF.
      - exists false. reflexivity.
      - apply Z. inversion HF; assumption.
      - apply Forall_app in HF. destruct HF as [F1 F2]. destruct (IH1 F1) as [b1 ->]. destruct (IH2 F2) as [b2 ->].
        destruct b1, b2; eexists; reflexivity.
      - apply IH. apply (Permutation_Forall (Permutation_sym P) HF).
    Qed.
    (** A lane of minus infinities only: 0/0 everywhere. *)
    Lemma max_masked (n : nat) : fold_left fmax (repeat (@B754_infinity prec emax true) n) min_value = min_value.
    Proof.
      induction n as [|n IH]; [reflexivity|]. cbn [repeat fold_left]. replace (fmax min_value (B754_infinity true)) with (@min_value prec emax _ _); [exact IH|].
      symmetry. destruct (min_value_ok prec emax _ _) as [F _]. apply fmax_masked. exact F.
    Qed.
    Lemma softmax_all_masked (n : nat) (out : list float) : softmax_lane libm_exp (repeat (B754_infinity true) n) out -> out = repeat NaN n.
    Proof.
      intros (s & Hs & ->). unfold lane_exps, lane_max in *. rewrite max_masked in *.
      assert (E : fsub (B754_infinity true) (@min_value prec emax _ _) = B754_infinity true).
      { unfold fsub, min_value. destruct (min_value_ok prec emax _ _) as [F _]. unfold min_value in F. destruct (Bopp Bmax_float); try discriminate F; reflexivity. }
      assert (M : map (fun x => libm_exp (fsub x (@min_value prec emax _ _))) (repeat (B754_infinity true) n) = repeat (libm_exp (B754_infinity true)) n).
      { clear Hs. induction n as [|n IH]; cbn [repeat map]; [reflexivity|]. rewrite E, IH. reflexivity. }
      rewrite M in *. pose proof (exp_minus_infinity _ _ _ Hexp) as W.
      destruct (sums_zero _ s Hs) as [b ->].
      { clear - W. induction n; constructor; assumption. }
      destruct (sums_zero _ _ (sums_one _ _ _ _ (libm_exp (B754_infinity true)))) as [b' ->]; [constructor; [exact W|constructor]|].
      clear. induction n as [|n IH]; cbn [repeat map]; [reflexivity|]. rewrite IH. destruct b, b'; reflexivity.
    Qed.
  End Masked.

  (** ** Correctly rounded functions satisfy the assumptions *)
  Definition round_of (r : R) : float :=
    binary_normalize prec emax prec_gt_0_ prec_lt_emax_ mode_NE (ZnearestE (scaled_mantissa radix2 fexp r)) (cexp radix2 fexp r) false.
  Lemma round_of_ok r : Rabs (rnd r) < bpow emax -> is_finite (round_of r) = true /\ B2R (round_of r) = rnd r.
  Proof.
    intros H. pose proof (binary_normalize_correct prec emax _ _ mode_NE (ZnearestE (scaled_mantissa radix2 fexp r)) (cexp radix2 fexp r) false) as C.
    cbv zeta in C. change (F2R (Float radix2 (ZnearestE (scaled_mantissa radix2 fexp r)) (cexp radix2 fexp r))) with (rnd r) in C.
    change (round_mode mode_NE) with ZnearestE in C. rewrite (round_generic radix2 fexp ZnearestE (rnd r)) in C by (apply generic_format_round; auto with typeclass_instances).
    rewrite Rlt_bool_true in C by exact H. destruct C as (E & F & _). split; [exact F|exact E].
  Qed.
  Lemma round_of_big r : bpow emax <= rnd r -> round_of r = infinity.
  Proof.
    intros H. pose proof (binary_normalize_correct prec emax _ _ mode_NE (ZnearestE (scaled_mantissa radix2 fexp r)) (cexp radix2 fexp r) false) as C.
    cbv zeta in C. change (F2R (Float radix2 (ZnearestE (scaled_mantissa radix2 fexp r)) (cexp radix2 fexp r))) with (rnd r) in C.
    change (round_mode mode_NE) with ZnearestE in C. rewrite (round_generic radix2 fexp ZnearestE (rnd r)) in C by (apply generic_format_round; auto with typeclass_instances).
    pose proof (bpow_gt_0 radix2 emax).
    rewrite Rlt_bool_false in C by (rewrite Rabs_right; lra). rewrite Rlt_bool_false in C by lra. fold (round_of r) in C.
    destruct (round_of r) as [b|b| |b m e B]; try discriminate C. cbn in C. unfold binary_overflow, overflow_to_inf in C. cbn in C. injection C as ->. reflexivity.
  Qed.
  Lemma round_of_cases r : 0 <= r -> round_of r = infinity \/ (is_finite (round_of r) = true /\ B2R (round_of r) = rnd r /\ 0 <= rnd r).
  Proof.
    intros H. assert (P : 0 <= rnd r) by (rewrite <- (rnd_zero prec emax); apply rnd_le; auto).
    destruct (Rlt_or_le (rnd r) (bpow emax)) as [L|L]; [right|left; apply round_of_big; exact L].
    destruct (round_of_ok r) as [F E]; [|auto]. rewrite Rabs_right; lra.
  Qed.
  Lemma round_of_within r lo hi : lo <= rnd r <= hi -> - bpow emax < lo -> hi < bpow emax -> within lo hi (round_of r).
  Proof.
    intros H L U. destruct (round_of_ok r) as [F E]; [apply Rabs_lt; lra|]. split; [exact F|]. rewrite E. exact H.
  Qed.
  Lemma one_lt_max : 1 < bpow emax.
  Proof. change 1 with (bpow 0). apply bpow_lt. unfold Prec_lt_emax, Prec_gt_0 in *. lia. Qed.

  Definition exp_rounded (x : float) : float :=
    match x with
    | B754_nan => NaN
    | B754_infinity true => fzero
    | B754_infinity false => infinity
    | x => round_of (exp (B2R x))
    end.
  Definition ln_rounded (x : float) : float :=
    match x with
    | B754_infinity false => infinity
    | B754_finite false _ _ _ => round_of (ln (B2R x))
    | _ => NaN
    end.
  Definition tanh_rounded (x : float) : float :=
    match x with
    | B754_nan => NaN
    | B754_infinity true => Bopp fone
    | B754_infinity false => fone
    | x => round_of (tanh (B2R x))
    end.

  Lemma exp_rounded_ok : exp_ok exp_rounded.
  Proof.
    pose proof one_lt_max as O.
    assert (EX : forall x : float, is_finite x = true -> exp_rounded x = round_of (exp (B2R x))) by (intros [b|b| |b m e B] F; try discriminate F; reflexivity).
    constructor.
    - intros s. cbn [exp_rounded B2R]. rewrite exp_0. pose proof (rnd_one prec emax _ _). apply round_of_within; lra.
    - reflexivity.
    - split; [reflexivity|]. cbn. lra.
    - reflexivity.
    - intros x F H. rewrite (EX x F). apply round_of_within; [|lra|lra]. apply (rnd_unit prec emax _ _).
      split; [left; apply exp_pos|]. rewrite <- exp_0. destruct (Req_dec (B2R x) 0) as [E|E]; [rewrite E; apply Rle_refl|left; apply exp_increasing; lra].
    - intros x F. rewrite (EX x F). destruct (round_of_cases (exp (B2R x))) as [E|(A & B & C)]; [left; apply exp_pos|left; exact E|right]. rewrite B. auto.
    - intros x F H. rewrite (EX x F). apply round_of_big. rewrite <- (round_generic radix2 fexp ZnearestE (bpow emax)); [apply rnd_le; auto|].
      apply format_top_bpow; auto.
  Qed.
  Lemma ln_rounded_ok : ln_ok ln_rounded.
  Proof.
    constructor; [reflexivity|]. intros x F H. destruct x as [b|b| |b m e B]; try discriminate F; [cbn in H; lra|].
    destruct b.
    - exfalso. cbn in H. unfold F2R in H. cbn in H. pose proof (bpow_gt_0 radix2 e). pose proof (IZR_lt (Z.neg m) 0 eq_refl). nra.
    - cbn [ln_rounded]. set (x := B754_finite false m e B) in *.
      pose proof (abs_B2R_lt_emax _ _ x) as T. apply Rabs_lt_inv in T.
      apply round_of_within; [|pose proof one_lt_max; lra|lra].
      split; [rewrite <- (rnd_zero prec emax)|rewrite <- (rnd_float prec emax x) at 2]; apply rnd_le; auto.
      + rewrite <- ln_1. destruct (Req_dec (B2R x) 1) as [E|E]; [rewrite E; apply Rle_refl|left; apply ln_increasing; lra].
      + rewrite <- (ln_exp (B2R x)) at 2. left. apply ln_increasing; [lra|]. pose proof (exp_ineq1 (B2R x) ltac:(lra)). lra.
  Qed.
  Lemma tanh_unit r : -1 <= tanh r <= 1.
  Proof.
    unfold tanh, sinh, cosh. pose proof (exp_pos r). pose proof (exp_pos (- r)).
    assert (D : 0 < (exp r + exp (- r)) / 2) by lra.
    split; apply (Rmult_le_reg_r ((exp r + exp (- r)) / 2)); try exact D; unfold Rdiv at 2; rewrite ?Rmult_assoc, ?Rinv_l by lra; try lra.
    all: unfold Rdiv at 1; rewrite ?Rmult_assoc, ?Rinv_l by lra; lra.
  Qed.
  Lemma tanh_rounded_ok : tanh_ok tanh_rounded.
  Proof.
    pose proof one_lt_max as O. destruct (fone_ok prec emax _ _) as [F1 B1].
    assert (G : forall r, within (-1) 1 (round_of (tanh r))).
    { intros r. pose proof (tanh_unit r) as T. pose proof (rnd_one prec emax _ _) as R1. apply round_of_within; [|lra|lra]. split.
      - replace (-1) with (- rnd 1) by lra. rewrite <- round_NE_opp. apply rnd_le; auto; lra.
      - replace 1 with (rnd 1) by exact R1. apply rnd_le; auto; lra. }
    intros [b|b| |b m e B] H; try discriminate H; cbn [tanh_rounded]; [apply G| |apply G].
    destruct b; split; rewrite ?is_finite_Bopp, ?B2R_Bopp, ?B1; auto; lra.
  Qed.
End Floats.
