(** Property C66: the softmax family and the activation functions on IEEE-754 floats. *)
From Coq Require Import ZArith List Reals Lra Lia.
From Flocq Require Import Core BinarySingleNaN.
Import ListNotations.
From Verif Require Import Float_Model Float_Spec Float_Proofs Float_Kernels Float_Kernels2 Float_Kernels3 Float_Kernels4.
Local Open Scope R_scope.

(** ** C66: no NaN, no overflow, probabilities stay probabilities *)
Section Floats.
  Variables prec emax : Z.
  Context (prec_gt_0_ : Prec_gt_0 prec) (prec_lt_emax_ : Prec_lt_emax prec emax).
  Notation float := (binary_float prec emax).
  Notation u := (bpow radix2 (- prec)).
  Notation tiny := (/ 2 * bpow radix2 (SpecFloat.emin prec emax)).
  Notation infinity := (@B754_infinity prec emax false).
  Notation minus_infinity := (@B754_infinity prec emax true).
  Notation NaN := (@B754_nan prec emax).
  Notation finite x := (is_finite x = true).
  Variables libm_exp libm_ln libm_tanh : float -> float.

  (** Softmax of finite numbers and minus infinities, not all minus infinite: whatever
      order ndarray adds in, the outputs are numbers between 0 and 1, masked elements
      get exactly 0, and the outputs add up to 1 up to rounding. *)
Theorem C66_softmax : exp_ok libm_exp ->
    forall l out : list float,
    Forall logit l -> Exists (fun x => finite x) l -> (Z.of_nat (length l) <= 2 ^ prec)%Z ->
    softmax_lane libm_exp l out ->
    length out = length l /\ Forall (within 0 1) out /\
    (forall i, nth_error l i = Some minus_infinity -> exists y, nth_error out i = Some y /\ within 0 0 y) /\
    (1 - u) / (1 + u) ^ (length l - 1) - INR (length l) * tiny
    <= fold_right Rplus 0 (map B2R out) <=
    (1 + u) / (1 - u) ^ (length l - 1) + INR (length l) * tiny.
  Proof. intros Hexp l out. apply softmax_ok. exact Hexp. Qed.

  (** One NaN or plus infinity makes every output of its lane NaN, and so does a lane of
      minus infinities. *)
Theorem C66_softmax_special : exp_ok libm_exp ->
    (forall l out : list float, softmax_lane libm_exp l out -> In NaN l \/ In infinity l -> out = repeat NaN (length l)) /\
    (forall n out, softmax_lane libm_exp (repeat minus_infinity n) out -> out = repeat NaN n).
  Proof. intros Hexp. split; [apply softmax_nan|apply softmax_all_masked]; exact Hexp. Qed.

  (** Logsumexp is finite for every such lane, however large the elements, and not
      below the largest of them. *)
Theorem C66_logsumexp : (2 * prec + 1 < emax)%Z -> exp_ok libm_exp -> ln_ok libm_ln ->
    forall (l : list float) (v : float),
    Forall logit l -> Exists (fun x => finite x) l -> (Z.of_nat (length l) <= 2 ^ prec)%Z ->
    logsumexp_lane libm_exp libm_ln l v ->
    finite v /\ Forall (fun x => finite x -> B2R x <= B2R v) l.
  Proof.
    intros R Hexp Hln l v H1 H2 H3 H4. destruct (logsumexp_ok prec emax _ _ R _ _ Hexp Hln l v H1 H2 H3 H4) as (A & B & _). split; assumption.
  Qed.

  (** Log-softmax is never NaN and never positive; it is finite if the numbers are of
      moderate size. *)
Theorem C66_log_softmax : (2 * prec + 1 < emax)%Z -> exp_ok libm_exp -> ln_ok libm_ln ->
    forall l out : list float,
    Forall logit l -> Exists (fun x => finite x) l -> (Z.of_nat (length l) <= 2 ^ prec)%Z ->
    log_softmax_lane libm_exp libm_ln l out ->
    length out = length l /\ Forall nonpositive out /\
    (Forall (fun x => finite x -> Rabs (B2R x) <= bpow radix2 (emax - 3)) l ->
     forall i x, nth_error l i = Some x -> finite x -> exists y, nth_error out i = Some y /\ finite y).
  Proof. intros R Hexp Hln l out. apply log_softmax_ok; assumption. Qed.

  (** The loss of sparse_softmax_cross_entropy is never NaN and never negative, finite
      for moderate logits; its gradient is finite and within the incoming gradient. *)
Theorem C66_sparse_xent : (2 * prec + 1 < emax)%Z -> exp_ok libm_exp -> ln_ok libm_ln ->
    forall (l : list float) (label : nat) (loss : float) (log_x : list float) (gy : float),
    Forall logit l -> Exists (fun x => finite x) l -> (Z.of_nat (length l) <= 2 ^ prec)%Z ->
    sparse_xent_lane libm_exp libm_ln l label loss log_x ->
    nonnegative loss /\
    (Forall (fun x => finite x -> Rabs (B2R x) <= bpow radix2 (emax - 3)) l ->
     (forall x, nth_error l label = Some x -> finite x) -> finite loss) /\
    (finite gy ->
     length (sparse_xent_grad libm_exp log_x label gy) = length l /\
     Forall (within (- Rabs (B2R gy)) (Rabs (B2R gy))) (sparse_xent_grad libm_exp log_x label gy)).
  Proof.
    intros R Hexp Hln l label loss log_x gy H1 H2 H3 H4.
    destruct (sparse_xent_ok prec emax _ _ R _ _ Hexp Hln l label loss log_x H1 H2 H3 H4) as (A & B). split; [exact A|]. split; [exact B|].
    intros G. destruct H4 as (H4 & _).
    destruct (log_softmax_ok prec emax _ _ R _ _ Hexp Hln l log_x H1 H2 H3 H4) as (L & NP & _). split.
    - unfold sparse_xent_grad. rewrite map_length.
      assert (E : forall (k : list float) n, length (minus_one_at n k) = length k) by (induction k; intros [|n]; cbn; auto).
      rewrite E, map_length. exact L.
    - apply sparse_xent_grad_ok; assumption.
  Qed.

  (** Sigmoid of anything but NaN, infinities included, is between 0 and 1; its gradient
      is finite and within the incoming gradient. *)
Theorem C66_sigmoid : (2 * prec + 1 < emax)%Z -> tanh_ok libm_tanh ->
    forall a gy : float, is_nan a = false ->
    within 0 1 (sigmoid libm_tanh a) /\
    (finite gy -> within (- Rabs (B2R gy)) (Rabs (B2R gy)) (sigmoid_grad (sigmoid libm_tanh a) gy)).
  Proof.
    intros R Ht a gy H. pose proof (sigmoid_ok prec emax _ _ R _ Ht a H) as S. split; [exact S|]. intros F. apply sigmoid_grad_ok; assumption.
  Qed.

  (** sigmoid_cross_entropy of any finite logit and a target between 0 and 1 is finite
      and not negative. *)
Theorem C66_sigmoid_xent : (2 * prec + 1 < emax)%Z -> exp_ok libm_exp -> ln_ok libm_ln ->
    forall x t : float, finite x -> within 0 1 t ->
    finite (sigmoid_xent libm_exp libm_ln x t) /\ 0 <= B2R (sigmoid_xent libm_exp libm_ln x t).
  Proof. intros R Hexp Hln x t. apply sigmoid_xent_ok; assumption. Qed.

  (** Its gradient for the logit is within the incoming gradient while the exponential
      of the logit is finite. *)
Theorem C66_sigmoid_xent_gradient : (2 * prec + 1 < emax)%Z -> exp_ok libm_exp ->
    forall x t gy : float, finite x -> finite (libm_exp x) -> within 0 1 t -> finite gy ->
    within (- Rabs (B2R gy)) (Rabs (B2R gy)) (sigmoid_xent_grad libm_exp x t gy).
  Proof. intros R Hexp x t gy. apply sigmoid_xent_grad_ok; assumption. Qed.

  (** But it is NaN, whatever the target and the incoming gradient, once the exponential
      overflows, although the loss itself is still finite there. *)
Theorem C66_sigmoid_xent_gradient_refuted : (2 * prec + 1 < emax)%Z -> exp_ok libm_exp -> ln_ok libm_ln ->
    forall x : float, finite x -> bpow radix2 emax <= exp (B2R x) ->
    (forall t gy : float, sigmoid_xent_grad libm_exp x t gy = NaN) /\
    (forall t : float, within 0 1 t -> finite (sigmoid_xent libm_exp libm_ln x t)).
  Proof.
    intros R Hexp Hln x F H. split.
    - intros t gy. apply sigmoid_xent_grad_overflow. apply (exp_overflow _ _ _ Hexp); assumption.
    - intros t Ht. apply (C66_sigmoid_xent R Hexp Hln x t F Ht).
  Qed.

  (** Softplus and its gradient while the exponential is finite. *)
Theorem C66_softplus : (2 * prec + 1 < emax)%Z -> exp_ok libm_exp -> ln_ok libm_ln ->
    forall x gy : float, finite x -> finite (libm_exp x) ->
    finite (softplus libm_exp libm_ln x) /\ 0 <= B2R (softplus libm_exp libm_ln x) /\
    (finite gy -> within (- Rabs (B2R gy)) (Rabs (B2R gy)) (softplus_grad libm_exp x gy)).
  Proof.
    intros R Hexp Hln x gy F Fe. destruct (softplus_ok prec emax _ _ R _ _ Hexp Hln x F Fe) as [A B].
    split; [exact A|]. split; [exact B|]. intros G. apply softplus_grad_ok; assumption.
  Qed.

  (** Beyond that softplus is infinite although its true value is close to [x], and
      its gradient is NaN although the true factor is close to 1. *)
Theorem C66_softplus_refuted : exp_ok libm_exp -> ln_ok libm_ln ->
    forall x : float, finite x -> bpow radix2 emax <= exp (B2R x) ->
    softplus libm_exp libm_ln x = infinity /\ (forall gy : float, softplus_grad libm_exp x gy = NaN).
  Proof.
    intros Hexp Hln x F H. pose proof (exp_overflow _ _ _ Hexp x F H) as E. split; [apply softplus_overflow; assumption|].
    intros gy. apply softplus_grad_overflow. exact E.
  Qed.

  (** Relu of NaN is 0 and lets no gradient through: a NaN disappears. *)
Theorem C66_relu_nan_refuted : forall gy : float, relu NaN = fzero /\ (finite gy -> within 0 0 (relu_grad NaN gy)).
  Proof.
    intros gy. destruct (relu_nan prec emax _ _ gy) as [A B]. split; [exact A|]. intros F. rewrite B.
    destruct gy as [b|b| |b m e Q]; try discriminate F; (split; [reflexivity|cbn; lra]).
  Qed.
  (** Otherwise relu is the positive part, and its gradient is the incoming one or 0. *)
Theorem C66_relu : forall a gy : float, finite a -> finite gy ->
    finite (relu a) /\ B2R (relu a) = Rmax 0 (B2R a) /\
    (B2R a <= 0 -> within 0 0 (relu_grad a gy)) /\ (0 < B2R a -> within (B2R gy) (B2R gy) (relu_grad a gy)).
  Proof.
    intros a gy F G. destruct (fmax_ok prec emax a fzero F eq_refl) as (Fm & Em & _). change (B2R (@fzero prec emax)) with 0 in Em.
    split; [exact Fm|]. split; [unfold relu; rewrite Em; apply Rmax_comm|]. unfold relu_grad. rewrite (Bltb_correct prec emax fzero a eq_refl F).
    change (B2R (@fzero prec emax)) with 0. split; intros H.
    - rewrite Rlt_bool_false by exact H. destruct gy as [b|b| |b m e Q]; try discriminate G; (split; [reflexivity|cbn; lra]).
    - rewrite Rlt_bool_true by exact H. destruct (fone_ok prec emax _ _) as [F1 B1].
      pose proof (float_top prec emax _ gy) as T. pose proof (rnd_float prec emax gy) as E.
      destruct (fmul_ok prec emax _ _ fone gy F1 G) as [A B]; rewrite B1, Rmult_1_l in *; [rewrite E; exact T|].
      split; [exact A|]. rewrite B, E. split; apply Rle_refl.
  Qed.

  (** Elu: unchanged above 0, between the bounds [-|alpha|] and [|alpha|] below; the
      gradient is never NaN, and its factor is 1 above 0 and between 0 and alpha below. *)
Theorem C66_elu : exp_ok libm_exp ->
    forall alpha a gy : float, finite alpha -> finite a -> finite gy ->
    (0 < B2R a -> elu libm_exp alpha a = a) /\
    (B2R a <= 0 -> within (- Rabs (B2R alpha)) (Rabs (B2R alpha)) (elu libm_exp alpha a)) /\
    is_nan (elu_grad libm_exp alpha a gy) = false /\
    exists s, elu_grad libm_exp alpha a gy = fmul s gy /\ finite s /\
      (0 < B2R a -> B2R s = 1) /\ (B2R a <= 0 -> 0 <= B2R alpha -> 0 <= B2R s <= B2R alpha).
  Proof.
    intros Hexp alpha a gy Fa F G. destruct (elu_ok prec emax _ _ _ Hexp alpha a F Fa) as [A B].
    destruct (elu_grad_ok prec emax _ _ _ Hexp alpha a gy F Fa G) as [C D]. auto.
  Qed.
End Floats.
Print Assumptions C66_softmax.
Print Assumptions C66_softmax_special.
Print Assumptions C66_logsumexp.
Print Assumptions C66_log_softmax.
Print Assumptions C66_sparse_xent.
Print Assumptions C66_sigmoid.
Print Assumptions C66_sigmoid_xent.
Print Assumptions C66_sigmoid_xent_gradient.
Print Assumptions C66_sigmoid_xent_gradient_refuted.
Print Assumptions C66_softplus.
Print Assumptions C66_softplus_refuted.
Print Assumptions C66_relu_nan_refuted.
Print Assumptions C66_relu.
Print Assumptions C66_elu.

(** ** f32, correctly rounded functions, and concrete numbers *)
Global Instance prec_gt_0_24 : Prec_gt_0 24 := eq_refl.
Global Instance prec_lt_emax_24 : Prec_lt_emax 24 128 := eq_refl.
Definition f32 (m e : Z) : binary_float 24 128 := binary_normalize 24 128 _ _ mode_NE m e false.

(** The functions assumed exist: rounding the true values. *)
Example C66_functions_exist :
  exp_ok (exp_rounded 24 128 _ _) /\ ln_ok (ln_rounded 24 128 _ _) /\ tanh_ok (tanh_rounded 24 128 _ _) /\ (2 * 24 + 1 < 128)%Z.
Proof.
  split; [apply exp_rounded_ok|]. split; [apply ln_rounded_ok|]. split; [apply tanh_rounded_ok|reflexivity].
Qed.
(** A lane with the largest float, its negative and a masked element, summed from the left. *)
Example C66_hypotheses_met :
  let l : list (binary_float 24 128) := [Bmax_float; B754_infinity true; min_value] in
  Forall logit l /\ Exists (fun x => is_finite x = true) l /\ (Z.of_nat (length l) <= 2 ^ 24)%Z /\
  (exists out, softmax_lane (exp_rounded 24 128 _ _) l out) /\
  (exists loss log_x, sparse_xent_lane (exp_rounded 24 128 _ _) (ln_rounded 24 128 _ _) l 2 loss log_x).
Proof.
  assert (S : forall (f : binary_float 24 128 -> binary_float 24 128) a b c, exists s, sums (map f [a; b; c]) s).
  { intros f a b c. exists (fadd (fadd (f a) (f b)) (f c)). apply (sums_app 24 128 _ _ [f a; f b] [f c]); [|constructor].
    apply (sums_app 24 128 _ _ [f a] [f b]); constructor. }
  cbv zeta. split; [constructor; [left; reflexivity|constructor; [right; reflexivity|constructor; [left; reflexivity|constructor]]]|]. split; [left; reflexivity|]. split; [vm_compute; discriminate|].
  destruct (S (fun x => exp_rounded 24 128 _ _ (fsub x (lane_max [Bmax_float; B754_infinity true; min_value]))) Bmax_float (B754_infinity true) min_value) as [s Hs].
  split.
  - eexists. exists s. split; [exact Hs|reflexivity].
  - eexists _, _. split.
    + eexists. split; [exists s; split; [exact Hs|reflexivity]|reflexivity].
    + eexists. split; reflexivity.
Qed.
(** The logit 128 overflows the exponential in f32; so does any larger one. *)
Example C66_overflow_met :
  let x := f32 1 7 in is_finite x = true /\ B2R x = 128 /\ bpow radix2 128 <= exp (B2R x).
Proof.
  cbv zeta. assert (E : B2R (f32 1 7) = 128).
  { assert (Q : f32 1 7 = @B754_finite 24 128 false 8388608 (-16) eq_refl).
    { apply B2SF_inj. vm_compute. reflexivity. }
    rewrite Q. cbn. unfold F2R. cbn. lra. }
  split; [vm_compute; reflexivity|]. split; [exact E|]. rewrite E.
  assert (G : forall n : nat, 2 ^ n <= exp (INR n)).
  { induction n as [|n IH]; [cbn; rewrite exp_0; lra|]. rewrite S_INR, exp_plus. cbn [pow].
    pose proof (exp_ineq1 1 ltac:(lra)). pose proof (pow_lt 2 n ltac:(lra)). nra. }
  specialize (G 128%nat). rewrite INR_IZR_INZ in G. change (Z.of_nat 128) with 128%Z in G.
  replace (bpow radix2 128) with (2 ^ 128); [exact G|]. rewrite pow_IZR. change (bpow radix2 128) with (IZR (Z.pow_pos 2 128)). f_equal.
Qed.
