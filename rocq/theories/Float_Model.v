(** The softmax family and the activation functions on IEEE-754 floats.

    Simplifications: arrays are treated lane by lane (along the axis), as the code's
    [fold_axis], [sum_axis] and [mapv] do; builds without the [mkl] feature; the
    elementary functions of the platform are Section variables, whose assumed
    behaviour is stated in Float_Spec.v.  There is one NaN. *)
From Coq Require Import ZArith List Permutation.
From Flocq Require Import Core BinarySingleNaN.
Import ListNotations.

Section Floats.
  (** f32: precision 24, largest exponent 128; f64: 53 and 1024. *)
  Variables prec emax : Z.
  Context (prec_gt_0_ : Prec_gt_0 prec) (prec_lt_emax_ : Prec_lt_emax prec emax).
  Notation float := (binary_float prec emax).

  (** Arithmetic of Rust's f32/f64: rounding to nearest, ties to even. E.g.
      activation_ops.rs:141. *)
  Definition fadd : float -> float -> float := Bplus mode_NE.
  (** E.g. activation_ops.rs:80. *)
  Definition fsub : float -> float -> float := Bminus mode_NE.
  (** E.g. activation_ops.rs:141. *)
  Definition fmul : float -> float -> float := Bmult mode_NE.
  (** E.g. activation_ops.rs:94. *)
  Definition fdiv : float -> float -> float := Bdiv mode_NE.
  (** [T::zero()], activation_ops.rs:156. *)
  Definition fzero : float := B754_zero false.
  (** [T::one()], activation_ops.rs:115. *)
  Definition fone : float := Bone.
  (** [T::from(0.5)]. activation_ops.rs:138. *)
  Definition fhalf : float := binary_normalize prec emax prec_gt_0_ prec_lt_emax_ mode_NE 1 (-1) false.
  (** [T::min_value()]: the most negative finite number. activation_ops.rs:74. *)
  Definition min_value : float := Bopp Bmax_float.
  (** [T::max]: the other operand if one is NaN. activation_ops.rs:71-76, 156. *)
  Definition fmax (a b : float) : float :=
    if is_nan a then b else if is_nan b then a else if Bltb a b then b else a.

  (** [exp], [ln] and [tanh] of the platform. *)
  Variables libm_exp libm_ln libm_tanh : float -> float.

  (** ndarray's [sum_axis]: additions in some order and grouping (it depends on the
      memory layout); 0 for no elements. activation_ops.rs:91, math_ops.rs:578. *)
  Inductive sums : list float -> float -> Prop :=
  | sums_nil : sums [] fzero
  | sums_one x : sums [x] x
  | sums_app l1 l2 a b : sums l1 a -> sums l2 b -> sums (l1 ++ l2) (fadd a b)
  | sums_perm l1 l2 a : Permutation l1 l2 -> sums l1 a -> sums l2 a.

  (** src/tensor_ops/activation_ops.rs:70-80 and math_ops.rs:555-575: the largest
      element of a lane, and the exponentials of the differences to it. *)
  Definition lane_max (l : list float) : float := fold_left fmax l min_value.
  (** src/tensor_ops/activation_ops.rs:81-88, math_ops.rs:566-575. *)
  Definition lane_exps (l : list float) : list float := map (fun x => libm_exp (fsub x (lane_max l))) l.

  (** src/tensor_ops/activation_ops.rs:60-97 [softmax_impl] on one lane. *)
  Definition softmax_lane (l out : list float) : Prop :=
    exists s, sums (lane_exps l) s /\ out = map (fun e => fdiv e s) (lane_exps l).

  (** src/tensor_ops/math_ops.rs:540-593 [logsumexp_forward] on one lane. *)
  Definition logsumexp_lane (l : list float) (v : float) : Prop :=
    exists s, sums (lane_exps l) s /\ v = fadd (libm_ln s) (lane_max l).

  (** src/tensor_ops/xent_ops.rs:17-22 [LogSoftmax::compute] on one lane; also
      xent_ops.rs:65-66 and 161-162. *)
  Definition log_softmax_lane (l out : list float) : Prop :=
    exists v, logsumexp_lane l v /\ out = map (fun x => fsub x v) l.

  (** src/tensor_ops/xent_ops.rs:63-114 [SparseSoftmaxCrossEntropy::compute] on one
      row with a label in range: the loss and the second output. *)
  Definition sparse_xent_lane (l : list float) (label : nat) (loss : float) (log_x : list float) : Prop :=
    log_softmax_lane l log_x /\ exists p, nth_error log_x label = Some p /\ loss = Bopp p.

  (** src/tensor_ops/xent_ops.rs:140-152 [SparseSoftmaxCrossEntropyGrad::compute] on
      one row. *)
  Fixpoint minus_one_at (label : nat) (l : list float) : list float :=
    match l, label with
    | [], _ => []
    | p :: l, O => fsub p fone :: l
    | p :: l, S label => p :: minus_one_at label l
    end.
  (** src/tensor_ops/xent_ops.rs:140-152. *)
  Definition sparse_xent_grad (log_x : list float) (label : nat) (gy : float) : list float :=
    map (fun p => fmul p gy) (minus_one_at label (map libm_exp log_x)).

  (** src/tensor_ops/activation_ops.rs:130-145 [Sigmoid::compute]. *)
  Definition sigmoid (a : float) : float := fadd (fmul (libm_tanh (fmul a fhalf)) fhalf) fhalf.
  (** src/tensor_ops/activation_ops.rs:146-150 [Sigmoid::grad], evaluated. *)
  Definition sigmoid_grad (y gy : float) : float := fmul gy (fsub y (fmul y y)).

  (** src/tensor_ops/activation_ops.rs:114-118 [Softplus::compute]. *)
  Definition softplus (a : float) : float := libm_ln (fadd (libm_exp a) fone).
  (** src/tensor_ops/activation_ops.rs:120-126 [Softplus::grad], evaluated. *)
  Definition softplus_grad (x gy : float) : float :=
    let a := libm_exp x in let b := fadd a fone in fmul gy (fdiv a b).

  (** src/tensor_ops/xent_ops.rs:33-46 [SigmoidCrossEntropy::compute]. *)
  Definition sigmoid_xent (x t : float) : float :=
    fsub (fadd (libm_ln (fadd (libm_exp (Bopp (Babs x))) fone)) (fmax fzero x)) (fmul t x).
  (** src/tensor_ops/xent_ops.rs:48-58 [SigmoidCrossEntropy::grad] for [x], evaluated. *)
  Definition sigmoid_xent_grad (x t gy : float) : float :=
    let e := libm_exp x in fmul (fsub (fdiv e (fadd fone e)) t) gy.

  (** src/tensor_ops/activation_ops.rs:154-157 [ReLU::compute]. *)
  Definition relu (a : float) : float := fmax a fzero.
  (** src/tensor_ops/activation_ops.rs:160-165 [ReLU::grad] with math_ops.rs:62-64
      [greater_fn], evaluated. *)
  Definition relu_grad (x gy : float) : float := fmul (if Bltb fzero x then fone else fzero) gy.

  (** src/tensor_ops/activation_ops.rs:184-194 [ELU::compute]. *)
  Definition elu (alpha a : float) : float :=
    if Bltb fzero a then a else fmul alpha (fsub (libm_exp a) fone).
  (** src/tensor_ops/activation_ops.rs:208-220 [ELUGrad::compute]. *)
  Definition elu_grad (alpha x gy : float) : float :=
    fmul (if Bltb fzero x then fone else fadd (fmul alpha (fsub (libm_exp x) fone)) alpha) gy.
End Floats.

Arguments fadd {prec emax prec_gt_0_ prec_lt_emax_}.
Arguments fsub {prec emax prec_gt_0_ prec_lt_emax_}.
Arguments fmul {prec emax prec_gt_0_ prec_lt_emax_}.
Arguments fdiv {prec emax prec_gt_0_ prec_lt_emax_}.
Arguments fzero {prec emax}.
Arguments fone {prec emax prec_gt_0_ prec_lt_emax_}.
Arguments fhalf {prec emax prec_gt_0_ prec_lt_emax_}.
Arguments min_value {prec emax prec_gt_0_ prec_lt_emax_}.
Arguments fmax {prec emax}.
Arguments sums {prec emax prec_gt_0_ prec_lt_emax_}.
Arguments lane_max {prec emax prec_gt_0_ prec_lt_emax_}.
Arguments lane_exps {prec emax prec_gt_0_ prec_lt_emax_}.
Arguments softmax_lane {prec emax prec_gt_0_ prec_lt_emax_}.
Arguments logsumexp_lane {prec emax prec_gt_0_ prec_lt_emax_}.
Arguments log_softmax_lane {prec emax prec_gt_0_ prec_lt_emax_}.
Arguments sparse_xent_lane {prec emax prec_gt_0_ prec_lt_emax_}.
Arguments sparse_xent_grad {prec emax prec_gt_0_ prec_lt_emax_}.
Arguments minus_one_at {prec emax prec_gt_0_ prec_lt_emax_}.
Arguments sigmoid {prec emax prec_gt_0_ prec_lt_emax_}.
Arguments sigmoid_grad {prec emax prec_gt_0_ prec_lt_emax_}.
Arguments softplus {prec emax prec_gt_0_ prec_lt_emax_}.
Arguments softplus_grad {prec emax prec_gt_0_ prec_lt_emax_}.
Arguments sigmoid_xent {prec emax prec_gt_0_ prec_lt_emax_}.
Arguments sigmoid_xent_grad {prec emax prec_gt_0_ prec_lt_emax_}.
Arguments relu {prec emax}.
Arguments relu_grad {prec emax prec_gt_0_ prec_lt_emax_}.
Arguments elu {prec emax prec_gt_0_ prec_lt_emax_}.
Arguments elu_grad {prec emax prec_gt_0_ prec_lt_emax_}.
