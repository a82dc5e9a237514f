(** The optimizers' update formulas on IEEE-754 floats, for one element.

    Simplifications: the operations work on arrays element by element
    ([zip_mut_with], [Zip]); here one element of the parameter with its gradient and
    its state.  [powf] of the platform is a Section variable, whose assumed behaviour
    is stated in Fopt_Spec.v. *)
From Coq Require Import ZArith List.
From Flocq Require Import Core BinarySingleNaN.
Import ListNotations.
From Verif Require Import Float_Model.

Section Floats.
  Variables prec emax : Z.
  Context (prec_gt_0_ : Prec_gt_0 prec) (prec_lt_emax_ : Prec_lt_emax prec emax).
  Notation float := (binary_float prec emax).

  (** [Float::sqrt], adagrad.rs:17, adam.rs:44. *)
  Definition fsqrt : float -> float := Bsqrt mode_NE.

  (** src/tensor_ops/gradient_descent_ops/sgd.rs:14-21 [SGDOp::compute]. *)
  Definition sgd_elem (alpha p g : float) : float := fsub p (fmul alpha g).

  (** src/tensor_ops/gradient_descent_ops/sgd.rs:29-40 [MomentumSGDOp::compute]:
      parameter and velocity. *)
  Definition momentum_elem (lr momentum : float) (pv : float * float) (g : float) : float * float :=
    let v := fsub (fmul (snd pv) momentum) (fmul lr g) in
    (fadd (fst pv) v, v).

  (** src/tensor_ops/gradient_descent_ops/adagrad.rs:8-22 [AdaGradOp::compute]:
      parameter and sum of squares; [eps] is [F::from(1e-7)]. *)
  Definition adagrad_elem (lr eps : float) (ph : float * float) (g : float) : float * float :=
    let h := fadd (snd ph) (fmul g g) in
    (fsub (fst ph) (fdiv (fmul lr g) (fadd (fsqrt h) eps)), h).

  (** src/tensor_ops/gradient_descent_ops/adam.rs:11-58 [AdamOp::compute]. *)
  Record adam_state := Adam { s_p : float; s_m : float; s_v : float; s_t : float }.
  Variable powf : float -> float -> float.
  (** adam.rs:16-23. *)
  Definition adam_m (b1 m g : float) : float := fadd (fmul m b1) (fmul (fsub fone b1) g).
  (** adam.rs:26-33. *)
  Definition adam_v (b2 v g : float) : float := fadd (fmul v b2) (fmul (fmul (fsub fone b2) g) g).
  (** adam.rs:38-41. *)
  Definition correction (b t : float) : float := fdiv fone (fsub fone (powf b t)).
  (** adam.rs:41: the bias-corrected mean before the division. *)
  Definition adam_m_hat (b1 : float) (s : adam_state) (g : float) : float :=
    fmul (adam_m b1 (s_m s) g) (correction b1 (s_t s)).
  (** src/tensor_ops/gradient_descent_ops/adam.rs:11-58. *)
  Definition adam_elem (alpha eps b1 b2 : float) (s : adam_state) (g : float) : adam_state :=
    let m := adam_m b1 (s_m s) g in
    let v := adam_v b2 (s_v s) g in
    let v_hat := fmul v (correction b2 (s_t s)) in
    let m_hat := fdiv (adam_m_hat b1 s g) (fadd (fsqrt v_hat) eps) in
    Adam (fsub (s_p s) (fmul alpha m_hat)) m v (fadd (s_t s) fone).
End Floats.

Arguments fsqrt {prec emax prec_gt_0_ prec_lt_emax_}.
Arguments sgd_elem {prec emax prec_gt_0_ prec_lt_emax_}.
Arguments momentum_elem {prec emax prec_gt_0_ prec_lt_emax_}.
Arguments adagrad_elem {prec emax prec_gt_0_ prec_lt_emax_}.
Arguments Adam {prec emax}.
Arguments s_p {prec emax}.
Arguments s_m {prec emax}.
Arguments s_v {prec emax}.
Arguments s_t {prec emax}.
Arguments adam_m {prec emax prec_gt_0_ prec_lt_emax_}.
Arguments adam_v {prec emax prec_gt_0_ prec_lt_emax_}.
Arguments correction {prec emax prec_gt_0_ prec_lt_emax_}.
Arguments adam_m_hat {prec emax prec_gt_0_ prec_lt_emax_}.
Arguments adam_elem {prec emax prec_gt_0_ prec_lt_emax_}.
