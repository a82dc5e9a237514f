(** When gradient construction on array graphs returns: through which inputs of which
    operations gradients flow. *)
From Coq Require Import String List Arith ZArith Bool Reals.
Import ListNotations.
From Verif Require Import Graph_Model Eval_Model Eval_Spec Grad_Model Grad_Spec Scalar_Model Tens_Model.

(** Comparisons supply one gradient, [None], for two operands.
    src/tensor_ops/math_ops.rs:193-195 and its callers. *)
Definition comparison (o : top) : bool :=
  match o with TBin (Equal | NotEqual | Greater | Lesser | GreaterEqual | LesserEqual) => true | _ => false end.
(** The operands that an operation propagates gradients to: not shapes, axes, indices and
    labels, nothing through [stop_gradient], rounding, signs, comparisons and constants.
    The arguments of [append_input_grad] in src/tensor_ops (file and lines at [trule]). *)
Definition carries (o : top) (p : nat) : bool :=
  match o with
  | TLeaf | TScalar _ | TConst _ | TConstI _ | TStop | TShape | TSize | TInferShape | TZeros | TOnes | TGatherI | TProdI => false
  | TUn (Sign | Floor | Ceil) => false
  | TBin (Add | Sub | Mul | Div | Maximum | Minimum) => true
  | TBin _ => false
  | TAddN | TMatMul _ _ | TSigmoidXent | TConv _ _ _ _ | TConvT _ _ _ _ => true
  | TGather _ _ => (p =? 1)%nat
  | _ => (p =? 0)%nat
  end.
(** Input [p] of tensor [z] is given a gradient. *)
Definition carrying (g : tgraph) (z p : nat) : Prop := exists n, nth_error g z = Some n /\ carries (n_op n) p = true.
(** [x] receives a gradient: some differentiable path leads to it along which every
    operation propagates gradients. *)
Definition flows (g : tgraph) (ys : list nat) (x : nat) : Prop :=
  exists y es, In y ys /\ differentiable g y /\ path g (carrying g) y es x.
(** A tensor that some output depends on and that depends on some target, both through
    differentiable tensors. *)
Definition between (g : tgraph) (ys xs : list nat) (z : nat) : Prop :=
  (exists y, In y ys /\ differentiable g y /\ differentiable g z /\ reaches g y z) /\ exists x, In x xs /\ reaches g z x.
