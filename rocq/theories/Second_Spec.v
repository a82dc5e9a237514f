(** Graphs whose gradients can be differentiated again. *)
From Coq Require Import String List Arith ZArith Bool Reals.
Import ListNotations.
From Verif Require Import Array_Model Vjp_Spec Graph_Model Eval_Model Eval_Spec Scalar_Model Scalar_Spec Tens_Model Tens_Spec.
Local Open Scope R_scope.

(** Operations whose gradient rules consist of operations that can be
    differentiated again.  Excluded are those for which this fails (see C56):
    matrix products, reductions along axes, element access, slices, ELU, clipping,
    maximum and minimum; and, for simplicity, the cross entropies, convolutions
    and pooling. *)
Definition twice (o : top) : bool :=
  match o with
  | TUn (ELU _) | TUn (Clip _ _) => false
  | TBin Maximum | TBin Minimum | TBin (ELUGrad _) | TBin (ClipGrad _ _) => false
  | TMatMul _ _ | TReduceSum _ | TReduceGrad _ | TReduceMean _ | TReduceProd _ | TReduceExt _ _ _ => false
  | TIndex _ | TIndexGrad _ | TGatherI | TProdI | TStop => false
  | TSigmoidXent | TSparseXent _ | TXentLog _ | TSparseXentGrad => false
  | TSlice _ | TSliceGrad _ | TSplit _ _ _ | TSplitGrad _ _ _ | TTile _ _ => false
  | TConcat _ | TConcatGrad _ _ | TGather _ _ | TGatherGrad _ => false
  | TConv _ _ _ _ | TConvCols _ _ _ | TConvGradW | TConvT _ _ _ _ | TConvTGradW _ _ _ | TPool _ _ _ _ _ _ | TPoolGrad _ _ _ _ _ _ => false
  | _ => true
  end.
(** Where they are twice differentiable by their rules: as [t_dom], but a power
    with exponent 0 is not taken at 0, and no element of a divisor is 0. *)
Definition t_dom2 (o : top) (vs : list tv) : Prop :=
  match o, vs with
  | TUn (Pow a), [TA x] =>
      List.Forall (fun x => 0 < x \/ (x <> 0 /\ exists z : Z, a = IZR z) \/ (exists n : nat, a = INR (S n))) (a_data x)
  | TBin Div, [TA _; TA y] => List.Forall (fun a => a <> 0) (a_data y)
  | _, _ => t_dom o vs
  end.

(** The whole graph consists of such operations, used where their rules fit, and
    no array in it is empty ... *)
Definition fits2 (ls : nat -> list nat) (g : tgraph) : Prop :=
  forall i n, nth_error g i = Some n -> twice (n_op n) = true /\
    (forall ts, lookups (ttypes ls g) (n_inputs n) = Some ts -> op_fit (n_op n) ts = true) /\
    (forall sh, shaped ls g i sh -> nonempty sh = true).
(** ... and all operations are applied inside their domains (the arrays that are
    neither variables, placeholders nor sizes are differentiable). *)
Definition smooth2 (ls : nat -> list nat) (rho : nat -> arr R) (g : tgraph) : Prop :=
  forall i n sh, nth_error g i = Some n -> shaped ls g i sh -> n_op n <> TLeaf -> n_op n <> TSize ->
    n_diff n = true /\ t_dom2 (n_op n) (in_vals rho g n).
