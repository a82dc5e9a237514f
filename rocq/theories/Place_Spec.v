(** In which order the elements of the tensors of a graph are stored, as far as it follows from
    the operations, and which operations depend on it. *)
From Coq Require Import String List Arith ZArith Bool Reals.
Import ListNotations.
From Verif Require Import Array_Model Batch_Model Graph_Model Eval_Model Eval_Spec Scalar_Spec Tens_Model Tens_Spec Layout_Spec Place_Model.

(** By rows; by rows or by columns; nothing known. *)
Inductive order := Rows | RowsOrColumns | Anyhow.
Definition order_leb (a b : order) : bool :=
  match a, b with
  | Rows, _ | _, Anyhow | RowsOrColumns, RowsOrColumns => true
  | _, _ => false
  end.
Definition worse (a b : order) : order := if order_leb a b then b else a.

(** All elements lie in the memory. *)
Definition inside (v : view R) : Prop := forall i, in_bounds (v_shape v) i -> v_off v + position v i < length (v_mem v).
Definition stored (k : order) (v : pv) : Prop :=
  match v with
  | PI _ => True
  | PA v => view_ok v /\ inside v /\
      match k with
      | Rows => row_major_view v
      | RowsOrColumns => row_major_view v \/ column_major_view v
      | Anyhow => True
      end
  end.

(** The order of a result, given the worst order of the operands.  A product can be stored by
    columns; views and concatenations in any way; operations that fill a new vector store by
    rows (constants are given by rows); all others are at worst as their operands. *)
Definition result_order (o : top) (w : order) : order :=
  match o with
  | TTranspose _ | TSlice _ | TSplit _ _ _ | TConcat _ | TConcatGrad _ _ | TTile _ _ => Anyhow
  | TMatMul _ _ => RowsOrColumns
  | TReshape | TZeros | TOnes | TScalar _ | TConst _ | TSize | TSumAll | TSumAllGrad | TIndex _ | TIndexGrad _
  | TSliceGrad _ | TSplitGrad _ _ _ | TGather _ _ | TGatherGrad _
  | TConv _ _ _ _ | TConvCols _ _ _ | TConvGradW | TConvT _ _ _ _ | TConvTGradW _ _ _ | TPool _ _ _ _ _ _ | TPoolGrad _ _ _ _ _ _ => Rows
  | _ => w
  end.

(** New arrays hold the computed elements, in an order [result_order] allows. *)
Definition places (place : top -> list pv -> arr R -> view R) : Prop :=
  forall o vs a w, length (a_data a) = prod (a_shape a) -> contents 0%R (place o vs a) = a /\
    (Forall (stored w) vs -> stored (result_order o w) (PA (place o vs a))).

(** The order of every tensor, when leaf [i] is stored in order [lo i]. *)
Definition node_order (lo : nat -> order) (i : nat) (n : node top) (acc : list order) : order :=
  match n_op n with
  | TLeaf => lo i
  | o => result_order o (fold_right worse Rows (map (fun inc => nth (in_id inc) acc Anyhow) (n_inputs n)))
  end.
Definition orders (lo : nat -> order) (g : tgraph) : list order := scan (node_order lo) g.
Definition order_of (lo : nat -> order) (g : tgraph) (i : nat) : order := nth i (orders lo g) Anyhow.

(** Operands that must be stored by rows, or the result is wrong. *)
Definition must_be (o : top) : list (nat * order) :=
  match o with
  | TIndex _ => [(0, Rows)]
  | TConvTGradW _ _ _ => [(0, Rows); (1, Rows)]
  | _ => []
  end.
(** Operands that must be stored by rows or by columns, or the operation panics. *)
Definition should_be (o : top) : list (nat * order) :=
  match o with
  | TExpandDims | TReduceGrad _ => [(0, RowsOrColumns)]
  | TGatherGrad _ => [(2, RowsOrColumns)]
  | _ => []
  end.
Definition meets (req : top -> list (nat * order)) (lo : nat -> order) (g : tgraph) : Prop :=
  forall i n p k inc, nth_error g i = Some n -> In (p, k) (req (n_op n)) -> nth_error (n_inputs n) p = Some inc ->
    order_leb (order_of lo g (in_id inc)) k = true.

(** The variables and feeds hold the views [w]. *)
Definition p_leaf_values (g : tgraph) (feeds : list (ph_key * pv)) (env : list pv) (w : nat -> view R) : Prop :=
  forall i n, nth_error g i = Some n -> n_op n = TLeaf ->
    (exists vid, n_var n = Some vid /\ n_ph n = None /\ nth_error env vid = Some (PA (w i))) \/
    (n_var n = None /\ fed pv_shape feeds i n (PA (w i))).
(** The leaf values as arrays. *)
Definition elements_of (w : nat -> view R) (i : nat) : arr R := contents 0%R (w i).

(** Operations that, on operands stored in order [k], neither go wrong nor panic and give a
    result stored in order [k]. *)
Definition safe (k : order) (o : top) : bool :=
  order_leb (result_order o k) k && forallb (fun '(_, q) => order_leb k q) (must_be o ++ should_be o).
(** The same for what their gradients are made of: filter gradients of transposed
    convolutions, expanded and repeated gradients, and gradients of lookups ask for more. *)
Definition steady (k : order) (o : top) : bool :=
  safe k o &&
  match k, o with
  | Rows, _ => true
  | _, TConvT _ _ _ _ => false
  | Anyhow, (TSqueeze | TReduceSum _ | TReduceMean _ | TReduceProd _ | TReduceExt _ _ _ | TGather _ _) => false
  | _, _ => true
  end.
Definition all_ops (Q : top -> bool) (g : tgraph) : Prop := forall i n, nth_error g i = Some n -> n_op n = TLeaf \/ Q (n_op n) = true.
