(** What scalar graphs mean: the value of each tensor as a function of the leaf
    values, and the points at which the operations are differentiable. *)
From Coq Require Import String List Arith ZArith Bool Reals Lra.
Import ListNotations.
From Verif Require Import Graph_Model Eval_Model Eval_Spec Grad_Spec Scalar_Model.
Local Open Scope R_scope.

(** Processing a graph from left to right. *)
Section Scan.
  Context {O A : Type}.
  Variable f : nat -> node O -> list A -> A.
  Fixpoint scan_from (acc : list A) (g : graph O) : list A :=
    match g with
    | [] => acc
    | n :: g => scan_from (acc ++ [f (length acc) n acc]) g
    end.
  Definition scan (g : graph O) : list A := scan_from [] g.
End Scan.

(** The entries at the inputs of a node (selector 0). *)
Fixpoint lookups {A} (acc : list (option A)) (ins : list incoming) : option (list A) :=
  match ins with
  | [] => Some []
  | inc :: ins =>
      match in_sel inc, nth_error acc (in_id inc), lookups acc ins with
      | 0%nat, Some (Some v), Some l => Some (v :: l)
      | _, _, _ => None
      end
  end.

(** The values of all tensors when leaf [i] holds [rho i]. *)
Definition node_val (rho : nat -> R) (i : nat) (n : node sop) (acc : list (option sval)) : option sval :=
  match n_op n with
  | OLeaf => Some (Num (rho i))
  | o => match lookups acc (n_inputs n) with
         | Some vs => scompute o vs
         | None => None
         end
  end.
Definition values (rho : nat -> R) (g : sgraph) : list (option sval) := scan (node_val rho) g.
(** The number at tensor [i]. *)
Definition val (rho : nat -> R) (g : sgraph) (i : nat) : R :=
  match nth_error (values rho g) i with Some (Some v) => num v | _ => 0 end.

(** Whether a tensor holds a number, a shape, or the shape of a shape. *)
Inductive sty := TNum | TShp | TShpShp.
Definition op_ty (o : sop) (ts : list sty) : option sty :=
  match o, ts with
  | OScalar _, [] => Some TNum
  | OConvert v, [] => Some (match v with Num _ => TNum | Shp => TShp | ShpShp => TShpShp end)
  | OShape, [TNum] => Some TShp
  | OInferShape, [TShp; TShp] => Some TShp
  | OZeros, [TShp] => Some TNum
  | OMaybeReduceSum, [TNum; TShp] => Some TNum
  | OMaybeBroadcast, [TNum; TShp] => Some TNum
  | OSumAll, [TNum] => Some TNum
  | OSumAllGrad, [TNum; TShp] => Some TNum
  | OAddN, t :: ts => if forallb (fun t => match t with TNum => true | _ => false end) (t :: ts)
                      then Some TNum else None
  | OStop, [TNum] => Some TNum
  | OUn _, [TNum] => Some TNum
  | OBin _, [TNum; TNum] => Some TNum
  | _, _ => None
  end.
Definition node_ty (i : nat) (n : node sop) (acc : list (option sty)) : option sty :=
  match n_op n with
  | OLeaf => Some TNum
  | o => match lookups acc (n_inputs n) with
         | Some ts => op_ty o ts
         | None => None
         end
  end.
Definition types (g : sgraph) : list (option sty) := scan node_ty g.
Definition numeric (g : sgraph) (i : nat) : Prop := nth_error (types g) i = Some (Some TNum).
Definition shapely (g : sgraph) (i : nat) : Prop := nth_error (types g) i = Some (Some TShp).

(** Well-formed scalar graphs: inputs come earlier, operations get inputs of the
    right kind, recorded shapes are shapes, leaves are the variables and
    placeholders, ranks are those the builder assigns, no operation writes in
    place. *)
Record swf (g : sgraph) : Prop := {
  swf_typed : forall i n, nth_error g i = Some n -> exists t, nth_error (types g) i = Some (Some t);
  swf_shape : forall i n sh, nth_error g i = Some n -> numeric g i -> n_shape n = Some sh -> shapely g sh;
  swf_leaf : forall i n, nth_error g i = Some n -> n_op n = OLeaf ->
    n_inputs n = [] /\ (is_variable n || is_placeholder n) = true;
  swf_op : forall i n, nth_error g i = Some n -> n_op n <> OLeaf -> n_var n = None /\ n_ph n = None;
  swf_backprop : forall i n, nth_error g i = Some n -> n_backprop n = None;
  swf_rank : forall i n inc, nth_error g i = Some n -> In inc (n_inputs n) -> (rank_of g (in_id inc) < n_rank n)%nat;
  swf_mut : forall i n inc, nth_error g i = Some n -> In inc (n_inputs n) -> in_mut inc = false
}.

(** Changing one leaf. *)
Definition set_leaf (rho : nat -> R) (x : nat) (t : R) : nat -> R := fun i => if (i =? x)%nat then t else rho i.

(** Points at which an elementwise function is differentiable. *)
Definition un_dom (u : uop) (x : R) : Prop :=
  match u with
  | Tan => cos x <> 0
  | Asin | Acos | Atanh => -1 < x < 1
  | Acosh => 1 < x
  | Ln | Log2 | Log10 | Sqrt | InvSqrt => 0 < x
  | Inv | Abs | Sign | ReLU | ELU _ => x <> 0
  | Floor | Ceil => forall z : Z, x <> IZR z
  | Pow a => 0 < x \/ (x <> 0 /\ exists z : Z, a = IZR z) \/ (exists n : nat, a = INR n)
  | Clip mn mx => x <> mn /\ x <> mx
  | _ => True
  end.
(** For [ELUGrad] and [ClipGrad], whose rules propagate nothing, no point. *)
Definition bin_dom (b : bop) (x y : R) : Prop :=
  match b with
  | Add | Sub | Mul => True
  | Div => y <> 0
  | ELUGrad _ | ClipGrad _ _ => False
  | _ => x <> y
  end.
(** [OStop] has no such point either: its output is not treated as a function
    of its input. *)
Definition op_dom (o : sop) (vs : list R) : Prop :=
  match o, vs with
  | OUn u, [x] => un_dom u x
  | OBin b, [x; y] => bin_dom b x y
  | OStop, _ => False
  | _, _ => True
  end.

(** [x] can be varied in [y]: every number that [y] is computed from and that
    itself depends on [x] is differentiable, with its operation inside its domain. *)
Definition smooth (g : sgraph) (rho : nat -> R) (x y : nat) : Prop :=
  forall i n, depends g y i -> depends g i x -> i <> x -> nth_error g i = Some n -> numeric g i ->
    n_diff n = true /\ op_dom (n_op n) (map (fun inc => val rho g (in_id inc)) (n_inputs n)).

(** A variable or placeholder that gradients may be asked for. *)
Definition input_leaf (g : sgraph) (x : nat) : Prop :=
  exists n, nth_error g x = Some n /\ n_op n = OLeaf /\ n_diff n = true.

(** The variables and feeds hold the leaf values [rho]. *)
Definition leaf_values (g : sgraph) (feeds : list (ph_key * sval)) (env : list sval) (rho : nat -> R) : Prop :=
  forall i n, nth_error g i = Some n -> n_op n = OLeaf ->
    (exists vid, n_var n = Some vid /\ n_ph n = None /\ nth_error env vid = Some (Num (rho i))) \/
    (n_var n = None /\ fed sval_shape feeds i n (Num (rho i))).
