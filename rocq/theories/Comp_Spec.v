(** What the composite operations compute: averages and variances of groups of
    elements. *)
From Coq Require Import List Arith ZArith NArith Bool Reals.
Import ListNotations.
From Verif Require Import Array_Model Arith_Model Reduce_Spec Tens_Spec Comp_Model.
Local Open Scope R_scope.

Definition avg (l : list R) : R := fold_right Rplus 0 l / INR (length l).
Definition variance (l : list R) : R := avg (map (fun a => (a - avg l) * (a - avg l)) l).

(** The positions, and the elements of [x], that reducing the axes [ax] combines at [i]. *)
Definition group_at (keep : bool) (ax sh i : list nat) : list (list nat) :=
  filter (fun j => shape_eqb (reduced_index keep ax j) i) (indices sh).
Definition group (keep : bool) (ax : list nat) (x : arr R) (i : list nat) : list R :=
  map (aget 0 x) (group_at keep ax (a_shape x) i).

(** Shapes for which the operations are defined, and the shape of the result.
    Means need at least one axis and at most 2^24 elements in each group. *)
Definition mean_axes (axes : list Z) (sh : list nat) : option (list nat) :=
  match axes_of (length sh) axes with
  | Some ax => if nonempty sh && negb (length axes =? 0)%nat && (N.of_nat (group_size ax sh) <=? 2 ^ 24)%N then Some ax else None
  | None => None
  end.
Definition comp_shape (c : comp) (shs : list (list nat)) : option (list nat) :=
  match c, shs with
  | CMean keep axes, [sh] | CVariance keep axes, [sh] => option_map (fun ax => reduced_shape keep ax sh) (mean_axes axes sh)
  | CMeanAll, [sh] => if nonempty sh then Some [] else None
  | CLeakyRelu _, [sh] => if nonempty sh then Some sh else None
  | CMse, [s0; s1] => if shape_eqb s0 s1 then option_map (fun ax => reduced_shape false ax s0) (mean_axes [(-1)%Z] s0) else None
  | CNormalize axes, [sh] => option_map (fun _ => sh) (mean_axes axes sh)
  | CBatchNorm, [[n; c]; s1; s2] =>
      if shape_eqb s1 [1%nat; c] && shape_eqb s2 [1%nat; c] then option_map (fun _ => [n; c]) (mean_axes [0%Z] [n; c]) else None
  | _, _ => None
  end.

(** The element of [normalize(x, axes)] at [j]. *)
Definition normalized (ax : list nat) (x : arr R) (j : list nat) : R :=
  let l := group true ax x (reduced_index true ax j) in
  (aget 0 x j - avg l) / sqrt (variance l + 1 / 100000).

Definition comp_at (c : comp) (xs : list (arr R)) (i : list nat) : R :=
  match c, xs with
  | CMean keep axes, [x] =>
      match axes_of (length (a_shape x)) axes with Some ax => avg (group keep ax x i) | None => 0 end
  | CMeanAll, [x] => avg (a_data x)
  | CVariance keep axes, [x] =>
      match axes_of (length (a_shape x)) axes with Some ax => variance (group keep ax x i) | None => 0 end
  | CLeakyRelu alpha, [x] => Rmax (aget 0 x i) (alpha * aget 0 x i)
  | CMse, [y; t] =>
      avg (map (fun j => (aget 0 y j - aget 0 t j) * (aget 0 y j - aget 0 t j))
               (group_at false [(length (a_shape y) - 1)%nat] (a_shape y) i))
  | CNormalize axes, [x] =>
      match axes_of (length (a_shape x)) axes with Some ax => normalized ax x i | None => 0 end
  | CBatchNorm, [x; scale; shift] =>
      let col := [0%nat; nth 1 i 0%nat] in
      normalized [0%nat] x i * aget 0 scale col + aget 0 shift col
  | _, _ => 0
  end.
(** Where they are differentiable. *)
Definition comp_dom (c : comp) (xs : list (arr R)) : Prop :=
  match c, xs with
  | CLeakyRelu alpha, x :: _ => List.Forall (fun a => a <> alpha * a) (a_data x)
  | _, _ => True
  end.
