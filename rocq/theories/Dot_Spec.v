(** What products of arrays should be, independent of the model. *)
From Coq Require Import List Arith ZArith Bool Reals.
Import ListNotations.
From Verif Require Import Array_Model.
Local Open Scope R_scope.

Fixpoint sum_below (n : nat) (f : nat -> R) : R := match n with O => 0 | S n => sum_below n f + f n end.

(** [y] is the product of an m-by-k and a k-by-n matrix given by their entries. *)
Definition product_of (m k n : nat) (a b : nat -> nat -> R) (y : arr R) : Prop :=
  a_shape y = [m; n] /\ length (a_data y) = (m * n)%nat /\
  forall i j, (i < m)%nat -> (j < n)%nat -> aget 0 y [i; j] = sum_below k (fun l => a i l * b l j).

(** The axes of an array of rank [n] that are not in [axes], ascending. *)
Definition others (n : nat) (axes : list nat) : list nat :=
  filter (fun k => if in_dec Nat.eq_dec k axes then false else true) (seq 0 n).
(** The coordinates of an index (or shape) at some axes. *)
Definition at_axes (axes : list nat) (i : list nat) : list nat := map (fun k => nth k i 0%nat) axes.

(** [y] contracts the axes [xa] of [a] with the axes [xb] of [b]: its axes are
    the remaining ones of [a], then those of [b]; an entry is the sum over all
    values [l] of the contracted axes of the products, where [pa l] and [pb l]
    are the positions with the entry's coordinates and [l]. *)
Definition contraction (a b : arr R) (xa xb : list nat) (y : arr R) : Prop :=
  let fa := others (length (a_shape a)) xa in
  let fb := others (length (a_shape b)) xb in
  let k := at_axes xa (a_shape a) in
  a_shape y = at_axes fa (a_shape a) ++ at_axes fb (a_shape b) /\
  length (a_data y) = prod (a_shape y) /\
  forall i j pa pb,
    in_bounds (at_axes fa (a_shape a)) i -> in_bounds (at_axes fb (a_shape b)) j ->
    (forall l, in_bounds k l -> in_bounds (a_shape a) (pa l) /\ at_axes fa (pa l) = i /\ at_axes xa (pa l) = l) ->
    (forall l, in_bounds k l -> in_bounds (a_shape b) (pb l) /\ at_axes fb (pb l) = j /\ at_axes xb (pb l) = l) ->
    aget 0 y (i ++ j) = fold_right Rplus 0 (map (fun l => aget 0 a (pa l) * aget 0 b (pb l)) (indices k)).
