(** Reduction over a set of axes, independent of the order in which the code
    folds them. *)
From Coq Require Import List Arith ZArith Bool.
Import ListNotations.
From Verif Require Import Array_Model.

Definition memb (k : nat) (ax : list nat) : bool := existsb (Nat.eqb k) ax.

(** Leave out the entries at the positions in [ax]. *)
Definition drop_axes (ax l : list nat) : list nat :=
  map snd (filter (fun p => negb (memb (fst p) ax)) (combine (seq 0 (length l)) l)).
(** Replace the entries at the positions in [ax] by [v]. *)
Definition fill_axes (v : nat) (ax l : list nat) : list nat :=
  map (fun p => if memb (fst p) ax then v else snd p) (combine (seq 0 (length l)) l).

Definition reduced_shape (keep : bool) (ax sh : list nat) : list nat :=
  if keep then fill_axes 1 ax sh else drop_axes ax sh.
Definition reduced_index (keep : bool) (ax i : list nat) : list nat :=
  if keep then fill_axes 0 ax i else drop_axes ax i.

(** [axes] names the axes [ax] of a rank-n array: negative numbers count from
    the end; no axis is named twice. *)
Definition names_axes (n : nat) (axes : list Z) (ax : list nat) : Prop :=
  NoDup ax /\ Forall2 (fun z k => k < n /\ (z = Z.of_nat k \/ (z = Z.of_nat k - Z.of_nat n)%Z)) axes ax.

(** [y] is the reduction of [x] over the axes [ax]: its shape leaves them out
    (or makes them 1), and each element combines, in some order, [e] and all
    elements of [x] whose position agrees on the other axes. *)
Definition combined {A} (e : A) (op : A -> A -> A) (l : list A) : A := fold_right op e l.
Definition reduction {A} (zero e : A) (op : A -> A -> A) (keep : bool) (ax : list nat) (x y : arr A) : Prop :=
  a_shape y = reduced_shape keep ax (a_shape x) /\ length (a_data y) = prod (a_shape y) /\
  forall j, in_bounds (a_shape y) j ->
    aget zero y j = combined e op (map (aget zero x)
                      (filter (fun i => shape_eqb (reduced_index keep ax i) j) (indices (a_shape x)))).
