(** Broadcasting, stated by counting dimensions from the end.  Independent of
    the models. *)
From Coq Require Import List Arith.
Import ListNotations.

(** The k-th dimension (or coordinate) from the end. *)
Definition from_end (s : list nat) (k dflt : nat) : nat := nth k (rev s) dflt.

(** Shape [r] is the broadcast of shapes [a] and [b]: as long as the longer one,
    and in every dimension, counted from the end, equal to both (a missing
    dimension counts as 1) except that a 1 gives way to the other. *)
Definition broadcasts (a b r : list nat) : Prop :=
  length r = Nat.max (length a) (length b) /\
  forall k, k < length r ->
    let x := from_end a k 1 in
    let y := from_end b k 1 in
    let z := from_end r k 1 in
    (x = y /\ z = x) \/ (x = 1 /\ z = y) \/ (y = 1 /\ z = x).

(** The element of an array of shape [s] that a position [i] of the broadcast
    result refers to. *)
Definition refers (s i j : list nat) : Prop :=
  length j = length s /\
  forall k, k < length s ->
    from_end j k 0 = if from_end s k 1 =? 1 then 0 else from_end i k 0.
