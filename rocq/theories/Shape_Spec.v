(** What the operations that move elements should do.  Independent of the model
    except for the array type. *)
From Coq Require Import List Arith ZArith Bool Permutation.
Import ListNotations.
From Verif Require Import Array_Model Reduce_Spec.

(** Elementwise sum of index vectors. *)
Definition shift (off i : list nat) : list nat := map2 Nat.add off i.

(** A user's slice bounds on one axis of length n: a negative start counts from
    the end; a negative end counts from the end with -1 meaning "to the end". *)
Definition axis_range (n : nat) (s e : Z) (lo hi : nat) : Prop :=
  ((0 <= s)%Z /\ Z.of_nat lo = s \/ (s < 0)%Z /\ Z.of_nat lo = (Z.of_nat n + s)%Z) /\
  ((0 <= e)%Z /\ Z.of_nat hi = e \/ (e < 0)%Z /\ Z.of_nat hi = (Z.of_nat n + e + 1)%Z) /\
  lo <= n /\ hi <= n.
Inductive slice_range : list nat -> list Z -> list Z -> list nat -> list nat -> Prop :=
| sr_nil : slice_range [] [] [] [] []
| sr_cons n s e lo hi sh ss es los his :
    axis_range n s e lo hi -> slice_range sh ss es los his ->
    slice_range (n :: sh) (s :: ss) (e :: es) (lo :: los) (hi :: his).

(** [y] is the block of [x] that starts at [off] and has shape [sh]. *)
Definition block_of {A} (zero : A) (x : arr A) (off sh : list nat) (y : arr A) : Prop :=
  a_shape y = sh /\ length (a_data y) = prod sh /\
  forall i, in_bounds sh i -> aget zero y i = aget zero x (shift off i).

(** The offset vector that is [o] on axis [k] and 0 elsewhere. *)
Definition on_axis (n k o : nat) : list nat := map (fun j => if j =? k then o else 0) (seq 0 n).

(** [k] is the axis named by [axis] in an array of rank [n]. *)
Definition names_axis (n : nat) (axis : Z) (k : nat) : Prop :=
  k < n /\ (axis = Z.of_nat k \/ axis = (Z.of_nat k - Z.of_nat n)%Z).

(** [y] is the concatenation of [xs] along axis [k]: its length on that axis is
    the sum of theirs, and each operand is the block of [y] that starts where the
    operands before it end. *)
Definition axis_len {A} (k : nat) (x : arr A) : nat := nth k (a_shape x) 0.
Definition offset {A} (k m : nat) (xs : list (arr A)) : nat := list_sum (map (axis_len k) (firstn m xs)).
Definition concatenation {A} (zero : A) (k : nat) (xs : list (arr A)) (y : arr A) : Prop :=
  axis_len k y = list_sum (map (axis_len k) xs) /\ length (a_data y) = prod (a_shape y) /\
  forall m x, nth_error xs m = Some x ->
    remove_at k (a_shape x) = remove_at k (a_shape y) /\ length (a_shape x) = length (a_shape y) /\
    block_of zero y (on_axis (length (a_shape y)) k (offset k m xs)) (a_shape x) x.
(** Arrays that can be concatenated along axis [k]. *)
Definition stackable {A} (k : nat) (xs : list (arr A)) : Prop :=
  exists sh, k < length sh /\ Forall (fun x => length (a_data x) = prod (a_shape x) /\ exists d, a_shape x = set_at k d sh) xs.

(** A list of integers names positions of an axis of length n. *)
Definition names_index (norm : bool) (n : nat) (z : Z) (i : nat) : Prop :=
  i < n /\ (z = Z.of_nat i \/ norm = true /\ (z = Z.of_nat i - Z.of_nat n)%Z).
(** [y] gathers [x] along axis [k] with an array of positions of shape [ish]. *)
Definition gathered {A} (zero : A) (k : nat) (ish : list nat) (pos : list nat) (x y : arr A) : Prop :=
  a_shape y = firstn k (a_shape x) ++ ish ++ skipn (S k) (a_shape x) /\ length (a_data y) = prod (a_shape y) /\
  forall a b c, in_bounds (firstn k (a_shape x)) a -> in_bounds ish b -> in_bounds (skipn (S k) (a_shape x)) c ->
    aget zero y (a ++ b ++ c) = aget zero x (a ++ [nth (ravel ish b) pos 0] ++ c).

(** [out] is [sh] with unit axes inserted so that they are at the positions [ax]. *)
Definition unit_axes (ax sh out : list nat) : Prop :=
  length out = length sh + length ax /\ drop_axes ax out = sh /\ Forall (fun k => nth k out 0 = 1) ax.

(** The axes [p] rearrange those of [x]: axis [j] of [y] is axis [p[j]] of [x]. *)
Definition permuted {A} (zero : A) (p : list nat) (x y : arr A) : Prop :=
  a_shape y = map (fun k => nth k (a_shape x) 0) p /\ length (a_data y) = prod (a_shape y) /\
  forall i, in_bounds (a_shape x) i -> aget zero y (map (fun k => nth k i 0) p) = aget zero x i.

(** [dims] as given to reshape describes the shape [out]: one entry may be -1,
    then no entry may be 0. *)
Definition describes (dims : list Z) (out : list nat) : Prop :=
  Forall2 (fun d n => d = Z.of_nat n \/ d = (-1)%Z) dims out /\
  count_occ Z.eq_dec dims (-1)%Z <= 1 /\ (In (-1)%Z dims -> ~ In 0%Z dims).
