(** Layouts of matrices in memory and elementwise application, independent of the model. *)
From Coq Require Import List Arith ZArith.
Import ListNotations.
From Verif Require Import Array_Model.

(** Entries of an m-by-n matrix with strides [rs] and [cs] lie at distinct addresses. *)
Definition apart (rs cs : Z) (m n : nat) : Prop :=
  forall i j i' j', i < m -> j < n -> i' < m -> j' < n -> (Z.of_nat i * rs + Z.of_nat j * cs = Z.of_nat i' * rs + Z.of_nat j' * cs)%Z -> i = i' /\ j = j'.
(** Layouts that owned arrays, their slices, transposes, reversals and broadcasts have:
    the entries lie apart, or an axis repeats the same entries (stride 0). *)
Definition usual_layout (rs cs : Z) (m n : nat) : Prop := rs = 0%Z \/ cs = 0%Z \/ apart rs cs m n.
(** Representable as a 32-bit integer. *)
Definition small (x : nat) : Prop := (Z.of_nat x <= 2147483647)%Z.

(** [y] is [f] of each element: same shape; [x i] is the operand's element at [i]. *)
Definition elementwise {A} (zero : A) (f : A -> A) (sh : list nat) (x : list nat -> A) (y : arr A) : Prop :=
  a_shape y = sh /\ length (a_data y) = prod sh /\ forall i, in_bounds sh i -> aget zero y i = f (x i).

(** A batch of matrices whose batches are stored inside the matrices: some batch axis has a
    smaller stride than the rows or the columns (as after a transposition that moves a batch axis,
    or for a batch that repeats one matrix). *)
Definition interleaved (strides : list nat) : Prop :=
  exists b s0 s1 s, strides = b ++ [s0; s1] /\ In s b /\ (s < s0 \/ s < s1).
