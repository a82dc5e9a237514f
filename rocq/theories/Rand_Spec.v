(** Consecutive draws from a generator, stated without the loops of the code. *)
From Coq Require Import List Arith Reals.
From Verif Require Import Array_Model Vjp_Spec.
Local Open Scope R_scope.

Section Draws.
  Context {Rng A : Type}.
  Variable sample : Rng -> A * Rng.
  (** The state after [k] draws, and the draw that follows. *)
  Fixpoint after (k : nat) (r : Rng) : Rng :=
    match k with O => r | S k => snd (sample (after k r)) end.
  Definition draw (k : nat) (r : Rng) : A := fst (sample (after k r)).
End Draws.

(** [y] is [x] with some elements replaced by 0: element [k] (in row-major
    order) is kept exactly if [keep k]. *)
Definition kept (keep : nat -> Prop) (x y : arr R) : Prop :=
  has_shape (a_shape x) y /\
  forall k, (k < prod (a_shape x))%nat ->
    (keep k -> nth k (a_data y) 0 = nth k (a_data x) 0) /\
    (~ keep k -> nth k (a_data y) 0 = 0).
