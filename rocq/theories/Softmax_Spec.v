(** What softmax and friends should be, independent of the model. *)
From Coq Require Import List Arith ZArith Bool Reals.
Import ListNotations.
From Verif Require Import Array_Model Dot_Spec.
Local Open Scope R_scope.

(** [i] with coordinate [l] on axis [k]. *)
Fixpoint at_pos (k l : nat) (i : list nat) : list nat :=
  match k, i with
  | _, [] => []
  | O, _ :: i => l :: i
  | S k, a :: i => a :: at_pos k l i
  end.
(** The sum of [f] over the elements on the line through [i] along axis [k] of [x]. *)
Definition line_sum (k : nat) (x : arr R) (f : R -> R) (i : list nat) : R :=
  sum_below (nth k (a_shape x) 0%nat) (fun l => f (aget 0 x (at_pos k l i))).

Definition entries (x y : arr R) (f : list nat -> R) : Prop :=
  a_shape y = a_shape x /\ length (a_data y) = prod (a_shape x) /\
  forall i, in_bounds (a_shape x) i -> aget 0 y i = f i.

(** exp(x_i) / sum of exp(x_l) *)
Definition softmax_of (k : nat) (x y : arr R) : Prop :=
  entries x y (fun i => exp (aget 0 x i) / line_sum k x exp i).
(** x_i - ln (sum of exp(x_l)) *)
Definition log_softmax_of (k : nat) (x y : arr R) : Prop :=
  entries x y (fun i => aget 0 x i - ln (line_sum k x exp i)).
(** ln (sum of exp(x_l)), the axis kept with size 1 or dropped *)
Definition logsumexp_of (keep : bool) (k : nat) (x y : arr R) : Prop :=
  let out (c : nat) (s : list nat) := if keep then firstn k s ++ c :: skipn (S k) s else firstn k s ++ skipn (S k) s in
  a_shape y = out 1%nat (a_shape x) /\ length (a_data y) = prod (a_shape y) /\
  forall i, in_bounds (a_shape x) i -> aget 0 y (out 0%nat i) = ln (line_sum k x exp i).
