(** The published update rules, as functions of the history of gradients.
    Nothing here refers to the optimizers' code. *)
From Coq Require Import List Arith Reals.
Import ListNotations.
From Verif Require Import Array_Model.
Local Open Scope R_scope.

(** [f 0 + ... + f (n-1)]. *)
Fixpoint sigma (n : nat) (f : nat -> R) : R :=
  match n with O => 0 | S n => sigma n f + f n end.

(** Element [i] of the [k]-th gradient of a history. *)
Definition grad_at (gs : list (arr R)) (k : nat) (i : list nat) : R :=
  match nth_error gs k with Some a => aget 0 a i | None => 0 end.

(** Momentum: the velocity after the first [n] gradients. *)
Definition velocity (lr momentum : R) (gs : list (arr R)) (n : nat) (i : list nat) : R :=
  - lr * sigma n (fun k => momentum ^ (n - 1 - k) * grad_at gs k i).

(** AdaGrad: the sum of squares of the first [n] gradients. *)
Definition squares (gs : list (arr R)) (n : nat) (i : list nat) : R :=
  sigma n (fun k => grad_at gs k i ^ 2).
(** The move made by gradient [k] (https://jmlr.org/papers/v12/duchi11a.html, diagonal). *)
Definition adagrad_move (lr : R) (gs : list (arr R)) (k : nat) (i : list nat) : R :=
  - (lr * grad_at gs k i / (sqrt (squares gs (S k) i) + / 10000000)).

(** Adam (https://arxiv.org/abs/1412.6980v8): exponential averages of the
    gradients and of their squares after the first [n] gradients. *)
Definition first_moment (b1 : R) (gs : list (arr R)) (n : nat) (i : list nat) : R :=
  (1 - b1) * sigma n (fun k => b1 ^ (n - 1 - k) * grad_at gs k i).
Definition second_moment (b2 : R) (gs : list (arr R)) (n : nat) (i : list nat) : R :=
  (1 - b2) * sigma n (fun k => b2 ^ (n - 1 - k) * grad_at gs k i ^ 2).
(** The move made by gradient [k], with bias correction. *)
Definition adam_move (alpha eps b1 b2 : R) (gs : list (arr R)) (k : nat) (i : list nat) : R :=
  - (alpha * ((first_moment b1 gs (S k) i / (1 - b1 ^ S k)) /
              (sqrt (second_moment b2 gs (S k) i / (1 - b2 ^ S k)) + eps))).
