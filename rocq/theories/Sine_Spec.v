(** What the network of examples/sine.rs computes, as formulas on real numbers. *)
From Coq Require Import List Arith Reals.
Import ListNotations.
From Verif Require Import Array_Model Dot_Spec.
Local Open Scope R_scope.

(** Row [i] of [h] times column [j] of the matrix [w]. *)
Definition product (h : nat -> nat -> R) (w : arr R) (i j : nat) : R :=
  sum_below (hd 0%nat (a_shape w)) (fun l => h i l * aget 0 w [l; j]).
Fixpoint activations (ws : list (arr R)) (h : nat -> nat -> R) : nat -> nat -> R :=
  match ws with
  | [] => h
  | w :: ws => activations ws (fun i j => tanh (product h w i j))
  end.
(** The prediction for input [i]. *)
Definition prediction (x : arr R) (ws : list (arr R)) (last : arr R) : nat -> nat -> R :=
  product (activations ws (fun i j => aget 0 x [i; j])) last.
(** The mean squared distance of the predictions from the sines of the inputs. *)
Definition sine_error (n m : nat) (x : arr R) (ws : list (arr R)) (last : arr R) : R :=
  sum_below n (fun i => sum_below m (fun j =>
    (prediction x ws last i j - sin (aget 0 x [i; j])) * (prediction x ws last i j - sin (aget 0 x [i; j])))) / INR (n * m).

(** Sizes: [n] inputs of dimension [m]; each layer takes what the one before gives. *)
Fixpoint chained (ls : nat -> list nat) (d : nat) (ws : list nat) (last m : nat) : Prop :=
  match ws with
  | [] => ls last = [d; m]
  | w :: ws => exists k, (0 < k)%nat /\ ls w = [d; k] /\ chained ls k ws last m
  end.
Definition sine_sizes (ls : nat -> list nat) (n m x : nat) (ws : list nat) (last : nat) : Prop :=
  (0 < n)%nat /\ (0 < m)%nat /\ ls x = [n; m] /\ chained ls m ws last m.
