(** What the language model of examples/lstm_lm.rs computes, as formulas on real
    numbers, independent of graphs and kernels. *)
From Coq Require Import List Arith ZArith Bool Reals.
Import ListNotations.
From Verif Require Import Array_Model Dot_Spec Lstm_Model.
Local Open Scope R_scope.

Definition sigma (x : R) : R := / (1 + exp (- x)).

(** Word [i] of a position, as a row of the table. *)
Definition word (w : list Z) (i : nat) : nat := Z.to_nat (nth i w 0%Z).

Section Lstm.
  (** The weights; [d] is the vector dimension, [vocab] the number of words. *)
  Variables (table wx wh b wp : arr R) (d vocab : nat).
  Notation at2 a i j := (aget 0 a [i; j]).

  (** The [q]-th group of [d] preactivations: 0 input, 1 forget, 2 content, 3 output. *)
  Definition pre (q : nat) (x h : nat -> nat -> R) (i k : nat) : R :=
    sum_below d (fun j => x i j * at2 wx j (q * d + k)%nat) + sum_below d (fun j => h i j * at2 wh j (q * d + k)%nat) + at2 b 0%nat (q * d + k)%nat.
  Definition new_cell (x h c : nat -> nat -> R) (i k : nat) : R :=
    sigma (pre 1 x h i k) * c i k + sigma (pre 0 x h i k) * tanh (pre 2 x h i k).
  Definition new_output (x h c : nat -> nat -> R) (i k : nat) : R :=
    sigma (pre 3 x h i k) * tanh (new_cell x h c i k).
  Definition score (h : nat -> nat -> R) (i w : nat) : R := sum_below d (fun k => h i k * at2 wp k w).
  (** Negative logarithm of the probability given to word [w] of sentence [i]. *)
  Definition surprise (h : nat -> nat -> R) (i w : nat) : R := ln (sum_below vocab (fun v => exp (score h i v))) - score h i w.
  (** Summed over the positions of sentence [i], given the state so far. *)
  Fixpoint sentence_loss (h c : nat -> nat -> R) (words : list (list Z)) (i : nat) : R :=
    match words with
    | cur :: ((next :: _) as rest) =>
        let x := fun i k => at2 table (word cur i) k in
        surprise (new_output x h c) i (word next i) + sentence_loss (new_output x h c) (new_cell x h c) rest i
    | _ => 0
    end.
End Lstm.

(** The loss of sentence [i], starting with the zero state. *)
Definition lm_loss (v : lstm) (d vocab : nat) (words : list (list Z)) (rho : nat -> arr R) (i : nat) : R :=
  sentence_loss (rho (v_table v)) (rho (v_wx v)) (rho (v_wh v)) (rho (v_b v)) (rho (v_pred v)) d vocab
    (fun _ _ => 0) (fun _ _ => 0) words i.

(** Sizes: [n] sentences of at least two words from the vocabulary. *)
Definition lm_sizes (ls : nat -> list nat) (v : lstm) (d vocab n : nat) (words : list (list Z)) : Prop :=
  (0 < d)%nat /\ (0 < vocab)%nat /\ (0 < n)%nat /\
  ls (v_table v) = [vocab; d] /\ ls (v_wx v) = [d; 4 * d]%nat /\ ls (v_wh v) = [d; 4 * d]%nat /\ ls (v_b v) = [1; 4 * d]%nat /\
  ls (v_pred v) = [d; vocab] /\ (2 <= length words)%nat /\
  List.Forall (fun w => length w = n /\ forall z, In z w -> (0 <= z < Z.of_nat vocab)%Z) words.
Definition lm_leaves (v : lstm) : list nat := [v_table v; v_wx v; v_wh v; v_b v; v_pred v].
