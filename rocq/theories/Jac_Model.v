(** Jacobians (src/tensor_ops/mod.rs:188-216). *)
From Coq Require Import List Arith ZArith Reals.
Import ListNotations.
From Verif Require Import Graph_Model Eval_Model Grad_Model Scalar_Model Tens_Model.

(** mod.rs:198-200: one call of [grad] for each of the elements
    [i .. i+n-1] of [y], on the graph left by the one before. *)
Fixpoint t_rows (pop : tgraph -> list nat -> option (nat * list nat)) (debug : bool) (fuel : nat)
  (y : nat) (xs : list nat) (n i : nat) (g : tgraph) : res (list (list nat) * tgraph) :=
  match n with
  | O => Ok ([], g)
  | S n =>
      match a_access y (Z.of_nat i) g with
      | None => Panic
      | Some (e, g1) =>
          match t_grad pop debug fuel [e] xs g1 with
          | Ok (l, g2, _) =>
              match t_rows pop debug fuel y xs n (S i) g2 with
              | Ok (rows, g3) => Ok (map fst l :: rows, g3)
              | Panic => Panic
              | OutOfFuel => OutOfFuel
              end
          | Panic => Panic
          | OutOfFuel => OutOfFuel
          end
      end
  end.
(** mod.rs:207-210: the gradients of one operand, flattened, as rows. *)
Fixpoint t_flats (ts : list nat) : tbld (list nat) :=
  match ts with
  | [] => tret []
  | t :: ts => tbind (a_flatten t) (fun f => tbind (a_expand_dims f [0%Z]) (fun e => tbind (t_flats ts) (fun l => tret (e :: l))))
  end.
(** mod.rs:205-213: for the operands [k .. k+n-1].  [vec[i]] is in range: there
    is a gradient for every operand. *)
Fixpoint t_stacked (rows : list (list nat)) (n k : nat) : tbld (list nat) :=
  match n with
  | O => tret []
  | S n => tbind (t_flats (map (fun r => nth k r 0%nat) rows)) (fun l =>
           tbind (a_concat l 0) (fun j => tbind (t_stacked rows n (S k)) (fun js => tret (j :: js))))
  end.
(** mod.rs:188-216 [jacobians]. *)
Definition t_jacobians (pop : tgraph -> list nat -> option (nat * list nat)) (debug : bool) (fuel : nat)
  (y : nat) (xs : list nat) (objective_len : nat) (g : tgraph) : res (list nat * tgraph) :=
  match t_rows pop debug fuel y xs objective_len 0 g with
  | Ok (rows, g1) => match t_stacked rows (length xs) 0 g1 with Some r => Ok r | None => Panic end
  | Panic => Panic
  | OutOfFuel => OutOfFuel
  end.
