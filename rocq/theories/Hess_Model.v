(** Hessian-vector products (src/tensor_ops/mod.rs:218-236). *)
From Coq Require Import List Arith Reals.
Import ListNotations.
From Verif Require Import Graph_Model Eval_Model Grad_Model Scalar_Model Tens_Model.

(** mod.rs:230-234: the gradients are zipped with the vectors and multiplied
    ([Mul] of two tensors, tensor.rs:872-911). *)
Fixpoint t_products (gs vs : list nat) : tbld (list nat) :=
  match gs, vs with
  | g :: gs, v :: vs => tbind (a_bin Mul g v) (fun p => tbind (t_products gs vs) (fun l => tret (p :: l)))
  | _, _ => tret []
  end.
(** mod.rs:219-236 [_hessian_vector_product]. *)
Definition t_hvp (pop : tgraph -> list nat -> option (nat * list nat)) (debug : bool) (fuel : nat)
  (ys xs vs : list nat) (g : tgraph) : res (list (nat * bool) * tgraph * list nat) :=
  match t_grad pop debug fuel ys xs g with
  | Ok (l, g1, _) =>
      match t_products (map fst l) vs g1 with
      | None => Panic
      | Some (ps, g2) => t_grad pop debug fuel ps xs g2
      end
  | Panic => Panic
  | OutOfFuel => OutOfFuel
  end.
