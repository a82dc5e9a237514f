(** [grad_helper] of src/optimizers/mod.rs: gradients with respect to the variables of
    a namespace.  The gradient rules are parameters, as in [Grad_Model]; the state of the
    graph under construction is the graph itself. *)
From Coq Require Import String List Arith ZArith Bool.
Import ListNotations.
From Verif Require Import Graph_Model Eval_Model Grad_Model Var_Model.

(** src/optimizers/mod.rs:37-43: the loop over xs; [None] is a panic inside
    [extract_grad]. *)
Fixpoint extract_vars {S T : Type} (addn : list T -> S -> option (T * S)) (xs : list nat) (m : @gradmap T) (s : S)
  : option (list nat * list T * S) :=
  match xs with
  | [] => Some ([], [], s)
  | x :: xs =>
      match extract_grad addn m x s with
      | None => None
      | Some (Some t, m', s') =>
          match extract_vars addn xs m' s' with
          | None => None
          | Some (vs, ts, s2) => Some (x :: vs, t :: ts, s2)
          end
      | Some (None, m', s') => extract_vars addn xs m' s'
      end
  end.

(** src/optimizers/mod.rs:34-45: differentiation, and the loop. *)
Definition diff_vars {O S T : Type} (g : graph O) (opgrad : nat -> T -> S -> option (list (option T) * S))
  (addn : list T -> S -> option (T * S)) (one : S -> option (T * S))
  (pop : list nat -> option (nat * list nat)) (debug : bool) (fuel : nat) (ys xs : list nat) (s : S)
  : res (list nat * list T * S * list nat) :=
  match compute_gradients g opgrad addn one pop debug fuel ys xs None s with
  | Ok st =>
      match extract_vars addn xs (gs_map st) (gs_s st) with
      | Some (vs, ts, s') => Ok (vs, ts, s', gs_log st)
      | None => Panic
      end
  | Panic => Panic
  | OutOfFuel => OutOfFuel
  end.

Section GradHelper.
  Context {A O : Type}.
  (** src/tensor_ops/mod.rs:1036-1047: variable tensors. *)
  Variable var_op : O.
  (** src/tensor_ops/mod.rs:94-103 and src/optimizers/mod.rs:32: [sum_all] of every tensor. *)
  Variable sum_alls : list nat -> graph O -> option (list nat * graph O).
  (** The rules, reading the given graph.  src/op.rs:365-380. *)
  Variable opgrad : graph O -> nat -> nat -> graph O -> option (list (option nat) * graph O).
  (** src/tensor_ops/mod.rs:831-847 [add_n]. *)
  Variable addn : list nat -> graph O -> option (nat * graph O).
  (** src/gradient.rs:39 [scalar(1)]. *)
  Variable one : graph O -> option (nat * graph O).
  (** [BinaryHeap::pop], see [Grad_Model].  src/gradient.rs:52. *)
  Variable pop : graph O -> list nat -> option (nat * list nat).
  Variable debug : bool.

  (** src/optimizers/mod.rs:21-46 [grad_helper]; [losses[0]] panics when there is no
      loss.  The tensors of the variables are created if need be, after the sums. *)
  Definition grad_helper (fuel : nat) (losses : list nat) (e : env A) (ns : string) (c : context O)
    : res (list nat * list nat * context O * list nat) :=
    match losses with
    | [] => Panic
    | _ =>
        match sum_alls losses (c_graph c) with
        | None => Panic
        | Some (ys, g1) =>
            match var_tensors_by_name var_op e (Context g1 (c_vars c)) ns with
            | None => Panic
            | Some (c2, l) =>
                match diff_vars (c_graph c2) (opgrad (c_graph c2)) addn one (pop (c_graph c2)) debug fuel
                        ys (map snd l) (c_graph c2) with
                | Ok (vs, ts, g', log) => Ok (vs, ts, Context g' (c_vars c2), log)
                | Panic => Panic
                | OutOfFuel => OutOfFuel
                end
            end
        end
    end.
End GradHelper.
