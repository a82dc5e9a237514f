(** The tensor that updates all parameters when it is evaluated: models
    [Optimizer::get_update_op]. *)
From Coq Require Import String List Arith ZArith Bool Reals.
Import ListNotations.
From Verif Require Import Graph_Model Eval_Model Var_Model Array_Model Arith_Model Shape_Model Opt_Model.

Section Joint.
  Context {O E : Type}.
  Variable var_op : O.
  Variable inj : opt_op -> O.
  (** [array_ops::Shape] and [array_ops::AddN]. *)
  Variables (shape_op addn_op : O).

  (** src/tensor_ops/mod.rs:266-279 [shape]: the shape tensor attached to [x], or a
      new one. *)
  Definition shape_tensor (c : context O) (x : nat) : option (context O * nat) :=
    match nth_error (c_graph c) x with
    | None => None
    | Some n =>
        match n_shape n with
        | Some s => Some (c, s)
        | None =>
            match build (c_graph c) (set_differentiable (append_input new_builder x false 0) false) shape_op with
            | None => None
            | Some (g', s) => Some (Context g' (c_vars c), s)
            end
        end
    end.

  (** src/tensor_ops/mod.rs:831-847 [add_n]: [None] for an empty list (the assertion
      at line 836); a single tensor is returned itself. *)
  Definition add_n_tensor (c : context O) (xs : list nat) : option (context O * nat) :=
    match xs with
    | [] => None
    | [x] => Some (c, x)
    | x0 :: _ =>
        match shape_tensor c x0 with
        | None => None
        | Some (c1, s) =>
            match build (c_graph c1) (set_shape (fold_left (fun b x => append_input b x false 0) xs new_builder) s) addn_op with
            | None => None
            | Some (g', u) => Some (Context g' (c_vars c1), u)
            end
        end
    end.

  (** src/optimizers/mod.rs:87-98 [Optimizer::get_update_op]. *)
  Definition get_update_op (opt : optimizer) (e : env (arr R)) (c : context O) (ps gs : list nat)
    : option (context O * nat) :=
    match compute_updates var_op inj opt e c ps gs with
    | None => None
    | Some (c', us) => add_n_tensor c' us
    end.

  (** src/op.rs:206-233 [input] for every input. *)
  Fixpoint inputs (xs : list (opin (arr R))) : option (list (arr R)) :=
    match xs with
    | [] => Some []
    | NonVar v :: xs | RdOnly v :: xs => bind (inputs xs) (fun l => Some (v :: l))
    | RdWr _ :: _ => None
    end.
  (** src/tensor_ops/array_ops.rs:504-528 [AddN::compute] as an operation of the
      evaluator. *)
  Definition addn_compute (xs : list (opin (arr R))) : cout (arr R) E :=
    match bind (inputs xs) (add_n 0%R Rplus) with
    | None => CPanic
    | Some y => CRet [] [y] None
    end.
End Joint.
