(** When a guard held on a variable is in the way of the evaluator. *)
From Coq Require Import List.
Import ListNotations.
From Verif Require Import Graph_Model Eval_Model Alias_Model.

(** The guards held elsewhere forbid the access: anybody else's guard forbids
    writing, an exclusive one also reading. *)
Definition conflict (writing : bool) (f : flag) : bool :=
  match f with Free => false | Shared _ => writing | Exclusive => true end.
(** The operand is a variable. *)
Definition variable_operand {O} (g : graph O) (inc : incoming) (vid : nat) : Prop :=
  exists m, nth_error g (in_id inc) = Some m /\ n_ph m = None /\ n_var m = Some vid.

