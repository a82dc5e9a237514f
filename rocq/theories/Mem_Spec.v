(** Copying semantics: what an operation's appended arrays and views are worth
    when every result is an array of its own. *)
From Coq Require Import String List Arith Bool.
Import ListNotations.
From Verif Require Import Graph_Model Eval_Model Mem_Model.

Definition app_value {V} (xs : list (opin V)) (y : app V) : option V :=
  match y with
  | Made v => Some v
  | Viewed p f => option_map (fun x => f (opin_value x)) (nth_error xs p)
  end.
Fixpoint app_values {V} (xs : list (opin V)) (ys : list (app V)) : option (list V) :=
  match ys with
  | [] => Some []
  | y :: ys => match app_value xs y, app_values xs ys with Some v, Some l => Some (v :: l) | _, _ => None end
  end.
Definition copying {O V E} (mcompute : O -> list (opin V) -> mout V E) (o : O) (xs : list (opin V)) : cout V E :=
  match mcompute o xs with
  | MPanic => CPanic
  | MRet ws ys status => match app_values xs ys with Some vs => CRet ws vs status | None => CPanic end
  end.

(** Outcomes of the copying evaluator as outcomes of the one with memory. *)
Definition as_mres {A} (r : res A) : mres A :=
  match r with Ok a => Done a | Panic => Panics | OutOfFuel => NoFuel end.

(** The operation always returns at most one array. *)
Definition one_output {O V E} (mcompute : O -> list (opin V) -> mout V E) (o : O) : Prop :=
  forall xs ws ys status, mcompute o xs = MRet ws ys status -> length ys <= 1.
