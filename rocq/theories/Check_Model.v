(** The gradient checker.  Models src/test_helper.rs.

    Numbers are an arbitrary type with the operations the checker uses, so that
    it can be run on reals and on numbers with NaN.  Evaluating the objective
    and the gradients are parameters. *)
From Coq Require Import List Arith Bool.
Import ListNotations.
From Verif Require Import Array_Model.

(** A call passes (with the variables as it leaves them), panics because of a
    difference, panics for another reason, or reads a gradient beyond its end.
    src/test_helper.rs:9-148: its return values and panics. *)
Inductive verdict (F : Type) :=
| Passed (env : list (arr F))
| Differs (env : list (arr F)) (num th : F)
| CheckPanic
| OutOfBounds.
Arguments Passed {F}. Arguments Differs {F}. Arguments CheckPanic {F}. Arguments OutOfBounds {F}.

Section Check.
  Context {F : Type}.
  Variables (add sub mul div : F -> F -> F) (abs : F -> F) (zero one : F) (gt : F -> F -> bool).
  (** Evaluating [sum_all(objective)] with the given variables: its array and the
      variables afterwards; [None]: a panic or an error that is unwrapped. *)
  Variable run_objective : list (arr F) -> option (arr F * list (arr F)).
  (** Evaluating the gradients; an inner [None] is an error result. *)
  Variable run_gradients : list (arr F) -> option (list (option (arr F)) * list (arr F)).
  (** The row-major position of the element at memory offset [i] of variable
      [vid]; the identity for arrays in standard layout. *)
  Variable order : nat -> nat -> nat.
  Variables (eps tol : F).

  (** test_helper.rs:57-71, 88-102, 120-133: reading and writing through the
      pointer to the variable's first element. *)
  Definition peek (env : list (arr F)) (vid i : nat) : option F :=
    match nth_error env vid with
    | Some a => nth_error (a_data a) (order vid i)
    | None => None
    end.
  (** test_helper.rs:71, 101, 131: writing. *)
  Definition poke (env : list (arr F)) (vid i : nat) (x : F) : list (arr F) :=
    match nth_error env vid with
    | Some a => set_at vid (Arr (a_shape a) (set_at (order vid i) x (a_data a))) env
    | None => env
    end.

  (** test_helper.rs:135-136: [(obj_pos - obj_neg).sum() / (two * eps)]. *)
  Definition total (a : arr F) : F := fold_left add (a_data a) zero.
  (** test_helper.rs:135-136. *)
  Definition slope (pos neg : arr F) : F :=
    div (total (Arr (a_shape pos) (map2 sub (a_data pos) (a_data neg)))) (mul (add one one) eps).

  (** test_helper.rs:54-147: the body of the loop over the elements. *)
  Definition check_element (vid : nat) (th : arr F) (i : nat) (env : list (arr F)) : verdict F :=
    match peek env vid i with
    | None => CheckPanic
    | Some x =>
        match run_objective (poke env vid i (add x eps)) with
        | None => CheckPanic
        | Some (pos, env) =>
            match run_objective (poke env vid i (sub x eps)) with
            | None => CheckPanic
            | Some (neg, env) =>
                let env := poke env vid i x in
                let num := slope pos neg in
                match nth_error (a_data th) i with
                | None => OutOfBounds
                | Some t => if gt (abs (sub num t)) tol then Differs env num t else Passed env
                end
            end
        end
    end.

  (** [for i in 0..v_len]. test_helper.rs:54-146: the loop over the elements. *)
  Fixpoint check_elements (vid : nat) (th : arr F) (is : list nat) (env : list (arr F)) : verdict F :=
    match is with
    | [] => Passed env
    | i :: is =>
        match check_element vid th i env with
        | Passed env => check_elements vid th is env
        | v => v
        end
    end.

  (** test_helper.rs:29-149: the loop over the variables zipped with the
      gradients ([variables]: their ids in the environment). *)
  Fixpoint check_variables (variables : list nat) (ths : list (option (arr F))) (env : list (arr F)) : verdict F :=
    match variables, ths with
    | vid :: variables, th :: ths =>
        match th, nth_error env vid with
        | Some th, Some a =>
            match check_elements vid th (seq 0 (length (a_data a))) env with
            | Passed env => check_variables variables ths env
            | v => v
            end
        | _, _ => CheckPanic
        end
    | _, _ => Passed env
    end.

  (** test_helper.rs:9-150 [check_theoretical_grads]. *)
  Definition check_theoretical_grads (variables : list nat) (env : list (arr F)) : verdict F :=
    match run_gradients env with
    | None => CheckPanic
    | Some (ths, env) => check_variables variables ths env
    end.
End Check.
