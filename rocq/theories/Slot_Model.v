(** Registering variables through slots and finding their tensors from a graph. *)
From Coq Require Import String List Arith ZArith Bool.
Import ListNotations.
From Verif Require Import Graph_Model Var_Model.
Local Open Scope string_scope.

(** src/variable.rs:164-223: the four kinds of slots. *)
Inductive slot :=
| DefaultVariableSlot
| NamedDefaultVariableSlot (name : string)
| VariableSlot (ns : string)
| NamedVariableSlot (ns name : string).

(** src/variable.rs:601-603 [VariableEnvironment::slot]. *)
Definition env_slot : slot := DefaultVariableSlot.
(** src/variable.rs:611-613 [VariableEnvironment::name]. *)
Definition env_name (name : string) : slot := NamedDefaultVariableSlot name.
(** src/variable.rs:631-639, 414-416 [namespace_mut(ns).slot()]. *)
Definition ns_slot (ns : string) : slot := VariableSlot ns.
(** src/variable.rs:654-657 [default_namespace_mut().slot()]. *)
Definition default_ns_slot : slot := ns_slot DEFAULT_NAMESPACE_ID.
(** src/variable.rs:312-317, 339-344 [name] of the unnamed slots; the named ones have no such method
    (unchanged here). *)
Definition slot_name (s : slot) (name : string) : slot :=
  match s with
  | DefaultVariableSlot => NamedDefaultVariableSlot name
  | VariableSlot ns => NamedVariableSlot ns name
  | s => s
  end.

(** [set] of the four kinds of slots, src/variable.rs:288-298, 302-309, 320-325, 327-336. [uuid] is the result of
    the call of [Uuid::new_v4] of this very [set]. *)
Definition slot_set {A} (uuid : string) (s : slot) (a : A) (e : env A) : env A * nat :=
  match s with
  | DefaultVariableSlot => register_variable a DEFAULT_NAMESPACE_ID uuid e
  | NamedDefaultVariableSlot name => register_variable a DEFAULT_NAMESPACE_ID name e
  | VariableSlot ns => register_variable a ns uuid e
  | NamedVariableSlot ns name => register_variable a ns name e
  end.

(** src/variable.rs:606-608 [VariableEnvironment::set]. *)
Definition env_set {A} (uuid : string) (a : A) (e : env A) : env A * nat :=
  register_variable a DEFAULT_NAMESPACE_ID uuid e.

(** What user code does with an environment between graphs: [set] on a slot, [VariableEnvironment::set], and
    changes of arrays (optimizers, [RefCell]s); src/variable.rs:288-336, 606-608, 695-703. *)
Inductive call (A : Type) :=
| Set_ (s : slot) (a : A)
| EnvSet (a : A)
| Write (vid : nat) (a : A).
Arguments Set_ {A}. Arguments EnvSet {A}. Arguments Write {A}.

Section Calls.
  Context {A : Type}.
  (** [uuids i]: what [Uuid::new_v4] returns if the registration number [i] asks for one (src/variable.rs:306, 333,
      607). *)
  Variable uuids : nat -> string.
  (** One call; the identifier it returns, src/variable.rs:288-336, 606-608. *)
  Definition run_call (e : env A) (c : call A) : env A * option nat :=
    let uuid := uuids (length (array_list e)) in
    match c with
    | Set_ s a => let '(e', i) := slot_set uuid s a e in (e', Some i)
    | EnvSet a => let '(e', i) := env_set uuid a e in (e', Some i)
    | Write i a => (write_array e i a, None)
    end.
  (** Successive calls and the identifiers they return, in order (user code; see src/variable.rs:288-336). *)
  Fixpoint run_calls (e : env A) (cs : list (call A)) : env A * list (option nat) :=
    match cs with
    | [] => (e, [])
    | c :: cs => let '(e1, i) := run_call e c in let '(e2, l) := run_calls e1 cs in (e2, i :: l)
    end.
End Calls.

Section Lookup.
  Context {A O : Type}.
  Variable var_op : O.
  (** [ctx.variable("name")], src/variable.rs:123-129. *)
  Definition ctx_variable_named (e : env A) (c : context O) (name : string) : option (context O * nat) :=
    variable_by_name var_op e c DEFAULT_NAMESPACE_ID name.
  (** [ctx.variable(("ns", "name"))], src/variable.rs:138-147. *)
  Definition ctx_variable_pair (e : env A) (c : context O) (id : string * string) : option (context O * nat) :=
    variable_by_name var_op e c (fst id) (snd id).
  (** [env.default_namespace().get_array_by_name(name)], src/variable.rs:645-648, 249-255. *)
  Definition default_array_named (e : env A) (name : string) : option (option A) :=
    get_array_by_name e DEFAULT_NAMESPACE_ID name.
  (** [var_tensors_by_id], collected; src/variable.rs:758-763: one variable tensor per array. *)
  Fixpoint tensors_of_ids (c : context O) (ids : list nat) : option (context O * list (nat * nat)) :=
    match ids with
    | [] => Some (c, [])
    | i :: ids =>
        match variable_by_id var_op c i with
        | None => None
        | Some (c', t) =>
            match tensors_of_ids c' ids with
            | None => None
            | Some (c'', l) => Some (c'', (i, t) :: l)
            end
        end
    end.
  (** src/variable.rs:758-763. *)
  Definition var_tensors_by_id (e : env A) (c : context O) : option (context O * list (nat * nat)) :=
    tensors_of_ids c (seq 0 (length (array_list e))).
End Lookup.
