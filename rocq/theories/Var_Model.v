(** Variable environments: registration, lookup, saving and loading.
    Models src/variable.rs. *)
From Coq Require Import String Ascii List Arith Bool.
Import ListNotations.
From Verif Require Import Graph_Model.
Local Open Scope string_scope.

(** src/variable.rs:157-162 [FullName]: namespace id and variable name. Rust
    strings are modelled by their UTF-8 bytes. *)
Definition full_name := (string * string)%type.
(** src/variable.rs:158: derived [PartialEq]. *)
Definition full_name_eqb (a b : full_name) : bool :=
  String.eqb (fst a) (fst b) && String.eqb (snd a) (snd b).

(** An [FxHashMap]: an association list.  The list order stands for the
    unspecified iteration order; nothing proved depends on it. *)
Section Maps.
  Context {K V : Type}.
  Variable eqb : K -> K -> bool.
  (** [HashMap::get]. src/variable.rs:253, 711. *)
  Definition map_get (m : list (K * V)) (k : K) : option V :=
    option_map snd (find (fun e => eqb (fst e) k) m).
  (** [HashMap::insert]: replaces the entry of an existing key. src/variable.rs:355,
      723. *)
  Definition map_insert (m : list (K * V)) (k : K) (v : V) : list (K * V) :=
    (k, v) :: filter (fun e => negb (eqb (fst e) k)) m.
  (** [Iterator::collect] into a map: successive insertions. src/variable.rs:580, 593.
      *)
  Definition map_collect (l : list (K * V)) : list (K * V) :=
    fold_left (fun m e => map_insert m (fst e) (snd e)) l [].
End Maps.

(** src/variable.rs:151-155 [VariableEnvironment]; arrays are elements of an
    arbitrary type [A], the [RefCell] around them is not modelled. *)
Record env (A : Type) := Env {
  array_list : list A;
  name_to_id : list (full_name * nat)
}.
Arguments Env {A}. Arguments array_list {A}. Arguments name_to_id {A}.

(** src/variable.rs:530-535 [VariableEnvironment::new]. *)
Definition new_env {A} : env A := Env [] [].

(** src/variable.rs:114. *)
Definition DEFAULT_NAMESPACE_ID : string := "".

(** src/variable.rs:347-358 [register_variable].  The anonymous slots
    (302-309, 329-336, 606-608) call it with a fresh UUID as the name. *)
Definition register_variable {A} (a : A) (ns name : string) (e : env A) : env A * nat :=
  let next_id := length (array_list e) in
  (Env (array_list e ++ [a])%list (map_insert full_name_eqb (name_to_id e) (ns, name) next_id), next_id).

(** src/variable.rs:663-665 [get_array_by_id]. *)
Definition get_array_by_id {A} (e : env A) (vid : nat) : option A := nth_error (array_list e) vid.

(** src/variable.rs:249-255 [NamespaceTrait::get_array_by_name]: [Some None] is
    the index panic of line 254. *)
Definition get_array_by_name {A} (e : env A) (ns name : string) : option (option A) :=
  option_map (fun vid => nth_error (array_list e) vid) (map_get full_name_eqb (name_to_id e) (ns, name)).

(** src/variable.rs:258-270, 273-285 [current_var_ids], [current_var_names]. *)
Definition in_namespace (ns : string) {V} (m : list (full_name * V)) : list (full_name * V) :=
  filter (fun ent => String.eqb (fst (fst ent)) ns) m.
(** src/variable.rs:258-270. *)
Definition current_var_ids {A} (e : env A) (ns : string) : list nat :=
  map snd (in_namespace ns (name_to_id e)).
(** src/variable.rs:273-285. *)
Definition current_var_names {A} (e : env A) (ns : string) : list string :=
  map (fun ent => snd (fst ent)) (in_namespace ns (name_to_id e)).

(** src/variable.rs:398-412 [iter]: names with the arrays found by name
    ([None]: the panic of an [unwrap] or of an index). *)
Definition ns_iter {A} (e : env A) (ns : string) : list (string * option A) :=
  map (fun ent => (snd (fst ent),
                   match get_array_by_name e ns (snd (fst ent)) with Some o => o | None => None end))
      (in_namespace ns (name_to_id e)).

(** src/variable.rs:695-703 [as_view_mut], used by the in-place operations:
    array [vid] is overwritten. *)
Definition write_array {A} (e : env A) (vid : nat) (a : A) : env A :=
  Env (update_nth (array_list e) vid (fun _ => a)) (name_to_id e).

(** Histories of registrations and in-place writes. src/variable.rs:347-358 and 695-703.
    *)
Inductive event (A : Type) :=
| Reg (ns name : string) (a : A)
| Upd (vid : nat) (a : A).
Arguments Reg {A}. Arguments Upd {A}.
(** src/variable.rs:347-358 and 695-703. *)
Definition run_event {A} (e : env A) (ev : event A) : env A :=
  match ev with
  | Reg ns name a => fst (register_variable a ns name e)
  | Upd vid a => write_array e vid a
  end.
(** Successive calls (user code).  See src/variable.rs:347-358, 695-703. *)
Definition run_events {A} (h : list (event A)) : env A := fold_left run_event h new_env.

(** src/variable.rs:728-753 [variable_by_name] inside a graph: [None] is the
    panic for an unknown name (or a full graph). *)
Definition variable_by_name {A O} (var_op : O) (e : env A) (c : context O) (ns name : string)
  : option (context O * nat) :=
  match map_get full_name_eqb (name_to_id e) (ns, name) with
  | Some vid => variable_by_id var_op c vid
  | None => None
  end.

(** src/variable.rs:768-780 [var_tensors_by_name], collected. *)
Fixpoint var_tensors {O} (var_op : O) (c : context O) (ents : list (full_name * nat))
  : option (context O * list (string * nat)) :=
  match ents with
  | [] => Some (c, [])
  | ent :: ents =>
      match variable_by_id var_op c (snd ent) with
      | None => None
      | Some (c', t) =>
          match var_tensors var_op c' ents with
          | None => None
          | Some (c'', l) => Some (c'', (snd (fst ent), t) :: l)
          end
      end
  end.
(** src/variable.rs:768-780. *)
Definition var_tensors_by_name {A O} (var_op : O) (e : env A) (c : context O) (ns : string)
  : option (context O * list (string * nat)) :=
  var_tensors var_op c (in_namespace ns (name_to_id e)).

(** ** Saving and loading *)

(** src/variable.rs:225-229, 571: the separator, U+0001. *)
Definition SEP : ascii := Ascii.ascii_of_nat 1.

(** src/variable.rs:225-229 [FullName::to_string]. *)
Definition fn_to_string (n : full_name) : string := fst n ++ String SEP (snd n).

(** [str::split] on the separator: at least one piece. src/variable.rs:571. *)
Fixpoint split_sep (s : string) : list string :=
  match s with
  | EmptyString => [EmptyString]
  | String c s' =>
      if Ascii.eqb c SEP then EmptyString :: split_sep s'
      else match split_sep s' with
           | p :: ps => String c p :: ps
           | [] => [String c EmptyString]
           end
  end.

(** src/variable.rs:470-480: what is written to and read from the file. *)
Record document (A : Type) := Document {
  d_arrays : list A;
  d_names  : list (string * nat)
}.
Arguments Document {A}. Arguments d_arrays {A}. Arguments d_names {A}.

(** src/variable.rs:588-598 [prepare_for_serde]. *)
Definition prepare_for_serde {A} (e : env A) : document A :=
  Document (array_list e)
           (map_collect String.eqb (map (fun ent => (fn_to_string (fst ent), snd ent)) (name_to_id e))).

(** src/variable.rs:570-579: one entry of the map; [None] is the panic of the
    second [unwrap]. *)
Definition load_entry (ent : string * nat) : option (full_name * nat) :=
  match split_sep (fst ent) with
  | ns :: name :: _ => Some ((ns, name), snd ent)
  | _ => None
  end.
(** src/variable.rs:568-580: all entries. *)
Fixpoint load_entries (l : list (string * nat)) : option (list (full_name * nat)) :=
  match l with
  | [] => Some []
  | ent :: l =>
      match load_entry ent, load_entries l with
      | Some x, Some xs => Some (x :: xs)
      | _, _ => None
      end
  end.

(** src/variable.rs:564-586 [load_internal]; [None]: panic. *)
Definition load_internal {A} (d : document A) : option (env A) :=
  option_map (fun l => Env (d_arrays d) (map_collect full_name_eqb l)) (load_entries (d_names d)).

(** What a call of [load]/[initialize] does. src/variable.rs:487-525. *)
Inductive outcome (X : Type) :=
| Done (x : X)      (* Ok *)
| Failed            (* Err: the file is missing or cannot be parsed *)
| Panicked.
Arguments Done {X}. Arguments Failed {X}. Arguments Panicked {X}.

Section Files.
  Context {A B : Type}.
  (** [serde_json::to_writer] and [from_reader], on byte sequences. *)
  Variable ser : document A -> list B.
  Variable parse : list B -> option (document A).

  (** File contents by path. The file system behind src/variable.rs:549-562. *)
  Definition files := string -> option (list B).
  (** src/variable.rs:550-552. *)
  Definition write_file (fs : files) (path : string) (c : list B) : files :=
    fun p => if String.eqb p path then Some c else fs p.

  (** How far the operating system lets a [save] get: the file cannot be created, or it
      is created and the first [k] bytes reach it before an error or a crash (all of
      them, if there are at most [k]). src/variable.rs:549-553. *)
  Inductive progress := CreateFails | Bytes (k : nat).

  (** src/variable.rs:549-553 [save]: true for [Ok].  [File::create] truncates
      the file before anything is written; there is no temporary file. *)
  Definition save (p : progress) (fs : files) (path : string) (e : env A) : bool * files :=
    match p with
    | CreateFails => (false, fs)
    | Bytes k =>
        let out := ser (prepare_for_serde e) in
        ((length out <=? k)%nat, write_file fs path (firstn k out))
    end.

  (** src/variable.rs:487-490, 555-562 [load]. *)
  Definition load (fs : files) (path : string) : outcome (env A) :=
    match fs path with
    | None => Failed
    | Some bytes =>
        match parse bytes with
        | None => Failed
        | Some d => match load_internal d with Some e => Done e | None => Panicked end
        end
    end.

  (** src/variable.rs:493-502 [initialize]: the fields are assigned after both
      fallible steps. *)
  Definition initialize (fs : files) (path : string) (e : env A) : outcome unit * env A :=
    match fs path with
    | None => (Failed, e)
    | Some bytes =>
        match parse bytes with
        | None => (Failed, e)
        | Some d =>
            match load_internal d with
            | Some e' => (Done tt, Env (array_list e') (name_to_id e'))
            | None => (Panicked, e)
            end
        end
    end.
End Files.
