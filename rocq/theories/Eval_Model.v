(** The evaluator: models src/evaluation.rs and the parts of src/op.rs it uses.

    The arrays ([V]), operation errors ([E]) and the operations' [compute]
    function are parameters: the theorems hold for every choice of them. *)
From Coq Require Import String List Arith ZArith Bool.
Import ListNotations.
From Verif Require Import Graph_Model.

(** src/op.rs:126-130 [OpInput]: what an operation receives for one input. *)
Inductive opin (V : Type) :=
| NonVar (v : V)    (* op.rs:127 NonVariable *)
| RdOnly (v : V)    (* op.rs:128 RdOnlyVariable *)
| RdWr   (v : V).   (* op.rs:129 RdWrVariable: may be overwritten in place *)
Arguments NonVar {V}. Arguments RdOnly {V}. Arguments RdWr {V}.

(** The effect of one call of [Op::compute] (src/op.rs:96-97): it panics, or it
    returns having overwritten some of its mutable inputs ([writes]: input
    position and new content), appended the outputs [ys] and returned
    [Ok(())] ([None]) or an [OpError] ([Some e]). *)
Inductive cout (V E : Type) :=
| CPanic
| CRet (writes : list (nat * V)) (ys : list V) (status : option E).
Arguments CPanic {V E}. Arguments CRet {V E}.

(** src/evaluation.rs:225-249: keys of feeds ([PlaceholderKey]). *)
Inductive ph_key := KId (id : nat) | KName (name : string).

(** Outcome of a Rust computation that may panic or (in the model only) run out of fuel.
    Panics of src/evaluation.rs:252-362. *)
Inductive res (A : Type) := Ok (a : A) | Panic | OutOfFuel.
Arguments Ok {A}. Arguments Panic {A}. Arguments OutOfFuel {A}.

Section Eval.
  Context {O V E : Type}.
  Variable shape_of : V -> list nat.
  Variable compute : O -> list (opin V) -> cout V E.
  (** [debug = true]: the crate is compiled with debug assertions. *)
  Variable debug : bool.
  Variable g : graph O.
  Variable feeds : list (ph_key * V).

  (** src/tensor.rs:374-386 [validate_using_known_shape]; [false] is a panic. *)
  Definition validate_using_known_shape (n : node O) (v : V) : bool :=
    match n_known n with
    | Some k => known_shape_validate k (shape_of v)
    | None => false
    end.

  (** src/evaluation.rs:225-249 [find_placeholder_value_by_key]; [None] is a panic. *)
  Fixpoint find_placeholder (fs : list (ph_key * V)) (id : nat) (n : node O) (name : string)
    : option V :=
    match fs with
    | [] => None
    | (KId k, v) :: rest =>
        if (id =? k)%nat
        then if validate_using_known_shape n v then Some v else None
        else find_placeholder rest id n name
    | (KName k, v) :: rest =>
        if String.eqb name k
        then if validate_using_known_shape n v then Some v else None
        else find_placeholder rest id n name
    end.

  (** src/evaluation.rs:183-185 [OpOutputStorage]: finished nodes. *)
  Definition entry := (list V + E)%type.
  (** src/evaluation.rs:183-185: the map by node id. *)
  Definition storage := nat -> option entry.
  (** src/evaluation.rs:197-199 [insert]. *)
  Definition st_insert (s : storage) (k : nat) (e : entry) : storage :=
    fun i => if (i =? k)%nat then Some e else s i.
  (** src/evaluation.rs:215 [remove]. *)
  Definition st_remove (s : storage) (k : nat) : storage :=
    fun i => if (i =? k)%nat then None else s i.

  (** src/evaluation.rs:366-371 [would_not_visit]. *)
  Definition would_not_visit (n : node O) (id : nat) (s : storage) : bool :=
    is_placeholder n || is_variable n || match s id with Some _ => true | None => false end.

  (** Log of what happened to a node when it was visited: its operation was run on the
      given inputs, or it was skipped because an input had failed. (The log is not in
      the code; it records the calls of [Op::compute].) The calls are at
      src/evaluation.rs:319-323. *)
  Inductive event := Ran (id : nat) (ins : list (opin V)) | Skipped (id : nat).
  (** The node of an event (not in the code; see src/evaluation.rs:275). *)
  Definition event_id (e : event) : nat :=
    match e with Ran i _ => i | Skipped i => i end.

  Record state := State {
    st_stack : list (nat * bool);   (* evaluation.rs:265 dfs_stack, top first *)
    st_store : storage;             (* evaluation.rs:261 storage *)
    st_env   : list V;              (* variable.rs array_list *)
    st_log   : list event           (* latest first *)
  }.

  (** src/evaluation.rs:291-317: fetching one input. *)
  Inductive fetched := FPanic | FErr (e : E) | FVal (x : opin V).
  Definition fetch (s : storage) (env : list V) (inc : incoming) : fetched :=
    match nth_error g (in_id inc) with
    | None => FPanic
    | Some n =>
      match n_ph n with
      | Some name =>
          match find_placeholder feeds (in_id inc) n name with
          | Some v => FVal (NonVar v)
          | None => FPanic
          end
      | None =>
        match n_var n with
        | Some vid =>
            match nth_error env vid with
            | None => FPanic
            | Some v => FVal (if in_mut inc then RdWr v else RdOnly v)
            end
        | None =>
            (* evaluation.rs:202-212 [OpOutputStorage::get] *)
            match s (in_id inc) with
            | None => FPanic
            | Some (inr e) => FErr e
            | Some (inl ys) =>
                match nth_error ys (in_sel inc) with
                | Some v => FVal (NonVar v)
                | None => FPanic
                end
            end
        end
      end
    end.

  (** src/evaluation.rs:291-317: the loop over the inputs stops at the first error. *)
  Inductive collected := XPanic | XErr (e : E) | XOk (l : list (opin V)).
  (** src/evaluation.rs:291-317. *)
  Fixpoint collect (s : storage) (env : list V) (ins : list incoming) : collected :=
    match ins with
    | [] => XOk []
    | i :: rest =>
        match fetch s env i with
        | FPanic => XPanic
        | FErr e => XErr e
        | FVal x =>
            match collect s env rest with
            | XOk l => XOk (x :: l)
            | other => other
            end
        end
    end.

  (** In-place writes reach the variable bound to the input only if the edge is
      mutable and the input is a variable (evaluation.rs:299-300). *)
  Fixpoint set_nth (l : list V) (i : nat) (v : V) : list V :=
    match l, i with
    | [], _ => []
    | _ :: l, 0 => v :: l
    | x :: l, S i => x :: set_nth l i v
    end.
  (** src/evaluation.rs:299-300: the variable an input gives write access to. *)
  Definition write_target (ins : list incoming) (pos : nat) : option nat :=
    match nth_error ins pos with
    | Some inc =>
        if in_mut inc then
          match nth_error g (in_id inc) with
          | Some n => match n_ph n with Some _ => None | None => n_var n end
          | None => None
          end
        else None
    | None => None
    end.
  (** src/variable.rs:695-703: writes through the views go to the environment, in order.
      *)
  Definition apply_writes (ins : list incoming) (ws : list (nat * V)) (env : list V) : list V :=
    fold_left (fun env w => match write_target ins (fst w) with
                            | Some vid => set_nth env vid (snd w)
                            | None => env
                            end) ws env.

  (** src/evaluation.rs:275-329: visiting a node whose inputs are done.
      [debug_assert!(!op_ctx.ys.is_empty())] at line 325 is evaluated whatever
      status [compute] returned. *)
  Definition visit (st : state) (stack' : list (nat * bool)) (id : nat) (n : node O) : res state :=
    match collect (st_store st) (st_env st) (n_inputs n) with
    | XPanic => Panic
    | XErr e =>
        Ok (State stack' (st_insert (st_store st) id (inr e)) (st_env st)
                  (Skipped id :: st_log st))
    | XOk xs =>
        match compute (n_op n) xs with
        | CPanic => Panic
        | CRet ws ys status =>
            if debug && match ys with [] => true | _ => false end then Panic
            else
              let r := match status with None => inl ys | Some e => inr e end in
              Ok (State stack' (st_insert (st_store st) id r)
                        (apply_writes (n_inputs n) ws (st_env st))
                        (Ran id xs :: st_log st))
        end
    end.

  (** src/evaluation.rs:334-339: children that still have to be visited, in the
      order they are pushed. *)
  Fixpoint push_children (s : storage) (ins : list incoming) (stack : list (nat * bool))
    : res (list (nat * bool)) :=
    match ins with
    | [] => Ok stack
    | i :: rest =>
        match nth_error g (in_id i) with
        | None => Panic
        | Some c =>
            push_children s rest
              (if would_not_visit c (in_id i) s then stack else (in_id i, false) :: stack)
        end
    end.

  (** src/evaluation.rs:272-341: one iteration of the [while let] loop;
      [Ok None] when the stack is empty. *)
  Definition step (st : state) : res (option state) :=
    match st_stack st with
    | [] => Ok None
    | (id, should_visit) :: rest =>
        match nth_error g id with
        | None => Panic
        | Some n =>
            if should_visit then
              if would_not_visit n id (st_store st)
              then Ok (Some (State rest (st_store st) (st_env st) (st_log st)))
              else match visit st rest id n with
                   | Ok s => Ok (Some s) | Panic => Panic | OutOfFuel => OutOfFuel
                   end
            else
              match push_children (st_store st) (n_inputs n) ((id, true) :: rest) with
              | Ok stack' => Ok (Some (State stack' (st_store st) (st_env st) (st_log st)))
              | Panic => Panic | OutOfFuel => OutOfFuel
              end
        end
    end.

  (** src/evaluation.rs:272-341: the [while let] loop, with fuel. *)
  Fixpoint loop (fuel : nat) (st : state) : res state :=
    match fuel with
    | 0 => OutOfFuel
    | S fuel =>
        match step st with
        | Ok None => Ok st
        | Ok (Some st') => loop fuel st'
        | Panic => Panic
        | OutOfFuel => OutOfFuel
        end
    end.

  (** src/evaluation.rs:261-270: targets are pushed in order, so the last one is on top. *)
  Definition init_state (targets : list nat) (env : list V) : state :=
    State (rev (map (fun t => (t, false)) targets)) (fun _ => None) env [].

  (** src/evaluation.rs:214-222, 343-361: collecting the results; [take] removes
      the entry and uses its first array. *)
  Fixpoint aggregate (targets : list nat) (s : storage) (env : list V) : res (list (V + E)) :=
    match targets with
    | [] => Ok []
    | t :: rest =>
        match nth_error g t with
        | None => Panic
        | Some n =>
            let continue (s' : storage) (x : V + E) :=
              match aggregate rest s' env with
              | Ok l => Ok (x :: l) | Panic => Panic | OutOfFuel => OutOfFuel
              end in
            match n_var n with
            | Some vid =>
                match nth_error env vid with
                | Some v => continue s (inl v)
                | None => Panic
                end
            | None =>
                match n_ph n with
                | Some name =>
                    match find_placeholder feeds t n name with
                    | Some v => continue s (inl v)
                    | None => Panic
                    end
                | None =>
                    match s t with
                    | None => Panic
                    | Some (inr e) => continue (st_remove s t) (inr e)
                    | Some (inl ys) =>
                        match ys with
                        | [] => Panic
                        | y :: _ => continue (st_remove s t) (inl y)
                        end
                    end
                end
            end
        end
    end.

  (** Result of [Evaluator::run] (src/evaluation.rs:168-171, 252-362), with the
      variables and the log after the run. *)
  Record outcome := Outcome {
    oc_results : list (V + E);
    oc_env     : list V;
    oc_log     : list event        (* in execution order *)
  }.
  (** src/evaluation.rs:252-362 [Graph::eval]. *)
  Definition eval (fuel : nat) (targets : list nat) (env : list V) : res outcome :=
    match loop fuel (init_state targets env) with
    | Ok st =>
        match aggregate targets (st_store st) (st_env st) with
        | Ok l => Ok (Outcome l (st_env st) (rev (st_log st)))
        | Panic => Panic | OutOfFuel => OutOfFuel
        end
    | Panic => Panic
    | OutOfFuel => OutOfFuel
    end.
End Eval.

(** src/evaluation.rs:58-63 [Evaluator] and 91-93 [Feeder]: the part
    the builder methods change. *)
Record evaluator (V : Type) := Evaluator {
  ev_feeds : list (ph_key * V);   (* feeder.feeds *)
  ev_targets : list nat           (* eval_targets *)
}.
Arguments Evaluator {V}. Arguments ev_feeds {V}. Arguments ev_targets {V}.
(** src/evaluation.rs:119-126 [Context::evaluator]: nothing fed, nothing requested. *)
Definition new_evaluator {V} : evaluator V := Evaluator [] [].
(** src/evaluation.rs:132-138 [Evaluator::push]. *)
Definition ev_push {V} (ev : evaluator V) (t : nat) : evaluator V :=
  Evaluator (ev_feeds ev) (ev_targets ev ++ [t]).
(** src/evaluation.rs:158-164 [Evaluator::extend]. *)
Definition ev_extend {V} (ev : evaluator V) (ts : list nat) : evaluator V :=
  Evaluator (ev_feeds ev) (ev_targets ev ++ ts).
(** src/evaluation.rs:141-147 [Evaluator::feed], through 103-113 [Feeder::push]. *)
Definition ev_feed {V} (ev : evaluator V) (k : ph_key) (v : V) : evaluator V :=
  Evaluator (ev_feeds ev ++ [(k, v)]) (ev_targets ev).
(** src/evaluation.rs:151-154 [Evaluator::set_feeder]: replaces all feeds. *)
Definition ev_set_feeder {V} (ev : evaluator V) (fs : list (ph_key * V)) : evaluator V :=
  Evaluator fs (ev_targets ev).
(** src/evaluation.rs:168-171 [Evaluator::run]. *)
Definition ev_run {O V E} (shape_of : V -> list nat) (compute : O -> list (opin V) -> cout V E)
  (debug : bool) (g : graph O) (fuel : nat) (ev : evaluator V) (env : list V) : res (@outcome V E) :=
  eval shape_of compute debug g (ev_feeds ev) fuel (ev_targets ev) env.
