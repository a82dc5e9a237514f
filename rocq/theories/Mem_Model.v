(** The evaluator with its memory: results that own their array, results that
    are views into other arrays, and the release of arrays when results are
    taken out (src/evaluation.rs:182-223, src/op.rs:131-136,262-296).

    [Eval_Model] copies values; here every array lives at an address and a view
    keeps the address and the way it looks at the array ([V -> V]: reshaped,
    transposed, sliced).  Reading released memory is undefined behaviour and has
    the result [Dangling]. *)
From Coq Require Import String List Arith ZArith Bool.
Import ListNotations.
From Verif Require Import Graph_Model Eval_Model.

(** src/op.rs:133-136 [OpOutput].  Views into variables are never stored (op.rs:282),
    so a view is into an array fed by the caller, which outlives the evaluation
    (evaluation.rs:176-180), or into an array owned by some result. *)
Inductive base (V : Type) := BFeed (v : V) | BHeap (a : nat).
Arguments BFeed {V}. Arguments BHeap {V}.
(** src/op.rs:133-137 [OpOutput]: [Owned] or [View]. *)
Inductive out (V : Type) := Owned (a : nat) | View (b : base V) (f : V -> V).
Arguments Owned {V}. Arguments View {V}.

(** What an operation appends: an array of its own ([append_output]) or a view of one of
    its inputs ([append_output_view]; the lifetime ['view] allows no other views).
    src/op.rs:265-302: the calls of [append_output_view], [append_empty_output] and
    [append_output]. *)
Inductive app (V : Type) := Made (v : V) | Viewed (p : nat) (f : V -> V).
Arguments Made {V}. Arguments Viewed {V}.
(** src/op.rs:96-97: what a call of [Op::compute] does (see [cout] in Eval_Model). *)
Inductive mout (V E : Type) :=
| MPanic
| MRet (writes : list (nat * V)) (ys : list (app V)) (status : option E).
Arguments MPanic {V E}. Arguments MRet {V E}.

(** Outcomes, with undefined behaviour. Panics and undefined behaviour of
    src/evaluation.rs:252-362. *)
Inductive mres (A : Type) := Done (a : A) | Panics | NoFuel | Dangling.
Arguments Done {A}. Arguments Panics {A}. Arguments NoFuel {A}. Arguments Dangling {A}.
(** A panic ends the evaluation, src/evaluation.rs:252-362. *)
Definition mbind {A B} (r : mres A) (k : A -> mres B) : mres B :=
  match r with Done a => k a | Panics => Panics | NoFuel => NoFuel | Dangling => Dangling end.

(** An input: how it may be used and what it is ([opin], values), and where it lives,
    unless it is a variable. src/op.rs:126-130, 139-158 [OpInput]. *)
Definition minput (V : Type) : Type := (opin V * option (base V * (V -> V)))%type.
(** src/op.rs:274-281: the test of [append_output_view_raw]. *)
Definition is_var_input {V} (x : minput V) : bool :=
  match fst x with NonVar _ => false | _ => true end.
(** src/op.rs:126-130: the array of an input. *)
Definition opin_value {V} (x : opin V) : V := match x with NonVar v => v | RdOnly v => v | RdWr v => v end.

Section Mem.
  Context {O V E : Type}.
  Variable shape_of : V -> list nat.
  Variable mcompute : O -> list (opin V) -> mout V E.
  Variable debug : bool.
  Variable g : graph O.
  Variable feeds : list (ph_key * V).

  (** src/evaluation.rs:183-185 [OpOutputStorage]. *)
  Definition mstorage := nat -> option (list (out V) + E).
  (** The arrays alive; [None]: never allocated or released. The heap behind
      src/op.rs:133-137. *)
  Definition memory := nat -> option V.
  (** A new owned output, src/op.rs:300-302. *)
  Definition alloc (m : memory) (a : nat) (v : V) : memory := fun k => if (k =? a)%nat then Some v else m k.
  (** Dropping an owned output, src/evaluation.rs:214-222. *)
  Definition release (m : memory) (a : nat) : memory := fun k => if (k =? a)%nat then None else m k.

  (** Reading an array, src/evaluation.rs:202-212. *)
  Definition read_base (m : memory) (b : base V) : option V :=
    match b with BFeed v => Some v | BHeap a => m a end.
  (** evaluation.rs:202-212 [get] gives the address of the array; reading it. *)
  Definition out_base (o : out V) : base V * (V -> V) :=
    match o with Owned a => (BHeap a, fun v => v) | View b f => (b, f) end.
  (** src/evaluation.rs:202-212 [get]. *)
  Definition read_out (m : memory) (o : out V) : option V :=
    option_map (snd (out_base o)) (read_base m (fst (out_base o))).

  (** src/evaluation.rs:261-270: the variables of the loop. *)
  Record mstate := MState {
    ms_stack : list (nat * bool);
    ms_store : mstorage;
    ms_env   : list V;
    ms_mem   : memory;
    ms_next  : nat;                 (* first address never used *)
    ms_log   : list (@event V)
  }.

  (** evaluation.rs:291-317: one input. *)
  Definition mfetch (s : mstorage) (m : memory) (env : list V) (inc : incoming) : mres (E + minput V) :=
    match nth_error g (in_id inc) with
    | None => Panics
    | Some n =>
      match n_ph n with
      | Some name =>
          match find_placeholder shape_of feeds (in_id inc) n name with
          | Some v => Done (inr (NonVar v, Some (BFeed v, fun v => v)))
          | None => Panics
          end
      | None =>
        match n_var n with
        | Some vid =>
            match nth_error env vid with
            | None => Panics
            | Some v => Done (inr (if in_mut inc then RdWr v else RdOnly v, None))
            end
        | None =>
            match s (in_id inc) with
            | None => Panics
            | Some (inr e) => Done (inl e)
            | Some (inl ys) =>
                match nth_error ys (in_sel inc) with
                | Some o => match read_out m o with
                            | Some v => Done (inr (NonVar v, Some (out_base o)))
                            | None => Dangling
                            end
                | None => Panics
                end
            end
        end
      end
    end.
  (** evaluation.rs:291-317: the loop over the inputs. *)
  Fixpoint mcollect (s : mstorage) (m : memory) (env : list V) (ins : list incoming) : mres (E + list (minput V)) :=
    match ins with
    | [] => Done (inr [])
    | i :: rest =>
        mbind (mfetch s m env i) (fun x =>
        match x with
        | inl e => Done (inl e)
        | inr x => mbind (mcollect s m env rest) (fun r =>
                   match r with inl e => Done (inl e) | inr l => Done (inr (x :: l)) end)
        end)
    end.

  (** op.rs:265-302 [append_output], [append_output_view_raw]: a view is copied
      into an array of its own if any input is a variable; otherwise it points
      to where its input lives.  A position without input panics (op.rs:206-208).
      Simplified: a view of an input that the operation overwrites is copied as
      the input was before (no operation of the crate does both). *)
  Definition mappend (xs : list (minput V)) (m : memory) (next : nat) (y : app V) : mres (out V * memory * nat) :=
    match y with
    | Made v => Done (Owned next, alloc m next v, S next)
    | Viewed p f =>
        match nth_error xs p with
        | None => Panics
        | Some (x, where_) =>
            if existsb is_var_input xs then Done (Owned next, alloc m next (f (opin_value x)), S next)
            else match where_ with
                 | Some (b, h) => Done (View b (fun v => f (h v)), m, next)
                 | None => Panics
                 end
        end
    end.
  (** src/op.rs:265-302: the outputs appended by one operation, in order. *)
  Fixpoint mappends (xs : list (minput V)) (m : memory) (next : nat) (ys : list (app V)) : mres (list (out V) * memory * nat) :=
    match ys with
    | [] => Done ([], m, next)
    | y :: ys =>
        mbind (mappend xs m next y) (fun r => let '(o, m1, n1) := r in
        mbind (mappends xs m1 n1 ys) (fun r => let '(os, m2, n2) := r in Done (o :: os, m2, n2)))
    end.

  (** evaluation.rs:197-199 [insert]. *)
  Definition minsert (s : mstorage) (k : nat) (e : list (out V) + E) : mstorage :=
    fun i => if (i =? k)%nat then Some e else s i.
  (** evaluation.rs:215 [remove]. *)
  Definition mremove (s : mstorage) (k : nat) : mstorage := fun i => if (i =? k)%nat then None else s i.
  (** evaluation.rs:366-371 [would_not_visit]. *)
  Definition mskip (n : node O) (id : nat) (s : mstorage) : bool :=
    is_placeholder n || is_variable n || match s id with Some _ => true | None => false end.

  (** evaluation.rs:275-329. *)
  Definition mvisit (st : mstate) (stack' : list (nat * bool)) (id : nat) (n : node O) : mres mstate :=
    mbind (mcollect (ms_store st) (ms_mem st) (ms_env st) (n_inputs n)) (fun r =>
    match r with
    | inl e =>
        Done (MState stack' (minsert (ms_store st) id (inr e)) (ms_env st) (ms_mem st) (ms_next st) (Skipped id :: ms_log st))
    | inr xs =>
        match mcompute (n_op n) (map fst xs) with
        | MPanic => Panics
        | MRet ws ys status =>
            mbind (mappends xs (ms_mem st) (ms_next st) ys) (fun r => let '(os, m, next) := r in
            if debug && match os with [] => true | _ => false end then Panics
            else Done (MState stack' (minsert (ms_store st) id (match status with None => inl os | Some e => inr e end))
                         (apply_writes g (n_inputs n) ws (ms_env st)) m next (Ran id (map fst xs) :: ms_log st)))
        end
    end).

  (** evaluation.rs:334-339. *)
  Fixpoint mpush (s : mstorage) (ins : list incoming) (stack : list (nat * bool)) : mres (list (nat * bool)) :=
    match ins with
    | [] => Done stack
    | i :: rest =>
        match nth_error g (in_id i) with
        | None => Panics
        | Some c => mpush s rest (if mskip c (in_id i) s then stack else (in_id i, false) :: stack)
        end
    end.
  (** evaluation.rs:272-341. *)
  Definition mstep (st : mstate) : mres (option mstate) :=
    match ms_stack st with
    | [] => Done None
    | (id, should_visit) :: rest =>
        match nth_error g id with
        | None => Panics
        | Some n =>
            if should_visit then
              if mskip n id (ms_store st)
              then Done (Some (MState rest (ms_store st) (ms_env st) (ms_mem st) (ms_next st) (ms_log st)))
              else mbind (mvisit st rest id n) (fun s => Done (Some s))
            else
              mbind (mpush (ms_store st) (n_inputs n) ((id, true) :: rest)) (fun stack' =>
              Done (Some (MState stack' (ms_store st) (ms_env st) (ms_mem st) (ms_next st) (ms_log st))))
        end
    end.
  (** evaluation.rs:272-341: the loop, with fuel. *)
  Fixpoint mloop (fuel : nat) (st : mstate) : mres mstate :=
    match fuel with
    | 0 => NoFuel
    | S fuel => mbind (mstep st) (fun r => match r with None => Done st | Some st' => mloop fuel st' end)
    end.
  (** evaluation.rs:261-270. *)
  Definition minit (targets : list nat) (env : list V) : mstate :=
    MState (rev (map (fun t => (t, false)) targets)) (fun _ => None) env (fun _ => None) 0 [].

  (** The arrays a list of outputs owns are released when the list is dropped.
      evaluation.rs:215-221. *)
  Definition drop (m : memory) (os : list (out V)) : memory :=
    fold_left (fun m o => match o with Owned a => release m a | View _ _ => m end) os m.
  (** evaluation.rs:214-222 [take] for output 0: the outputs are removed from the
      storage; the first one is moved out, or copied if it is a view; the others
      are dropped when the closure returns. *)
  Definition mtake (s : mstorage) (m : memory) (t : nat) : mres ((V + E) * mstorage * memory) :=
    match s t with
    | None => Panics
    | Some (inr e) => Done (inr e, mremove s t, m)
    | Some (inl []) => Panics
    | Some (inl (o :: rest)) =>
        match read_out m o with
        | None => Dangling
        | Some v => Done (inl v, mremove s t, drop m rest)
        end
    end.
  (** evaluation.rs:343-361. *)
  Fixpoint maggregate (targets : list nat) (s : mstorage) (m : memory) (env : list V) : mres (list (V + E)) :=
    match targets with
    | [] => Done []
    | t :: rest =>
        match nth_error g t with
        | None => Panics
        | Some n =>
            match n_var n with
            | Some vid =>
                match nth_error env vid with
                | Some v => mbind (maggregate rest s m env) (fun l => Done (inl v :: l))
                | None => Panics
                end
            | None =>
                match n_ph n with
                | Some name =>
                    match find_placeholder shape_of feeds t n name with
                    | Some v => mbind (maggregate rest s m env) (fun l => Done (inl v :: l))
                    | None => Panics
                    end
                | None =>
                    mbind (mtake s m t) (fun r => let '(x, s1, m1) := r in
                    mbind (maggregate rest s1 m1 env) (fun l => Done (x :: l)))
                end
            end
        end
    end.
  (** evaluation.rs:252-362 [Graph::eval]. *)
  Definition meval (fuel : nat) (targets : list nat) (env : list V) : mres (@outcome V E) :=
    mbind (mloop fuel (minit targets env)) (fun st =>
    mbind (maggregate targets (ms_store st) (ms_mem st) (ms_env st)) (fun l =>
    Done (Outcome l (ms_env st) (rev (ms_log st))))).
End Mem.
