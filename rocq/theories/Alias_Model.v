(** Borrowed and aliased variables.  A variable is a [RefCell] around an array
    (src/variable.rs:116); the evaluator reaches the array through
    [VariableEnvironment::as_view] and [as_view_mut] (variable.rs:685-703), which
    drop the guard of the [RefCell] before the view is used.  First part: the
    evaluator with the borrow flags of the variables.  Second part: the
    operations that write variables, on views of the variables' memory. *)
From Coq Require Import String List Arith ZArith Bool Reals.
Import ListNotations.
From Verif Require Import Graph_Model Eval_Model Array_Model Arith_Model Opt_Model.

(** ** Evaluation with borrow flags *)

(** The borrow flag of a [RefCell] (std::cell): no guard, [n+1] guards of [borrow], one
    guard of [borrow_mut]. Overflow of the counter is not modelled. The cells are the
    [RefCell]s of src/variable.rs:116. *)
Inductive flag := Free | Shared (n : nat) | Exclusive.
(** [RefCell::borrow], [borrow_mut]; [None]: the panic. Called at src/variable.rs:687
    and src/evaluation.rs:349. *)
Definition borrow (f : flag) : option flag :=
  match f with Free => Some (Shared 0) | Shared n => Some (Shared (S n)) | Exclusive => None end.
(** Called at src/variable.rs:697. *)
Definition borrow_mut (f : flag) : option flag :=
  match f with Free => Some Exclusive | _ => None end.
(** Dropping a guard. At the end of the expressions src/variable.rs:686-691, 696-701. *)
Definition drop_guard (f : flag) : flag :=
  match f with Shared (S n) => Shared n | _ => Free end.

Section Borrow.
  Context {O V E : Type}.
  Variable shape_of : V -> list nat.
  Variable compute : O -> list (opin V) -> cout V E.
  Variable debug : bool.
  Variable g : graph O.
  Variable feeds : list (ph_key * V).

  (** variable.rs:685-703 [as_view], [as_view_mut]: the guard is a temporary of
      the expression that makes the raw view. *)
  Definition touch (writing : bool) (vid : nat) (fs : list flag) : option (list flag) :=
    match nth_error fs vid with
    | None => None
    | Some f =>
        match (if writing then borrow_mut f else borrow f) with
        | None => None
        | Some f' => Some (set_at vid (drop_guard f') fs)
        end
    end.

  (** evaluation.rs:291-317: one input ([Eval_Model.fetch] with the flags). *)
  Definition bfetch (s : @storage V E) (env : list V) (fs : list flag) (inc : incoming)
    : @fetched V E * list flag :=
    match nth_error g (in_id inc) with
    | Some n =>
        match n_ph n, n_var n with
        | None, Some vid =>
            match touch (in_mut inc) vid fs with
            | None => (FPanic, fs)
            | Some fs' => (fetch shape_of g feeds s env inc, fs')
            end
        | _, _ => (fetch shape_of g feeds s env inc, fs)
        end
    | None => (FPanic, fs)
    end.
  (** src/evaluation.rs:291-317: the loop over the inputs. *)
  Fixpoint bcollect (s : @storage V E) (env : list V) (fs : list flag) (ins : list incoming)
    : @collected V E * list flag :=
    match ins with
    | [] => (XOk [], fs)
    | i :: rest =>
        match bfetch s env fs i with
        | (FPanic, fs) => (XPanic, fs)
        | (FErr e, fs) => (XErr e, fs)
        | (FVal x, fs) =>
            match bcollect s env fs rest with
            | (XOk l, fs) => (XOk (x :: l), fs)
            | other => other
            end
        end
    end.

  (** evaluation.rs:275-329.  No guard is held while the operation runs. *)
  Definition bvisit (st : @state V E) (fs : list flag) (stack' : list (nat * bool)) (id : nat) (n : node O)
    : res (@state V E * list flag) :=
    match bcollect (st_store st) (st_env st) fs (n_inputs n) with
    | (XPanic, _) => Panic
    | (XErr e, fs) =>
        Ok (State stack' (st_insert (st_store st) id (inr e)) (st_env st) (Skipped id :: st_log st), fs)
    | (XOk xs, fs) =>
        match compute (n_op n) xs with
        | CPanic => Panic
        | CRet ws ys status =>
            if debug && match ys with [] => true | _ => false end then Panic
            else
              let r := match status with None => inl ys | Some e => inr e end in
              Ok (State stack' (st_insert (st_store st) id r)
                        (apply_writes g (n_inputs n) ws (st_env st)) (Ran id xs :: st_log st), fs)
        end
    end.

  (** evaluation.rs:272-341. *)
  Definition bstep (st : @state V E) (fs : list flag) : res (option (@state V E * list flag)) :=
    match st_stack st with
    | [] => Ok None
    | (id, should_visit) :: rest =>
        match nth_error g id with
        | None => Panic
        | Some n =>
            if should_visit then
              if would_not_visit n id (st_store st)
              then Ok (Some (State rest (st_store st) (st_env st) (st_log st), fs))
              else match bvisit st fs rest id n with
                   | Ok r => Ok (Some r) | Panic => Panic | OutOfFuel => OutOfFuel
                   end
            else
              match push_children g (st_store st) (n_inputs n) ((id, true) :: rest) with
              | Ok stack' => Ok (Some (State stack' (st_store st) (st_env st) (st_log st), fs))
              | Panic => Panic | OutOfFuel => OutOfFuel
              end
        end
    end.
  (** src/evaluation.rs:272-341: the [while let] loop, with fuel. *)
  Fixpoint bloop (fuel : nat) (st : @state V E) (fs : list flag) : res (@state V E * list flag) :=
    match fuel with
    | 0 => OutOfFuel
    | S fuel =>
        match bstep st fs with
        | Ok None => Ok (st, fs)
        | Ok (Some (st', fs')) => bloop fuel st' fs'
        | Panic => Panic
        | OutOfFuel => OutOfFuel
        end
    end.

  (** evaluation.rs:343-361; line 349: [RefCell::clone] borrows the cell. *)
  Fixpoint baggregate (targets : list nat) (s : @storage V E) (env : list V) (fs : list flag)
    : res (list (V + E) * list flag) :=
    match targets with
    | [] => Ok ([], fs)
    | t :: rest =>
        match nth_error g t with
        | None => Panic
        | Some n =>
            let continue (s' : @storage V E) (fs : list flag) (x : V + E) :=
              match baggregate rest s' env fs with
              | Ok (l, fs) => Ok (x :: l, fs) | Panic => Panic | OutOfFuel => OutOfFuel
              end in
            match n_var n with
            | Some vid =>
                match nth_error env vid, touch false vid fs with
                | Some v, Some fs => continue s fs (inl v)
                | _, _ => Panic
                end
            | None =>
                match n_ph n with
                | Some name =>
                    match find_placeholder shape_of feeds t n name with
                    | Some v => continue s fs (inl v)
                    | None => Panic
                    end
                | None =>
                    match s t with
                    | None => Panic
                    | Some (inr e) => continue (st_remove s t) fs (inr e)
                    | Some (inl ys) =>
                        match ys with
                        | [] => Panic
                        | y :: _ => continue (st_remove s t) fs (inl y)
                        end
                    end
                end
            end
        end
    end.

  (** evaluation.rs:252-362 [Graph::eval], called while guards are held elsewhere. *)
  Definition beval (fuel : nat) (targets : list nat) (env : list V) (fs : list flag)
    : res (@outcome V E * list flag) :=
    match bloop fuel (init_state targets env) fs with
    | Ok (st, fs) =>
        match baggregate targets (st_store st) (st_env st) fs with
        | Ok (l, fs) => Ok (Outcome l (st_env st) (rev (st_log st)), fs)
        | Panic => Panic | OutOfFuel => OutOfFuel
        end
    | Panic => Panic
    | OutOfFuel => OutOfFuel
    end.
End Borrow.

(** ** Operations on live views *)

(** What an operation holds for an input: an array of its own (a result or a
    feed; never a view of a variable, op.rs:270-286), or a view of the memory of
    a variable (op.rs:126-130). *)
Inductive live := LOwn (a : arr R) | LVar (vid : nat).

Section Live.
  Local Open Scope R_scope.
  Variable powf : R -> R -> R.

  (** The array a view shows now. The views are made at src/variable.rs:685-703. *)
  Definition see (env : list (arr R)) (w : live) : option (arr R) :=
    match w with LOwn a => Some a | LVar vid => nth_error env vid end.

  (** One element of [zip_mut_with]: the closure gets [&mut dst[i]] and [&src[i]]; the
      source is read when the element is reached. Used by array_ops.rs:96, sgd.rs:18,
      35-36, adagrad.rs:12, adam.rs:16-57. *)
  Definition live_elem (f : R -> R -> R) (dst : nat) (src : live) (env : list (arr R)) (i : list nat)
    : list (arr R) :=
    match nth_error env dst, see env src with
    | Some d, Some s =>
        set_at dst (Arr (a_shape d) (set_at (ravel (a_shape d) i)
                     (f (aget 0 d i) (aget 0 s (bc_idx (a_shape s) i))) (a_data d))) env
    | _, _ => env
    end.
  (** ndarray [zip_mut_with] as called at sgd.rs:18: all elements in row-major order;
      [None]: the shapes do not broadcast (panic). *)
  Definition live_zip (f : R -> R -> R) (dst : nat) (src : live) (env : list (arr R))
    : option (list (arr R)) :=
    match nth_error env dst, see env src with
    | Some d, Some s =>
        if can_broadcast (a_shape s) (a_shape d)
        then Some (fold_left (live_elem f dst src) (indices (a_shape d)) env)
        else None
    | _, _ => None
    end.

  (** [ndarray::Zip] of three operands, the first one written (adagrad.rs:15-18). *)
  Definition live_elem3 (f : R -> R -> R -> R) (dst : nat) (src : live) (st : nat) (env : list (arr R)) (i : list nat)
    : list (arr R) :=
    match nth_error env dst, see env src, nth_error env st with
    | Some d, Some s, Some h =>
        set_at dst (Arr (a_shape d) (set_at (ravel (a_shape d) i)
                     (f (aget 0 d i) (aget 0 s i) (aget 0 h i)) (a_data d))) env
    | _, _, _ => env
    end.
  (** adagrad.rs:15-18: all elements; [None]: different shapes (panic). *)
  Definition live_zip3 (f : R -> R -> R -> R) (dst : nat) (src : live) (st : nat) (env : list (arr R))
    : option (list (arr R)) :=
    match nth_error env dst, see env src, nth_error env st with
    | Some d, Some s, Some h =>
        if shape_eqb (a_shape s) (a_shape d) && shape_eqb (a_shape h) (a_shape d)
        then Some (fold_left (live_elem3 f dst src st) (indices (a_shape d)) env)
        else None
    | _, _, _ => None
    end.

  (** array_ops.rs:93-97 [Assign::compute]. *)
  Definition live_assign (x : nat) (y : live) (env : list (arr R)) : option (list (arr R)) :=
    live_zip (fun _ b => b) x y env.
  (** sgd.rs:14-21. *)
  Definition live_sgd (alpha : R) (p : nat) (gr : live) (env : list (arr R)) : option (list (arr R)) :=
    live_zip (fun l r => l - alpha * r) p gr env.
  (** sgd.rs:29-40. *)
  Definition live_momentum (lr mu : R) (p : nat) (gr : live) (v : nat) (env : list (arr R))
    : option (list (arr R)) :=
    bind (live_zip (fun v g => v * mu - lr * g) v gr env) (fun env =>
    live_zip (fun p v => p + v) p (LVar v) env).
  (** adagrad.rs:8-21. *)
  Definition live_adagrad (lr : R) (p : nat) (gr : live) (h : nat) (env : list (arr R))
    : option (list (arr R)) :=
    bind (live_zip (fun h g => h + g * g) h gr env) (fun env =>
    live_zip3 (fun p g h => p - lr * g / (sqrt h + adagrad_eps)) p gr h env).
  (** adam.rs:11-58; [m_hat] and [v_hat] are arrays of their own. *)
  Definition live_adam (alpha eps b1 b2 : R) (p : nat) (gr : live) (m v t : nat) (env : list (arr R))
    : option (list (arr R)) :=
    bind (live_zip (fun x g => x * b1 + (1 - b1) * g) m gr env) (fun env =>
    bind (live_zip (fun x g => x * b2 + (1 - b2) * g * g) v gr env) (fun env =>
    bind (nth_error env t) (fun ta =>
    match a_data ta with
    | [] => None
    | t_val :: _ =>
        bind (nth_error env v) (fun va =>
        bind (nth_error env m) (fun ma =>
        let v_hat := amap (fun x => x * (1 / (1 - powf b2 t_val))) va in
        let m_hat := amap (fun x => x * (1 / (1 - powf b1 t_val))) ma in
        bind (zip_mut 0 0 (fun a b => a / (sqrt b + eps)) m_hat v_hat) (fun m_hat =>
        bind (live_zip (fun l r => l - alpha * r) p (LOwn m_hat) env) (fun env =>
        bind (nth_error env t) (fun ta =>
        match a_data ta with
        | [] => None
        | t_val :: rest => Some (set_at t (Arr (a_shape ta) (t_val + 1 :: rest)) env)
        end)))))
    end))).
End Live.
