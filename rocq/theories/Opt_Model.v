(** Optimizers: models src/optimizers/*.rs and
    src/tensor_ops/gradient_descent_ops/*.rs over real numbers. *)
From Coq Require Import String List Arith ZArith Bool Reals DecimalString DecimalNat.
Import ListNotations.
From Verif Require Import Graph_Model Eval_Model Var_Model Array_Model Arith_Model.
Local Open Scope R_scope.

(** ** The operations *)
Section Ops.
  (** [Float::powf]. *)
  Variable powf : R -> R -> R.

  (** src/tensor_ops/gradient_descent_ops/sgd.rs:14-21 [SGDOp::compute]: the new
      parameter; [None]: the gradient cannot be broadcast to the parameter. *)
  Definition sgd_step (alpha : R) (p g : arr R) : option (arr R) :=
    zip_mut 0 0 (fun l r => l - alpha * r) p g.

  (** sgd.rs:29-40 [MomentumSGDOp::compute]: new parameter and velocity. *)
  Definition momentum_step (lr momentum : R) (p g v : arr R) : option (arr R * arr R) :=
    bind (zip_mut 0 0 (fun v g => v * momentum - lr * g) v g) (fun v' =>
    bind (zip_mut 0 0 (fun p v => p + v) p v') (fun p' => Some (p', v'))).

  (** adagrad.rs:13. *)
  Definition adagrad_eps : R := / 10000000.
  (** adagrad.rs:8-21 [AdaGradOp::compute]: new parameter and accumulator.
      [ndarray::Zip] wants equal shapes. *)
  Definition adagrad_step (lr : R) (p g h : arr R) : option (arr R * arr R) :=
    bind (zip_mut 0 0 (fun h g => h + g * g) h g) (fun h' =>
    if shape_eqb (a_shape g) (a_shape p) && shape_eqb (a_shape h') (a_shape p)
    then Some (tab (a_shape p) (fun i => aget 0 p i - lr * aget 0 g i / (sqrt (aget 0 h' i) + adagrad_eps)), h')
    else None).

  (** adam.rs:11-58 [AdamOp::compute]: new parameter, moments and counter.
      [t_val] is the first element of [t] (line 40; an empty [t] is undefined
      behaviour, here [None]); only that element is incremented (line 54). *)
  Definition adam_step (alpha eps b1 b2 : R) (p g m v t : arr R)
    : option (arr R * arr R * arr R * arr R) :=
    bind (zip_mut 0 0 (fun x g => x * b1 + (1 - b1) * g) m g) (fun m' =>
    bind (zip_mut 0 0 (fun x g => x * b2 + (1 - b2) * g * g) v g) (fun v' =>
    match a_data t with
    | [] => None
    | t_val :: rest =>
        let v_hat := amap (fun x => x * (1 / (1 - powf b2 t_val))) v' in
        let m_hat := amap (fun x => x * (1 / (1 - powf b1 t_val))) m' in
        bind (zip_mut 0 0 (fun a b => a / (sqrt b + eps)) m_hat v_hat) (fun m_hat =>
        bind (zip_mut 0 0 (fun l r => l - alpha * r) p m_hat) (fun p' =>
        Some (p', m', v', Arr (a_shape t) (t_val + 1 :: rest))))
    end)).

  (** The operation structs. sgd.rs:4-12, adagrad.rs:3-5, adam.rs:3-8 in
      src/tensor_ops/gradient_descent_ops. *)
  Inductive opt_op :=
  | SGDOp (alpha : R)
  | MomentumSGDOp (lr momentum : R)
  | AdaGradOp (lr : R)
  | AdamOp (alpha eps b1 b2 : R).

  (** src/op.rs:206-233 [input]: panics on a mutable input; 239-261 [input_mut]:
      panics on any other. *)
  Definition input (xs : list (opin (arr R))) (i : nat) : option (arr R) :=
    match nth_error xs i with Some (NonVar v) | Some (RdOnly v) => Some v | _ => None end.
  (** src/op.rs:239-259. *)
  Definition input_mut (xs : list (opin (arr R))) (i : nat) : option (arr R) :=
    match nth_error xs i with Some (RdWr v) => Some v | _ => None end.

  (** src/op.rs:290-294 [append_empty_output]: a zero scalar. *)
  Definition empty_output : arr R := Arr [] [0].

  (** What the [compute]s cited above write: input position and new array (sgd.rs:15-21,
      30-39, adagrad.rs:8-21, adam.rs:11-58). *)
  Definition opt_writes (o : opt_op) (xs : list (opin (arr R))) : option (list (nat * arr R)) :=
    match o with
    | SGDOp alpha =>
        bind (input_mut xs 0) (fun p => bind (input xs 1) (fun g =>
        bind (sgd_step alpha p g) (fun p' => Some [(0%nat, p')])))
    | MomentumSGDOp lr mu =>
        bind (input_mut xs 0) (fun p => bind (input xs 1) (fun g => bind (input_mut xs 2) (fun v =>
        bind (momentum_step lr mu p g v) (fun r => Some [(2%nat, snd r); (0%nat, fst r)]))))
    | AdaGradOp lr =>
        bind (input_mut xs 0) (fun p => bind (input xs 1) (fun g => bind (input_mut xs 2) (fun h =>
        bind (adagrad_step lr p g h) (fun r => Some [(2%nat, snd r); (0%nat, fst r)]))))
    | AdamOp alpha eps b1 b2 =>
        bind (input_mut xs 4) (fun t => bind (input xs 1) (fun g =>
        bind (input_mut xs 2) (fun m => bind (input_mut xs 3) (fun v => bind (input_mut xs 0) (fun p =>
        bind (adam_step alpha eps b1 b2 p g m v t) (fun r =>
          match r with (p', m', v', t') => Some [(2%nat, m'); (3%nat, v'); (0%nat, p'); (4%nat, t')] end))))))
    end.
  (** sgd.rs:15-21, 30-39, adagrad.rs:8-21, adam.rs:11-58 as operations of the
      evaluator. *)
  Definition opt_compute {E} (o : opt_op) (xs : list (opin (arr R))) : cout (arr R) E :=
    match opt_writes o xs with
    | None => CPanic
    | Some ws => CRet ws [empty_output] None
    end.
End Ops.

(** ** The optimizers *)

(** sgd.rs:31-33, momentum_sgd.rs:35-39, adagrad.rs:12-16, adam.rs:47-53. *)
Inductive optimizer :=
| SGD (alpha : R)
| MomentumSGD (alpha momentum : R) (ns : string)
| AdaGrad (lr : R) (ns : string)
| Adam (alpha eps b1 b2 : R) (ns : string).

(** The operation an optimizer builds. src/optimizers/sgd.rs:55-62,
    momentum_sgd.rs:99-115, adagrad.rs:71-84, adam.rs:129-151. *)
Definition update_op (opt : optimizer) : opt_op :=
  match opt with
  | SGD alpha => SGDOp alpha
  | MomentumSGD alpha mu _ => MomentumSGDOp alpha mu
  | AdaGrad lr _ => AdaGradOp lr
  | Adam alpha eps b1 b2 _ => AdamOp alpha eps b1 b2
  end.

(** src/variable.rs:108-112: [Display] of [VariableID], a decimal [usize]. *)
Definition decimal (n : nat) : string := NilEmpty.string_of_uint (Nat.to_uint n).

(** momentum_sgd.rs:71, 103; adagrad.rs:49, 79; adam.rs:84-86, 130-132: the
    names of a parameter's state arrays, in the order of the operation's inputs. *)
Definition state_names (opt : optimizer) (vid : nat) : list string :=
  match opt with
  | SGD _ => []
  | MomentumSGD _ _ _ | AdaGrad _ _ => [decimal vid]
  | Adam _ _ _ _ _ => [decimal vid ++ "m"; decimal vid ++ "v"; decimal vid ++ "t"]%string
  end.
(** src/optimizers/momentum_sgd.rs:62, adagrad.rs:36, adam.rs:82: the namespace of the
    state arrays (a parameter of [new]). *)
Definition opt_namespace (opt : optimizer) : string :=
  match opt with
  | SGD _ => ""%string
  | MomentumSGD _ _ ns | AdaGrad _ ns | Adam _ _ _ _ ns => ns
  end.
(** The arrays they are created with, for a parameter of shape [sh].
    momentum_sgd.rs:64-76, adagrad.rs:38-49, adam.rs:84-104. *)
Definition initial_states (opt : optimizer) (sh : list nat) : list (arr R) :=
  match opt with
  | SGD _ => []
  | MomentumSGD _ _ _ | AdaGrad _ _ => [full sh 0]
  | Adam _ _ _ _ _ => [full sh 0; full sh 0; Arr [] [1]]
  end.

(** momentum_sgd.rs:63-88, adagrad.rs:34-57, adam.rs:74-118 [new]: the loop over
    the parameters; [None]: the panic "variable array not found". *)
Definition register_states (opt : optimizer) (e : env (arr R)) (vid : nat) : option (env (arr R)) :=
  match get_array_by_id e vid with
  | None => None
  | Some a =>
      Some (fold_left (fun e na => fst (register_variable (snd na) (opt_namespace opt) (fst na) e))
              (combine (state_names opt vid) (initial_states opt (a_shape a))) e)
  end.
Fixpoint opt_new (opt : optimizer) (vids : list nat) (e : env (arr R)) : option (env (arr R)) :=
  match opt with
  | SGD _ => Some e              (* sgd.rs:36-38: no list is given *)
  | _ =>
    match vids with
    | [] => Some e
    | vid :: vids =>
        match register_states opt e vid with
        | None => None
        | Some e' => opt_new opt vids e'
        end
    end
  end.

Section Updates.
  Context {O E : Type}.
  Variable var_op : O.
  Variable inj : opt_op -> O.

  (** The state tensors of a parameter, looked up by name; [None]: unknown name.
      momentum_sgd.rs:103, adagrad.rs:75, adam.rs:133-135. *)
  Fixpoint state_tensors (e : env (arr R)) (c : context O) (ns : string) (names : list string)
    : option (context O * list nat) :=
    match names with
    | [] => Some (c, [])
    | name :: names =>
        match variable_by_name var_op e c ns name with
        | None => None
        | Some (c', t) =>
            match state_tensors e c' ns names with
            | None => None
            | Some (c'', ts) => Some (c'', t :: ts)
            end
        end
    end.

  (** The body of the loops in [compute_updates] (sgd.rs:55-62,
      momentum_sgd.rs:104-121, adagrad.rs:75-89, adam.rs:128-151).  Only plain
      SGD does not insist on a variable. *)
  Definition update_node (opt : optimizer) (e : env (arr R)) (c : context O) (p gr : nat)
    : option (context O * nat) :=
    let finish (c : context O) (states : list nat) :=
      let b := append_input (append_input new_builder p true 0) gr false 0 in
      let b := fold_left (fun b s => append_input b s true 0) states b in
      match build (c_graph c) b (inj (update_op opt)) with
      | None => None
      | Some (g', u) => Some (Context g' (c_vars c), u)
      end in
    match opt with
    | SGD _ => finish c []
    | _ =>
        match nth_error (c_graph c) p with
        | None => None
        | Some n =>
            match n_var n with
            | None => None      (* "Got non-variable tensor" *)
            | Some vid =>
                match state_tensors e c (opt_namespace opt) (state_names opt vid) with
                | None => None
                | Some (c', states) => finish c' states
                end
            end
        end
    end.

  (** [Optimizer::compute_updates]; [None]: panic (also for lists of different lengths).
      src/optimizers/mod.rs:53-61; sgd.rs:42-64, momentum_sgd.rs:86-117,
      adagrad.rs:58-86, adam.rs:116-153 in src/optimizers. *)
  Fixpoint compute_updates (opt : optimizer) (e : env (arr R)) (c : context O) (ps gs : list nat)
    : option (context O * list nat) :=
    match ps, gs with
    | [], [] => Some (c, [])
    | p :: ps, gr :: gs =>
        match update_node opt e c p gr with
        | None => None
        | Some (c', u) =>
            match compute_updates opt e c' ps gs with
            | None => None
            | Some (c'', us) => Some (c'', u :: us)
            end
        end
    | _, _ => None
    end.

  (** src/optimizers/mod.rs:71-89 [Optimizer::update]: the arrays afterwards;
      an error result panics at [unwrap]. *)
  Definition all_ok (l : list (arr R + E)) : bool :=
    forallb (fun r => match r with inl _ => true | inr _ => false end) l.
  (** src/optimizers/mod.rs:66-82. *)
  Definition update (compute : O -> list (opin (arr R)) -> cout (arr R) E) (debug : bool) (fuel : nat)
    (opt : optimizer) (e : env (arr R)) (c : context O) (ps gs : list nat) (feeder : list (ph_key * arr R))
    : res (context O * env (arr R)) :=
    match compute_updates opt e c ps gs with
    | None => Panic
    | Some (c', us) =>
        match ev_run a_shape compute debug (c_graph c') fuel
                (ev_extend (ev_set_feeder new_evaluator feeder) us) (array_list e) with
        | Ok oc => if all_ok (oc_results oc) then Ok (c', Env (oc_env oc) (name_to_id e)) else Panic
        | Panic => Panic
        | OutOfFuel => OutOfFuel
        end
    end.
End Updates.
