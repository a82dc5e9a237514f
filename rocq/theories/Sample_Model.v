(** Random tensors and the evaluations of one graph, one after the other.  Models
    src/tensor_ops/random_ops.rs, the generators of src/ndarray_ext.rs [array_gen] and
    the functions of src/tensor_ops/mod.rs that make random tensors.

    As in Rand_Model the generator (any [rand::Rng]) is a parameter, and elements are
    reals.  Every random operation owns its generator, whose state stays in the graph
    from one evaluation to the next. *)
From Coq Require Import String List Arith ZArith Bool Reals.
Import ListNotations.
From Verif Require Import Graph_Model Eval_Model Array_Model Scalar_Model Tens_Model Num_Model Rand_Model.
Local Open Scope R_scope.

(** Distributions of rand_distr made at src/ndarray_ext.rs:299, 310, 364, 375, 386. *)
Inductive distribution :=
| DNormal (mean stddev : R)
| DUniform (min max : R)
| DExp (lambda : R)
| DLogNormal (mean stddev : R)
| DGamma (shape_param scale : R).

(** The operations of src/tensor_ops/random_ops.rs:6-104. *)
Inductive random_op :=
| RandomNormal (mean stddev : R)
| RandomUniform (min max : R)
| StandardNormal
| StandardUniform
| Bernoulli (p : R)
| Exponential (lambda : R)
| LogNormal (mean stddev : R)
| Gamma (shape_param scale : R).

(** src/ndarray_ext.rs:29-31 [as_shape]; [None]: a dimension [to_usize] rejects. *)
Definition dims_of (x : arr R) : option (list nat) := dims (map trunc (a_data x)).

Section Sample.
  Context {Rng Op Err : Type}.
  (** The constructors of rand_distr; [None]: they reject the parameters (and the code
      panics). *)
  Variable dist : distribution -> option (Rng -> R * Rng).
  (** [Uniform::new(0., 1.)]. *)
  Variable uniform : Rng -> R * Rng.
  Variable other : Op -> list (opin (arr R)) -> cout (arr R) Err.

  (** src/ndarray_ext.rs:293-302, 304-312, 359-366, 369-377, 380-388: an array of
      samples of a distribution. *)
  Definition dist_array (d : distribution) (shape : list nat) (r : Rng) : option (arr R * Rng) :=
    option_map (fun s => gen_random_array s shape r) (dist d).

  (** What [compute] of the random operations calls: src/tensor_ops/random_ops.rs:108-115,
      123-130, 138-142, 150-154, 162-166, 174-178, 186-193, 201-208, and there
      src/ndarray_ext.rs:293-389. *)
  Definition random_array (k : random_op) (shape : list nat) (r : Rng) : option (arr R * Rng) :=
    match k with
    | RandomNormal m s => dist_array (DNormal m s) shape r
    | RandomUniform a b => dist_array (DUniform a b) shape r
    | StandardNormal => dist_array (DNormal 0 1) shape r                (* ndarray_ext.rs:315-318 *)
    | StandardUniform => Some (gen_random_array uniform shape r)        (* ndarray_ext.rs:321-324 *)
    | Bernoulli p => Some (bernoulli uniform shape p r)                 (* ndarray_ext.rs:343-356 *)
    | Exponential l => dist_array (DExp l) shape r
    | LogNormal m s => dist_array (DLogNormal m s) shape r
    | Gamma k s => dist_array (DGamma k s) shape r
    end.

  (** Operations with the states of their generators: src/tensor_ops/random_ops.rs:6-104
      and 218-222. *)
  Inductive sop :=
  | SRandom (k : random_op) (r : Rng)
  | SDropout (ratio : R) (train : bool) (r : Rng)
  | SOther (o : Op).

  (** An array of the dimensions [x] holds, and the state of the generator afterwards.
      src/tensor_ops/random_ops.rs:109-114. *)
  Definition drawn (k : random_op) (r : Rng) (x : arr R) : option (arr R * Rng) :=
    match dims_of x with Some sh => random_array k sh r | None => None end.

  (** [Op::compute]: src/tensor_ops/random_ops.rs:107-213 and 224-238. *)
  Definition sample_compute (o : sop) (ins : list (opin (arr R))) : cout (arr R) Err :=
    match o, ins with
    | SRandom k r, x :: _ =>
        match drawn k r (opin_val x) with Some (a, _) => CRet [] [a] None | None => CPanic end
    | SDropout ratio train r, x :: _ => CRet [] (fst (dropout_run uniform ratio train r (opin_val x))) None
    | SOther o, _ => other o ins
    | _, [] => CPanic
    end.

  (** The operation after it was executed: the generator, behind a [RefCell]
      (src/ndarray_ext.rs:240-245), has moved on (src/ndarray_ext.rs:281, 345). *)
  Definition moved (o : sop) (ins : list (opin (arr R))) : sop :=
    match o, ins with
    | SRandom k r, x :: _ =>
        match drawn k r (opin_val x) with Some (_, r') => SRandom k r' | None => o end
    | SDropout ratio train r, x :: _ => SDropout ratio train (snd (dropout_run uniform ratio train r (opin_val x)))
    | _, _ => o
    end.
  (** The same node with another state of its operation (src/tensor.rs:301-334
      [TensorInternal], whose [op] holds the generator). *)
  Definition with_op (f : sop -> sop) (n : node sop) : node sop :=
    Node (f (n_op n)) (n_inputs n) (n_rank n) (n_shape n) (n_ph n) (n_diff n) (n_backprop n) (n_known n) (n_var n).
  (** The graph after an evaluation with this log: src/evaluation.rs:275-345 executes the
      operations in place. *)
  Definition moved_graph (g : graph sop) (log : list (@event (arr R))) : graph sop :=
    fold_left (fun g ev => match ev with
                           | Ran i xs => update_nth g i (with_op (fun o => moved o xs))
                           | Skipped _ => g
                           end) log g.

  (** One evaluation: the tensors made since the previous one, the values fed, the
      tensors requested and what the variables hold then (src/evaluation.rs:96-135
      [Evaluator]). *)
  Record request := Request {
    rq_more : graph sop;
    rq_feeds : list (ph_key * arr R);
    rq_targets : list nat;
    rq_env : list (arr R)
  }.
  (** Evaluations one after the other in one [ag::run] (src/graph.rs:170-186,
      src/evaluation.rs:120-135): their outcomes and the graph at the end. *)
  Fixpoint session (debug : bool) (fuel : nat) (g : graph sop) (qs : list request)
    : res (list (@outcome (arr R) Err) * graph sop) :=
    match qs with
    | [] => Ok ([], g)
    | q :: qs =>
        let g1 := g ++ rq_more q in
        match eval a_shape sample_compute debug g1 (rq_feeds q) fuel (rq_targets q) (rq_env q) with
        | Ok oc =>
            match session debug fuel (moved_graph g1 (oc_log oc)) qs with
            | Ok (ocs, g2) => Ok (oc :: ocs, g2)
            | Panic => Panic
            | OutOfFuel => OutOfFuel
            end
        | Panic => Panic
        | OutOfFuel => OutOfFuel
        end
    end.

  (** src/tensor_ops/mod.rs:2441-2456, 2474-2489, 2505-2519, 2535-2548, 2565-2579,
      2596-2609, 2628-2643, 2661-2676: the functions ending in [_rng]. *)
  Definition random_rng (g : graph sop) (shape : nat) (k : random_op) (r : Rng) : option (graph sop * nat) :=
    build g (set_shape (append_input new_builder shape false 0) shape) (SRandom k r).
  (** src/tensor_ops/mod.rs:2426-2436, 2459-2469, 2492-2500, 2522-2530, 2551-2560,
      2582-2591, 2613-2623, 2646-2656: the same with a new generator, which has a fixed
      seed (src/ndarray_ext.rs:248-264). *)
  Definition random (default_rng : Rng) (g : graph sop) (shape : nat) (k : random_op) : option (graph sop * nat) :=
    random_rng g shape k default_rng.
End Sample.
Arguments sop : clear implicits.
Arguments request : clear implicits.
