(** Random arrays and dropout.  Models src/ndarray_ext.rs [array_gen],
    src/tensor_ops/random_ops.rs [Dropout] and their callers in
    src/tensor_ops/mod.rs.

    The generator (any [rand::Rng]) and its distributions are parameters: a
    distribution is a function from the state of the generator to a sample and
    the next state.  Elements are reals. *)
From Coq Require Import String List Arith ZArith Bool Reals.
Import ListNotations.
From Verif Require Import Graph_Model Eval_Model Array_Model Scalar_Model Tens_Model.
Local Open Scope R_scope.

Section Rand.
  Context {Rng : Type}.

  (** The loops at ndarray_ext.rs:284-286 and 349-352: [k] samples in order. *)
  Fixpoint draws {A} (sample : Rng -> A * Rng) (k : nat) (r : Rng) : list A * Rng :=
    match k with
    | O => ([], r)
    | S k =>
        let (x, r1) := sample r in
        let (l, r2) := draws sample k r1 in
        (x :: l, r2)
    end.

  (** src/ndarray_ext.rs:276-290 [gen_random_array].  The writes through
      [get_unchecked_mut] into a vector of length 0 are modelled as pushes. *)
  Definition gen_random_array (sample : Rng -> R * Rng) (shape : list nat) (r : Rng) : arr R * Rng :=
    let (l, r') := draws sample (prod shape) r in (Arr shape l, r').

  (** [Uniform::new(0., 1.)] of rand_distr. *)
  Variable uniform : Rng -> R * Rng.

  (** src/ndarray_ext.rs:343-356 [bernoulli]. *)
  Definition bernoulli_elem (p : R) (r : Rng) : R * Rng :=
    let (v, r') := uniform r in ((if Rlt_dec v p then 1 else 0), r').
  (** src/ndarray_ext.rs:343-356. *)
  Definition bernoulli (shape : list nat) (p : R) (r : Rng) : arr R * Rng :=
    let (l, r') := draws (bernoulli_elem p) (prod shape) r in (Arr shape l, r').

  (** src/tensor_ops/random_ops.rs:225-238 [Dropout::compute]: the outputs and
      the state of the generator afterwards.  The product of the mask and [x]
      (line 231) has two operands of one shape. *)
  Definition dropout_run (ratio : R) (train : bool) (r : Rng) (x : arr R) : list (arr R) * Rng :=
    if train then
      let (mask, r') := bernoulli (a_shape x) (1 - ratio) r in
      ([Arr (a_shape x) (map2 Rmult (a_data mask) (a_data x)); mask], r')
    else ([amap (fun v => v * (1 - ratio)) x], r).

  (** ** Graphs with dropout *)
  Context {Op Err : Type}.

  (** Operations; [r] is the state the operation's generator has when the evaluation
      starts (the operation runs at most once in an evaluation).
      src/tensor_ops/random_ops.rs:218-222 [Dropout]; src/tensor_ops/mod.rs:545-554
      [nth_tensor]; binary_ops.rs:210-216 [MulOp]. *)
  Inductive dop :=
  | DDropout (ratio : R) (train : bool) (r : Rng)
  | DIdentity
  | DMul
  | DOther (o : Op).

  Variable other : Op -> list (opin (arr R)) -> cout (arr R) Err.

  (** src/tensor_ops/random_ops.rs:225-238 and the operations cited above. *)
  Definition drop_compute (o : dop) (ins : list (opin (arr R))) : cout (arr R) Err :=
    match o, ins with
    | DDropout ratio train r, x :: _ => CRet [] (fst (dropout_run ratio train r (opin_val x))) None
    | DIdentity, x :: _ => CRet [] [opin_val x] None            (* activation_ops.rs:170-175 *)
    | DMul, x :: y :: _ =>                                       (* binary_ops.rs:210-216 *)
        match bin_arr Mul (opin_val x) (opin_val y) with
        | Some z => CRet [] [z] None
        | None => CPanic
        end
    | DOther o, _ => other o ins
    | _, _ => CPanic
    end.

  (** src/tensor_ops/mod.rs:2909-2925 [dropout_rng]. *)
  Definition dropout_rng (g : graph dop) (x : nat) (ratio : R) (train : bool) (rng : Rng)
    : option (graph dop * nat) :=
    build g (append_input new_builder x false 0) (DDropout ratio train rng).
  (** src/tensor_ops/mod.rs:2893-2903 [dropout]; [default_rng] is
      [get_default_rng()], ndarray_ext.rs:248-253: a generator with a fixed seed. *)
  Definition dropout (default_rng : Rng) (g : graph dop) (x : nat) (ratio : R) (train : bool)
    : option (graph dop * nat) := dropout_rng g x ratio train default_rng.

  (** src/tensor_ops/mod.rs:545-555 [nth_tensor]. *)
  Definition nth_tensor (g : graph dop) (x n : nat) : option (graph dop * nat) :=
    build g (append_input new_builder x false n) DIdentity.

  (** src/tensor_ops/random_ops.rs:240-244 [Dropout::grad]: a tensor for the
      mask, and its product with [gy].  The product's shape tensor
      (mod.rs:569-600), which does not influence its value, is left out. *)
  Definition drop_grad (g : graph dop) (out gy : nat) : option (graph dop * nat) :=
    match nth_tensor g out 1 with
    | Some (g1, mask) => build g1 (append_input (append_input new_builder gy false 0) mask false 0) DMul
    | None => None
    end.

  (** [Op::grad] for [compute_input_grads] (src/op.rs:365-380), reading the
      operation of tensor [y] in [g0]; [Identity::grad] is
      activation_ops.rs:177-180.  Other operations do not occur in the graphs
      differentiated here. *)
  Definition drop_opgrad (g0 : graph dop) (y gy : nat) (s : graph dop)
    : option (list (option nat) * graph dop) :=
    match nth_error g0 y with
    | Some n =>
        match n_op n with
        | DDropout _ _ _ => match drop_grad s y gy with Some (s', t) => Some ([Some t], s') | None => None end
        | DIdentity => Some ([Some gy], s)
        | _ => None
        end
    | None => None
    end.
End Rand.
Arguments dop : clear implicits.

(** src/ndarray_ext.rs:327-340 [glorot_normal], [glorot_uniform]: the standard
    deviation, and the bound of the symmetric interval; [None]: the assertion on
    the rank fails. *)
Definition glorot_normal_std (shape : list nat) : option R :=
  match shape with [n; _] => Some (1 / sqrt (INR n)) | _ => None end.
(** src/ndarray_ext.rs:335-340 [glorot_uniform]. *)
Definition glorot_uniform_bound (shape : list nat) : option R :=
  match shape with [n; _] => Some (sqrt (6 / INR n)) | _ => None end.
