(** Softmax, log-softmax, log-sum-exp and the cross entropies:
    src/tensor_ops/activation_ops.rs, math_ops.rs, xent_ops.rs (built without
    the mkl feature), over the real numbers.  [None] is a panic or a returned
    error. *)
From Coq Require Import List Arith ZArith Bool Reals.
Import ListNotations.
From Verif Require Import Array_Model Arith_Model Reduce_Model.
Local Open Scope R_scope.

(** activation_ops.rs:61-65, math_ops.rs:541-545: a negative axis counts from the
    end; an axis out of range panics at the following indexing. *)
Definition axis_of (ndim : nat) (axis : Z) : option nat :=
  let a := if (axis <? 0)%Z then (Z.of_nat ndim + axis)%Z else axis in
  if (a <? 0)%Z then None
  else if (Z.to_nat a <? ndim)%nat then Some (Z.to_nat a) else None.

(** [Array::fold_axis] followed by [into_shape]: the reduction of one axis.
    activation_ops.rs:73-78, 90-93; math_ops.rs:557-560, 577-580. *)
Definition fold_to {B} (d : R) (x : arr R) (k : nat) (init : B) (f : B -> R -> B) (sh : list nat) : option (arr B) :=
  bind (fold_axis d x k init f) (fun m => into_shape m sh).

Section Softmax.
  (** [minv]: [T::min_value()], the start of the search for the maximum.
      [ex]: the exponential function ([Float::exp]). *)
  Variables (minv : R) (ex : R -> R).
  (** See Arith_Model. *)
  Variable at_empty : arr R -> option R.
  Let mul := mul_forward 0 Rmult at_empty.
  Let sub := sub_forward 0 Rminus at_empty.
  Let add := add_forward 0 Rplus at_empty.
  Let div := div_forward 0 1 Rmult Rdiv at_empty.

  (** activation_ops.rs:60-94 softmax_impl *)
  Definition softmax (axis : Z) (x : arr R) : option (arr R) :=
    bind (axis_of (length (a_shape x)) axis) (fun k =>
      let reduced := set_at k 1%nat (a_shape x) in
      bind (fold_to 0 x k minv Rmax reduced) (fun mx =>
      bind (zip_bc 0 0 Rminus x mx) (fun d =>
      let tmp := amap ex d in
      bind (fold_to 0 tmp k 0 Rplus reduced) (fun sum => zip_mut 0 0 Rdiv tmp sum)))).

  (** activation_ops.rs:103-109 Softmax::grad; [y] is the output. *)
  Definition softmax_grad (axis : Z) (y gy : arr R) : option (arr R) :=
    bind (mul y gy) (fun p =>
    bind (reduce 0 Rplus 0 [axis] true false p) (fun sum =>
    bind (sub gy sum) (fun d => mul d y))).

  (** math_ops.rs:540-593 logsumexp_forward *)
  Definition logsumexp (axis : Z) (keep : bool) (x : arr R) : option (arr R) :=
    bind (axis_of (length (a_shape x)) axis) (fun k =>
      let reduced := if keep then set_at k 1%nat (a_shape x) else remove_at k (a_shape x) in
      bind (fold_to 0 x k minv Rmax reduced) (fun mx =>
      bind (zip_bc 0 0 Rminus x mx) (fun d =>
      bind (fold_to 0 (amap ex d) k 0 Rplus reduced) (fun sum => zip_mut 0 0 Rplus (amap ln sum) mx)))).

  (** math_ops.rs:602-608 LogSumExp::grad *)
  Definition logsumexp_grad (axis : Z) (x gy : arr R) : option (arr R) :=
    bind (softmax axis x) (fun s => mul s gy).

  (** xent_ops.rs:18-22 LogSoftmax::compute *)
  Definition log_softmax (axis : Z) (x : arr R) : option (arr R) :=
    bind (logsumexp axis true x) (fun l => zip_bc 0 0 Rminus x l).
  (** xent_ops.rs:24-30 LogSoftmax::grad: the sum is always over axis 1. *)
  Definition log_softmax_grad (axis : Z) (y gy : arr R) : option (arr R) :=
    bind (reduce 0 Rplus 0 [1%Z] true false gy) (fun sum =>
    bind (mul (amap ex y) sum) (fun m => sub gy m)).

  (** xent_ops.rs:34-46 SigmoidCrossEntropy::compute *)
  Definition sigmoid_xent (x t : arr R) : option (arr R) :=
    if shape_eqb (a_shape x) (a_shape t) then
      bind (zip_bc 0 0 Rmult t x) (fun tx =>
        zip_mut 0 0 Rminus (amap (fun a => ln (ex (- Rabs a) + 1) + Rmax 0 a) x) tx)
    else None.
  (** xent_ops.rs:48-60 SigmoidCrossEntropy::grad: gradients for x and t. *)
  Definition sigmoid_xent_grad_x (x t gy : arr R) : option (arr R) :=
    let e := amap ex x in
    bind (add (Arr [] [1]) e) (fun s => bind (div e s) (fun q => bind (sub q t) (fun d => mul d gy))).
  (** xent_ops.rs:48-60: the gradient of [t]. *)
  Definition sigmoid_xent_grad_t (x t gy : arr R) : option (arr R) :=
    bind (mul gy t) (fun p => Some (amap Ropp p)).

  (** xent_ops.rs:161-177 SoftmaxCrossEntropy::compute: both outputs. *)
  Definition softmax_xent (x t : arr R) : option (arr R * arr R) :=
    bind (log_softmax 1 x) (fun log_x =>
      if negb (length (a_shape log_x) =? 2)%nat then None
      else if negb (length (a_shape t) =? 2)%nat then None
      else bind (zip_bc 0 0 Rmult t log_x) (fun p =>
           bind (fold_axis 0 p 1 0 Rplus) (fun s => Some (amap (fun e => e * (- (1))) s, log_x)))).
  (** xent_ops.rs:179-202 SoftmaxCrossEntropy::grad; [y] and [log_x] are the outputs. *)
  Definition softmax_xent_grad_x (t y log_x gy : arr R) : option (arr R) :=
    bind (sub (amap ex log_x) t) (fun d => mul d gy).
  (** xent_ops.rs:179-202: the gradient of [t]. *)
  Definition softmax_xent_grad_t (t y log_x gy : arr R) : option (arr R) :=
    bind (mul (amap ex log_x) log_x) (fun p =>
    bind (reduce 0 Rplus 0 [(-1)%Z] true false p) (fun sum =>
    bind (sub sum log_x) (fun d => bind (mul gy d) (fun e => mul e y)))).

  (** [ToPrimitive::to_usize] of a float: truncation, defined above -1. xent_ops.rs:102,
      145. *)
  Definition to_usize (r : R) : option nat :=
    if Rlt_dec (-1) r then Some (Z.to_nat (Int_part r)) else None.

  (** xent_ops.rs:64-113 SparseSoftmaxCrossEntropy::compute: both outputs. *)
  Definition label_at (t : arr R) (classes i : nat) : option nat :=
    bind (nth_error (a_data t) i) (fun r => bind (to_usize r) (fun c => if (c <? classes)%nat then Some c else None)).
  (** A panic for one row is a panic of the loop xent_ops.rs:95-106. *)
  Fixpoint all_some {X} (l : list (option X)) : option (list X) :=
    match l with
    | [] => Some []
    | None :: _ => None
    | Some x :: l => bind (all_some l) (fun l => Some (x :: l))
    end.
  (** xent_ops.rs:64-113. *)
  Definition sparse_xent (x t : arr R) : option (arr R * arr R) :=
    bind (log_softmax 1 x) (fun log_x =>
      match a_shape log_x with
      | [n; c] =>
          let ok := match a_shape t with [_] => true | [_; m] => (m =? 1)%nat | _ => false end in
          if ok then
            bind (all_some (map (fun i => bind (label_at t c i) (fun l => Some (- aget 0 log_x [i; l]))) (seq 0 n)))
                 (fun l => bind (into_shape (Arr [n] l) [n; 1%nat]) (fun y => Some (y, log_x)))
          else None
      | _ => None
      end).
  (** xent_ops.rs:140-152 SparseSoftmaxCrossEntropyGrad::compute.  Rows without a
      label are left alone ([zip] stops with the shorter operand). *)
  Definition sparse_xent_grad_x (log_x t gy : arr R) : option (arr R) :=
    let x := amap ex log_x in
    match a_shape x with
    | n :: c :: _ =>
        bind (all_some (map (fun i => label_at t c i) (seq 0 (Nat.min n (length (a_data t)))))) (fun labels =>
          let x' := tab (a_shape x) (fun i =>
            aget 0 x i - match nth_error labels (nth 0 i 0%nat) with
                         | Some l => if (l =? nth 1 i 0)%nat then 1 else 0
                         | None => 0
                         end) in
          zip_mut 0 0 Rmult x' gy)
    | _ => None
    end.
End Softmax.
