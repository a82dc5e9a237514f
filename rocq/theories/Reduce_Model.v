(** Reductions: src/tensor_ops/reduction_ops.rs.  Element types are generic;
    the axes tensor is modelled by the integers it holds.  [None] is a panic. *)
From Coq Require Import List Arith ZArith Bool.
Import ListNotations.
From Verif Require Import Array_Model Arith_Model.

(** [Vec::sort] on axes. reduction_ops.rs:74, 484. *)
Fixpoint insert_sorted (x : nat) (l : list nat) : list nat :=
  match l with
  | [] => [x]
  | y :: l => if x <=? y then x :: y :: l else y :: insert_sorted x l
  end.
(** [Vec::sort], reduction_ops.rs:74, 484. *)
Definition sort (l : list nat) : list nat := fold_right insert_sorted [] l.

(** ndarray_ext.rs:66-80 normalize_negative_axes *)
Fixpoint normalize_axes (ndim : nat) (axes : list Z) : option (list nat) :=
  match axes with
  | [] => Some []
  | a :: axes =>
      let a' := if (a <? 0)%Z then (Z.of_nat ndim + a)%Z else a in
      if (a' <? 0)%Z then None
      else match normalize_axes ndim axes with
           | None => None
           | Some l => Some (Z.to_nat a' :: l)
           end
  end.

(** ndarray_ext.rs:82-91 sparse_to_dense *)
Definition sparse_to_dense (arr : list Z) : list nat :=
  map fst (filter (fun p => (snd p =? 1)%Z) (combine (seq 0 (length arr)) arr)).

(** reduction_ops.rs:109-121 preprocess_axes *)
Definition preprocess_axes (ndim : nat) (axes : list Z) (sparse : bool) : option (list nat) :=
  if sparse then Some (sparse_to_dense axes) else normalize_axes ndim axes.

Section Reduce.
  Context {A : Type} (zero : A).

  (** The loop of reduction_ops.rs:76-97; [axes] largest first. *)
  Fixpoint reduce_axes (op : A -> A -> A) (init : A) (keep : bool) (x : arr A) (axes : list nat) : option (arr A) :=
    match axes with
    | [] => Some x
    | k :: axes =>
        match fold_axis zero x k init op with
        | None => None
        | Some r =>
            match (if keep then expand_dims r k else Some r) with
            | None => None
            | Some r => reduce_axes op init keep r axes
            end
        end
    end.

  (** reduction_ops.rs:54-102 impl_reduce_forward (sum: add/zero, prod: mul/one,
      min: min/max_value, max: max/min_value).  When nothing is folded (no axes)
      the loop returns the operand. *)
  Definition compute_reduce (op : A -> A -> A) (init : A) (x : arr A) (axes : list nat) (keep : bool) : option (arr A) :=
    if is_scalar_shape (a_shape x) then Some x
    else match axes with
         | [] => Some x
         | _ => reduce_axes op init keep x (rev (sort axes))
         end.

  (** reduction_ops.rs:161-170 ReduceSum::compute (and Prod, Min, Max). *)
  Definition reduce (op : A -> A -> A) (init : A) (axes : list Z) (keep sparse : bool) (x : arr A) : option (arr A) :=
    bind (preprocess_axes (length (a_shape x)) axes sparse) (fun ax => compute_reduce op init x ax keep).

  (** reduction_ops.rs:459-499 ReduceGradCommon::compute; [target] is x's shape. *)
  Definition reduce_grad (make_dims sparse : bool) (axes : list Z) (target : list nat) (gy : arr A) : option (arr A) :=
    if shape_eqb (a_shape gy) target then Some gy
    else if make_dims || is_scalar_shape (a_shape gy) then
      bind (preprocess_axes (length target) axes sparse) (fun ax =>
        bind (fold_left (fun sh k => bind sh (fun sh => if k <=? length sh then Some (insert_at k 1 sh) else None))
                        (sort ax) (Some (a_shape gy))) (fun gs =>
          bind (into_shape gy gs) (fun a => broadcast zero a target)))
    else broadcast zero gy target.

  (** reduction_ops.rs:171-184 ReduceSum::grad: what the gradient evaluates to. *)
  Definition reduce_sum_grad (axes : list Z) (keep sparse : bool) (x gy : arr A) : option (arr A) :=
    reduce_grad (negb keep) sparse axes (a_shape x) gy.

  (** reduction_ops.rs:498-511 ReduceGradCommon::grad: the gradient with respect
      to gy of [reduce_grad make_dims ...]; [g] is the gradient of its result. *)
  Definition reduce_grad_grad (add : A -> A -> A) (make_dims sparse : bool) (axes : list Z) (g : arr A) : option (arr A) :=
    reduce add zero axes make_dims sparse g.

  (** reduction_ops.rs:123-128 ReduceSumToScalar::compute, 141-150 its gradient
      (which reads the first element of gy without a check). *)
  Definition sum_all (add : A -> A -> A) (x : arr A) : arr A := Arr [] [fold_left add (a_data x) zero].
  (** reduction_ops.rs:139-159 ReduceSumToScalarGrad::compute. *)
  Definition sum_all_grad (x gy : arr A) : arr A := full (a_shape x) (hd zero (a_data gy)).
End Reduce.
