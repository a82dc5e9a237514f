(** Array graphs whose tensors are views of memory.

    The operations of Tens_Model on tensors that have a memory layout.  Operations that return
    a view of their operand's memory, and operations that read memory otherwise than element by
    element, are those of Layout_Model.  All others read their operands element by element
    (ndarray's iterators, [Zip], [fold_axis], or an explicit copy if the operand is not row-major,
    e.g. conv2d.rs:436-451, max_pool2d.rs:176-181) and allocate their result; where they put its
    elements is the parameter [place].

    Simplifications: vectors of integers have no layout (they are one-dimensional); the unfolded
    image that Conv2DFilterGrad reads through a pointer (conv2d.rs:646) is always the second
    output of Conv2D, which is row-major (conv2d.rs:483-484), so it is read as an array. *)
From Coq Require Import String List Arith ZArith Bool Reals.
Import ListNotations.
From Verif Require Import Array_Model Arith_Model Reduce_Model Shape_Model Batch_Model Layout_Model
  Graph_Model Eval_Model Scalar_Model Tens_Model.
From Verif Require Conv_Model.
Local Open Scope R_scope.

(** A view of memory (ndarray_ext.rs:10-19), or a vector of integers (ndarray_ext.rs:22-31). *)
Inductive pv := PA (v : view R) | PI (l : list Z).

(** What a tensor means to the user: its elements, ndarray_ext.rs:10-19. *)
Definition elems (v : pv) : tv :=
  match v with PA v => TA (contents 0 v) | PI l => TI l end.
(** ndarray [shape()], used for the feeds at src/tensor.rs:374-386. *)
Definition pv_shape (v : pv) : list nat :=
  match v with PA v => v_shape v | PI l => [length l] end.

(** A vector of positions as a view. Indices of array_ops.rs:353-384. *)
Definition vec_view (l : list Z) : view Z := View l 0 [length l] [1%nat].

Section Place.
  (** Where an operation puts the elements of a new array, given its operands. *)
  Variable place : top -> list pv -> arr R -> view R.

  (** [append_output] (src/op.rs:356-380) of a new array. *)
  Definition placed (o : top) (vs : list pv) (r : option (arr R)) : option pv :=
    option_map (fun a => PA (place o vs a)) r.

  (** [Op::compute]; [None]: a panic, an error, or an input combination outside the model.
      array_ops.rs:187-240 Reshape, math_ops.rs:426-466 Transpose, array_ops.rs:780-801 Slice,
      698-724 Split, 826-854 Squeeze, 856-882 ExpandDims, gradient_ops.rs:4-16 StopGradient,
      array_ops.rs:281-315 IndexOp, 401-473 GatherGrad, reduction_ops.rs:459-512 ReduceGradCommon,
      conv2d_transpose.rs:433-480; the others as cited at [top]. *)
  Definition pcompute (o : top) (vs : list pv) : option pv :=
    match o, vs with
    | TReshape, [PA x; PI l] => option_map PA (v_reshape 0 l x)
    | TTranspose inv, [PA x; PI perm] => option_map PA (v_transpose inv perm x)
    | TSlice sl, [PA x] => option_map PA (v_slice_forward sl x)
    | TSplit axis lo hi, [PA x] => option_map PA (v_split_forward axis lo hi x)
    | TSqueeze, [PA x; PI axes] => option_map PA (v_squeeze axes x)
    | TExpandDims, [PA x; PI axes] => option_map PA (v_expand axes x)
    | TStop, [PA x] => Some (PA x)
    | TIndex i, [PA x] => placed o vs (v_access_elem 0 i x)
    | TGatherGrad axis, [PI idx; PA x; PA gy] => placed o vs (v_gather_grad 0 Rplus axis (vec_view idx) (v_shape x) gy)
    | TReduceGrad md, [PA g; PI l; PI axes] =>
        match dims l with Some sh => placed o vs (v_reduce_grad 0 md false axes sh g) | None => None end
    | TConvTGradW p s d, [PA gy; PA x; PA w] =>
        placed o vs (Conv_Model.kok (v_conv2d_transpose_filter_grad 0 Rplus Rmult blank p s d gy x (contents 0 w)))
    | _, _ =>
        match tcompute o (map elems vs) with
        | Some (TA a) => Some (PA (place o vs a))
        | Some (TI l) => Some (PI l)
        | None => None
        end
    end.

  (** The same as an operation of the evaluator model. src/op.rs:97. *)
  Definition place_compute (o : top) (xs : list (opin pv)) : cout pv unit :=
    match pcompute o (map opin_val xs) with
    | Some v => CRet [] [v] None
    | None => CPanic
    end.
End Place.
