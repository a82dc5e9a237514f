(** Operations on views whose elements are not stored in row-major order.

    [transpose], [slice], [split] and [squeeze] return views into their operand's memory
    (shape and strides change, nothing is copied), and views of any layout can be fed for
    placeholders.  The models of Shape_Model.v and Reduce_Model.v take arrays in standard
    layout; here are the same operations on views.  Negative strides (which only a fed
    view can have) are left out.  Reads outside the buffer, which views made by safe code
    do not cause, give [zero] here. *)
From Coq Require Import List Arith ZArith Bool.
Import ListNotations.
From Verif Require Import Array_Model Arith_Model Reduce_Model Argx_Model Shape_Model Batch_Model Conv_Model.

(** ** What ndarray does *)

(** [fortran_strides] (ndarray 0.16.1): column-major; all 0 if the array is empty. Used by
    [into_shape], e.g. array_ops.rs:290, 423, 874. *)
Definition fortran_strides (sh : list nat) : list nat :=
  if prod sh =? 0 then repeat 0 (length sh) else rev (row_major (rev sh)).

(** [is_standard_layout], called at array_ops.rs:200. *)
Definition is_standard {A} (v : view A) : bool := layout_c (v_shape v) (v_strides v).

(** [into_shape] of a view (ndarray 0.16.1): nothing is copied; row-major memory is read in
    row-major order, column-major memory in column-major order, anything else is an
    error. array_ops.rs:201, 290, 423, 874; reduction_ops.rs:489. *)
Definition v_into_shape {A} (v : view A) (sh : list nat) : option (view A) :=
  if prod (v_shape v) =? prod sh then
    if is_standard v then Some (View (v_mem v) (v_off v) sh (std_strides sh))
    else if (1 <? length (v_shape v)) && layout_c (rev (v_shape v)) (rev (v_strides v))
    then Some (View (v_mem v) (v_off v) sh (fortran_strides sh))
    else None
  else None.

(** The axes ordered by stride, smallest first; equal strides in the order of the axes
    ([_fastest_varying_stride_order] of ndarray 0.16.1, a stable sort). See array_ops.rs:377. *)
Fixpoint insert_axis (a : nat * nat) (l : list (nat * nat)) : list (nat * nat) :=
  match l with
  | [] => [a]
  | b :: l => if snd a <=? snd b then a :: b :: l else b :: insert_axis a l
  end.
(** ndarray's [is_contiguous]: the strides are those of some order of the axes. Decides whether [map] and
    [to_owned] keep the memory order: array_ops.rs:376-378, reduction_ops.rs:379. *)
Fixpoint contiguous_from (l : list (nat * nat)) (cstride : nat) : bool :=
  match l with
  | [] => true
  | (d, s) :: l => ((d =? 1) || (s =? cstride)) && contiguous_from l (cstride * d)
  end.
(** The default strides, or those of some order of the axes (one axis: only the default). array_ops.rs:376-378. *)
Definition is_contiguous (sh st : list nat) : bool :=
  shape_eqb st (std_strides sh) ||
  ((negb (length sh =? 1)) && contiguous_from (fold_right insert_axis [] (combine sh st)) 1).

(** The [len] elements from the pointer on: [slice::from_raw_parts(x.as_ptr(), x.len())]. conv2d_transpose.rs:327-328;
    also [as_slice_memory_order] behind array_ops.rs:376-378. *)
Definition raw {A} (v : view A) : list A := firstn (prod (v_shape v)) (skipn (v_off v) (v_mem v)).

(** [index_axis_move(axis, 0)] array_ops.rs:845. *)
Definition v_index0 {A} (k : nat) (v : view A) : view A :=
  View (v_mem v) (v_off v) (remove_at k (v_shape v)) (remove_at k (v_strides v)).

(** [slice_collapse] with ranges of step 1: array_ops.rs:704, 783. *)
Definition v_slice {A} (rs : list (nat * nat)) (v : view A) : view A :=
  View (v_mem v) (v_off v + stride_sum (v_strides v) (map fst rs)) (map (fun r => snd r - fst r) rs) (v_strides v).

Section Layout.
  Context {A : Type} (zero : A).

  (** src/ndarray_ext.rs:107-112 deep_copy: the elements in logical order. *)
  Definition deep_copy (v : view A) : view A :=
    View (a_data (contents zero v)) 0 (v_shape v) (std_strides (v_shape v)).

  (** ** Operations *)

  (** array_ops.rs:184-227 Reshape::compute. *)
  Definition v_reshape (dims : list Z) (v : view A) : option (view A) :=
    bind (reshape_dims (prod (v_shape v)) dims dims) (fun target =>
      if is_standard v
      then match v_into_shape v target with
           | Some w => Some w
           | None => v_into_shape (deep_copy v) target
           end
      else v_into_shape (deep_copy v) target).

  (** math_ops.rs:426-453 Transpose::compute: a view of the same memory. *)
  Definition v_transpose (invert : bool) (perm : list Z) (v : view A) : option (view A) :=
    if length perm =? length (v_shape v) then
      bind (plain_indices perm) (fun p =>
        bind (if invert then invert_perm p else Some p) (fun d =>
          if is_perm d then Some (vpermute d v) else None))
    else None.

  (** array_ops.rs:780-786 Slice::compute: a view of the same memory. *)
  Definition v_slice_forward (sl : list (Z * option Z)) (v : view A) : option (view A) :=
    bind (ranges (v_shape v) sl) (fun rs => Some (v_slice rs v)).
  (** array_ops.rs:699-708 Split::compute: a view of the same memory. *)
  Definition v_split_forward (axis start stop : Z) (v : view A) : option (view A) :=
    bind (normalize_axis axis (length (v_shape v))) (fun k =>
      bind (split_slices (length (v_shape v)) k start stop) (fun sl => v_slice_forward sl v)).

  (** array_ops.rs:827-848 Squeeze::compute: a view of the same memory. *)
  Fixpoint v_squeeze_loop (adjust : nat) (axes : list Z) (v : view A) : option (view A) :=
    match axes with
    | [] => Some v
    | i :: axes =>
        let k := ((if i <? 0 then Z.of_nat (length (v_shape v)) + i else i) - Z.of_nat adjust)%Z in
        if (k <? 0)%Z then None
        else match nth_error (v_shape v) (Z.to_nat k) with
             | Some 1 => v_squeeze_loop (S adjust) axes (v_index0 (Z.to_nat k) v)
             | _ => None
             end
    end.
  (** array_ops.rs:827-848. *)
  Definition v_squeeze (axes : list Z) (v : view A) : option (view A) := v_squeeze_loop 0 (sortZ axes) v.

  (** array_ops.rs:857-876 ExpandDims::compute: the [unwrap] of line 874 is the panic. *)
  Definition v_expand (axes : list Z) (v : view A) : option (view A) :=
    bind (expand_shape (length (v_shape v)) (sortZ axes) (v_shape v)) (v_into_shape v).

  (** array_ops.rs:282-304 IndexOp::compute: the [unwrap] of line 290 panics;
      an index outside is an error. *)
  Definition v_access_elem (i : Z) (v : view A) : option (arr A) :=
    bind (v_into_shape v [prod (v_shape v)]) (fun flat =>
      bind (elem_pos (prod (v_shape v)) i) (fun k => Some (Arr [] [vget zero flat [k]]))).

  (** array_ops.rs:371-379: the indices as a vector.  [normalize_negative_axes] iterates in
      logical order; [map] keeps the memory order of contiguous views, and [into_raw_vec]
      returns it. *)
  Definition index_vector (norm : bool) (n : nat) (idx : view Z) : option (list nat) :=
    if norm then normalize_axes n (a_data (contents 0%Z idx))
    else plain_indices (if is_contiguous (v_shape idx) (v_strides idx) then raw idx else a_data (contents 0%Z idx)).
  (** array_ops.rs:353-384 Gather::compute; [param] is read by index only. *)
  Definition v_gather (norm : bool) (axis : Z) (idx : view Z) (param : arr A) : option (arr A) :=
    bind (normalize_axis axis (length (a_shape param))) (fun k =>
      bind (nth_error (a_shape param) k) (fun n =>
        let out := firstn k (a_shape param) ++ v_shape idx ++ skipn (S k) (a_shape param) in
        bind (index_vector norm n idx) (fun ix =>
          bind (select zero k ix param) (fun s => into_shape s out)))).

  (** array_ops.rs:402-467 GatherGrad::compute: the [unwrap] of line 423 panics. [zip(indices)] iterates in
      logical order. *)
  Definition v_gather_grad (add : A -> A -> A) (axis : Z) (idx : view Z) (param : list nat) (gy : view A) : option (arr A) :=
    if (axis <? 0)%Z then None
    else let k := Z.to_nat axis in
         bind (nth_error param k) (fun n =>
           bind (v_into_shape gy (firstn k param ++ [prod (v_shape idx)] ++ skipn (S k) param)) (fun gy =>
             gather_grad_loop zero add k n (contents zero gy) 0 (a_data (contents 0%Z idx)) (full param zero))).

  (** reduction_ops.rs:459-499 ReduceGradCommon::compute: the [unwrap] of line 489 panics. *)
  Definition v_reduce_grad (make_dims sparse : bool) (axes : list Z) (target : list nat) (gy : view A) : option (arr A) :=
    if shape_eqb (v_shape gy) target then Some (contents zero gy)
    else if make_dims || is_scalar_shape (v_shape gy) then
      bind (preprocess_axes (length target) axes sparse) (fun ax =>
        bind (fold_left (fun sh k => bind sh (fun sh => if k <=? length sh then Some (insert_at k 1 sh) else None))
                        (sort ax) (Some (v_shape gy))) (fun gs =>
          bind (v_into_shape gy gs) (fun a => broadcast zero (contents zero a) target)))
    else broadcast zero (contents zero gy) target.
End Layout.

(** array_ops.rs:241-272 SetDiff1D::compute: [as_slice().unwrap()] of both operands panics
    unless they are in standard layout. *)
Definition v_setdiff1d (x y : view Z) : option (list Z) :=
  if is_standard x && is_standard y then Some (setdiff1d (raw x) (raw y)) else None.

Section Argx.
  Context {A : Type} (zero one : A) (add mul : A -> A -> A) (eqb : A -> A -> bool) (of_nat : nat -> A).

  (** reduction_ops.rs:379 [x.to_owned()]: the memory order of a contiguous view is kept;
      then the elements are overwritten with [m]'s (380-392). *)
  Definition owned_as (v : view A) (m : arr A) : sarr A :=
    let st := if is_contiguous (v_shape v) (v_strides v) then v_strides v else std_strides (v_shape v) in
    SArr (v_shape v) st
         (map (fun p => match find (fun i => stride_sum st i =? p) (indices (v_shape v)) with
                        | Some i => aget zero m i
                        | None => zero
                        end) (seq 0 (prod (v_shape v)))).

  (** reduction_ops.rs:365-429 argx_helper. *)
  Definition v_argx_helper (comp : A -> A -> A) (default : A) (keep : bool) (axis : Z) (v : view A) : option (arr A) :=
    let x := contents zero v in
    match Argx_Model.normalize_axis axis (length (a_shape x)) with
    | None => None
    | Some axis =>
        match mask zero one eqb comp default axis x with
        | None => None
        | Some mk =>
            let reduction_len := nth axis (a_shape x) 0 in
            let mk := roll_axis (owned_as v mk) 0 axis in
            if reduction_len =? 0 then None
            else
              let rows := prod (a_shape x) / reduction_len in
              match s_into_shape mk [reduction_len; rows] with
              | None => None
              | Some mk =>
                  let mk := swap_axes 0 1 mk in
                  let mat := tab [rows; 1] (fun i =>
                    fold_left add (map (fun k => mul (sget zero mk [nth 0 i 0; k]) (of_nat k)) (seq 0 reduction_len)) zero) in
                  into_shape mat (if keep then set_at axis 1 (a_shape x) else remove_at axis (a_shape x))
              end
        end
    end.
End Argx.

(** conv2d_transpose.rs:303-431 conv2d_transpose_filter_grad_impl: lines 327-328 take the
    memory of [x] and [gy] from their pointers on, whatever the strides. Of [w] only the shape matters. *)
Definition v_conv2d_transpose_filter_grad {A} (zero : A) (add mul : A -> A -> A) (uninit : nat -> A) (p s d : nat)
    (gy x : view A) (w : arr A) : kres (arr A) :=
  conv2d_transpose_filter_grad zero add mul uninit p s d (Arr (v_shape gy) (raw gy)) (Arr (v_shape x) (raw x)) w.
