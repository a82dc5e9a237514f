(** BatchMatMul (src/tensor_ops/dot_ops.rs) reads its operands' memory directly,
    so here operands are views: a buffer, an offset, a shape and strides. *)
From Coq Require Import List Arith ZArith Bool.
Import ListNotations.
From Verif Require Import Array_Model Dot_Model.

(** [NdArrayView] (src/ndarray_ext.rs:13-16): pointer, shape, strides. *)
Record view (A : Type) := View { v_mem : list A; v_off : nat; v_shape : list nat; v_strides : list nat }.
Arguments View {A}. Arguments v_mem {A}. Arguments v_off {A}. Arguments v_shape {A}. Arguments v_strides {A}.

(** The element at an index. See dot_ops.rs:475-476, 490-513. *)
Fixpoint stride_sum (strides idx : list nat) : nat :=
  match strides, idx with
  | s :: strides, i :: idx => s * i + stride_sum strides idx
  | _, _ => 0
  end.
(** ndarray indexing of a view; see dot_ops.rs:475-476. *)
Definition vget {A} (zero : A) (v : view A) (i : list nat) : A := nth (v_off v + stride_sum (v_strides v) i) (v_mem v) zero.
(** The array a view stands for. What the view means to the caller of
    dot_ops.rs:632-695. *)
Definition contents {A} (zero : A) (v : view A) : arr A := tab (v_shape v) (vget zero v).

(** Strides of the standard (row-major) layout (ndarray: all 0 if the array is empty).
    The copies made at dot_ops.rs:444-453 have them. *)
Fixpoint row_major (sh : list nat) : list nat :=
  match sh with
  | [] => []
  | _ :: sh => prod sh :: row_major sh
  end.
(** Of an array made by [deep_copy] (src/ndarray_ext.rs:107-112), dot_ops.rs:444-453. *)
Definition std_strides (sh : list nat) : list nat := if prod sh =? 0 then repeat 0 (length sh) else row_major sh.
(** An array in standard layout, at some position of a buffer. Operands of
    dot_ops.rs:632-695 that no transposition has touched. *)
Definition standard {A} (v : view A) : Prop := v_strides v = std_strides (v_shape v).

(** [permuted_axes]: what [transpose] returns, without copying. math_ops.rs:448. *)
Definition vpermute {A} (p : list nat) (v : view A) : view A :=
  View (v_mem v) (v_off v) (map (fun k => nth k (v_shape v) 0) p) (map (fun k => nth k (v_strides v) 0) p).

(** [swap_axes(rank - 2, rank - 1)] dot_ops.rs:651-657. *)
Fixpoint swap_last {X} (l : list X) : list X :=
  match l with
  | [a; b] => [b; a]
  | x :: l => x :: swap_last l
  | [] => []
  end.
(** dot_ops.rs:651-657. *)
Definition vswap {A} (v : view A) : view A := View (v_mem v) (v_off v) (swap_last (v_shape v)) (swap_last (v_strides v)).

(** dot_ops.rs:524-531 batch_mat_mul_requires_copy; [None]: [min().unwrap()] of
    no strides panics (rank 2). *)
Definition least (l : list nat) : option nat :=
  match l with [] => None | x :: l => Some (fold_left Nat.min l x) end.
(** dot_ops.rs:524-531. *)
Definition requires_copy (strides : list nat) : option bool :=
  let r := length strides in
  match least (firstn (r - 2) strides) with
  | None => None
  | Some mn => Some ((mn <? nth (r - 2) strides 0) || (mn <? nth (r - 1) strides 0))
  end.

Section Batch.
  Context {A : Type} (zero : A) (add mul : A -> A -> A).

  (** dot_ops.rs:427-521 batch_mat_mul_impl_slow (the build without blas):
      shapes of equal rank >= 2 and equal batch dimensions.  When an operand "requires
      a copy" the strides become those of the copy, but lines 475-476 take the
      pointer of the original.  The inner dimension is the left operand's.  Batch
      [b] starts [b * (size of one matrix)] elements after the pointer.  No
      batches: division by zero; empty matrices: a step of 0; both panic.
      Reading outside the buffer (undefined behaviour) is [zero] here. *)
  Definition batch_kernel (x0 x1 : view A) : res (arr A) :=
    match requires_copy (v_strides x0), requires_copy (v_strides x1) with
    | Some c0, Some c1 =>
        let s0 := if c0 then std_strides (v_shape x0) else v_strides x0 in
        let s1 := if c1 then std_strides (v_shape x1) else v_strides x1 in
        let r := length s0 in
        let k := nth (r - 1) (v_shape x0) 0 in
        let batch := firstn (r - 2) (v_shape x0) in
        let ret := batch ++ [nth (r - 2) (v_shape x0) 0; nth (r - 1) (v_shape x1) 0] in
        let nb := prod batch in
        let size0 := prod (v_shape x0) / nb in
        let size1 := prod (v_shape x1) / nb in
        let size2 := prod ret / nb in
        if (nb =? 0) || (size0 =? 0) || (size1 =? 0) || (size2 =? 0) then Panic
        else Ok (tab ret (fun i =>
               let b := ravel batch (firstn (r - 2) i) in
               gemm zero add mul k
                 (fun i l => nth (v_off x0 + b * size0 + (i * nth (r - 2) s0 0 + l * nth (r - 1) s0 0)) (v_mem x0) zero)
                 (fun l j => nth (v_off x1 + b * size1 + (l * nth (r - 2) s1 0 + j * nth (r - 1) s1 0)) (v_mem x1) zero)
                 (nth (r - 2) i 0) (nth (r - 1) i 0)))
    | _, _ => Panic
    end.

  (** dot_ops.rs:632-695 BatchMatMul::compute *)
  Definition batch_matmul (ta tb : bool) (x0 x1 : view A) : res (arr A) :=
    let r0 := length (v_shape x0) in let r1 := length (v_shape x1) in
    if (r0 <? 2) || (r1 <? 2) then OpErr
    else let x0 := if ta then vswap x0 else x0 in
         let x1 := if tb then vswap x1 else x1 in
         if (r0 =? r1) && shape_eqb (firstn (r0 - 2) (v_shape x0)) (firstn (r0 - 2) (v_shape x1))
         then batch_kernel x0 x1
         else OpErr.

  (** dot_ops.rs:697-717 BatchMatMul::grad *)
  Definition batch_grad_a (ta tb : bool) (x0 x1 gy : view A) : res (arr A) := batch_matmul false true gy x1.
  (** dot_ops.rs:697-717: the gradient of the second operand. *)
  Definition batch_grad_b (ta tb : bool) (x0 x1 gy : view A) : res (arr A) := batch_matmul true false x0 gy.
End Batch.
