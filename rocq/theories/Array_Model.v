(** N-dimensional arrays: the part of the ndarray crate that the operations
    use, over any element type.  An array is its shape and its elements in
    row-major order; strides and views are not modelled (an operation's result
    depends only on shape and elements). *)
From Coq Require Import List Arith Bool.
Import ListNotations.

(** src/ndarray_ext.rs:10-19 [NdArray], [NdArrayView]: [ndarray::Array<T, IxDyn>]. *)
Record arr (A : Type) := Arr { a_shape : list nat; a_data : list A }.
Arguments Arr {A}. Arguments a_shape {A}. Arguments a_data {A}.

(** Number of elements of a shape. [len()], e.g. array_ops.rs:173, dot_ops.rs:471. *)
Definition prod (sh : list nat) : nat := fold_right Nat.mul 1 sh.

(** All indices of a shape in row-major order. The order in which ndarray iterates, e.g.
    array_ops.rs:290. *)
Fixpoint indices (sh : list nat) : list (list nat) :=
  match sh with
  | [] => [[]]
  | d :: sh => flat_map (fun i => map (cons i) (indices sh)) (seq 0 d)
  end.

(** Position of an index in row-major order. Used implicitly wherever arrays are
    indexed, e.g. reduction_ops.rs:383-392. *)
Fixpoint ravel (sh idx : list nat) : nat :=
  match sh, idx with
  | _ :: sh, i :: idx => i * prod sh + ravel sh idx
  | _, _ => 0
  end.

(** Indices that do not panic, e.g. at binary_ops.rs:177. *)
Definition in_bounds (sh idx : list nat) : Prop := Forall2 (fun i d => i < d) idx sh.

(** Indexing; [d] is only returned out of bounds (a panic in ndarray). E.g.
    binary_ops.rs:177, 249. *)
Definition aget {A} (d : A) (a : arr A) (idx : list nat) : A :=
  nth (ravel (a_shape a) idx) (a_data a) d.

(** An array from a function of the index ([Array::from_shape_fn]). Used for reduction_ops.rs:146 among others; not called directly
    in /repo; the model of results computed element by element. *)
Definition tab {A} (sh : list nat) (f : list nat -> A) : arr A := Arr sh (map f (indices sh)).

(** [from_elem]. E.g. src/ndarray_ext.rs:393-407, reduction_ops.rs:146. *)
Definition full {A} (sh : list nat) (v : A) : arr A := tab sh (fun _ => v).

(** [map]/[mapv]. E.g. math_ops.rs:298, binary_ops.rs:177. *)
Definition amap {A B} (f : A -> B) (a : arr A) : arr B := Arr (a_shape a) (map f (a_data a)).

(** Elementwise combination of two arrays of the same shape. Lists in step, e.g. the
    zips of array_ops.rs:124-128 and binary_ops.rs:71-72. *)
Fixpoint map2 {A B C} (f : A -> B -> C) (l : list A) (l' : list B) : list C :=
  match l, l' with
  | x :: l, y :: l' => f x y :: map2 f l l'
  | _, _ => []
  end.

(** List edits used for shapes and indices: [Vec::insert], [Vec::remove], assignment.
    Out of range positions (panics in Rust) are left to callers. E.g.
    src/ndarray_ext.rs:36, reduction_ops.rs:486. *)
Fixpoint insert_at {A} (k : nat) (x : A) (l : list A) : list A :=
  match k, l with
  | 0, _ => x :: l
  | S k, y :: l => y :: insert_at k x l
  | S k, [] => [x]
  end.
(** E.g. reduction_ops.rs:423, math_ops.rs:551. *)
Fixpoint remove_at {A} (k : nat) (l : list A) : list A :=
  match k, l with
  | _, [] => []
  | 0, _ :: l => l
  | S k, y :: l => y :: remove_at k l
  end.
(** E.g. reduction_ops.rs:421, math_ops.rs:549. *)
Fixpoint set_at {A} (k : nat) (x : A) (l : list A) : list A :=
  match k, l with
  | _, [] => []
  | 0, _ :: l => x :: l
  | S k, y :: l => y :: set_at k x l
  end.

(** Comparing shapes, e.g. reduction_ops.rs:465, binary_ops.rs:115. *)
Definition shape_eqb (a b : list nat) : bool :=
  if list_eq_dec Nat.eq_dec a b then true else false.

(** [broadcast]: shape [from] can be read as shape [to] if it is not longer and every
    dimension, counted from the end, is equal or 1. Called at binary_ops.rs:129,
    reduction_ops.rs:490-493. *)
Fixpoint dims_ok (from to : list nat) : bool :=
  match from, to with
  | [], [] => true
  | f :: from, t :: to => ((f =? t) || (f =? 1)) && dims_ok from to
  | _, _ => false
  end.
(** When [broadcast] returns [Some], binary_ops.rs:129. *)
Definition can_broadcast (from to : list nat) : bool :=
  (length from <=? length to) && dims_ok from (skipn (length to - length from) to).
(** The element of the operand that a broadcast index reads, binary_ops.rs:129. *)
Definition bc_idx (from idx : list nat) : list nat :=
  map2 (fun d i => if d =? 1 then 0 else i) from (skipn (length idx - length from) idx).
(** ndarray [ArrayBase::broadcast], binary_ops.rs:129, reduction_ops.rs:490-493. *)
Definition broadcast {A} (d : A) (a : arr A) (to : list nat) : option (arr A) :=
  if can_broadcast (a_shape a) to
  then Some (tab to (fun i => aget d a (bc_idx (a_shape a) i)))
  else None.

(** The common shape of two operands of a binary operator ([co_broadcast]): the longer
    shape, where a 1 gives way to the other operand's dimension. ndarray, for operands
    of one rank; see binary_ops.rs:326, 335. *)
Fixpoint co_dims (a b : list nat) : option (list nat) :=
  match a, b with
  | [], [] => Some []
  | x :: a, y :: b =>
      match co_dims a b with
      | None => None
      | Some r => if x =? y then Some (x :: r)
                  else if x =? 1 then Some (y :: r)
                  else if y =? 1 then Some (x :: r) else None
      end
  | _, _ => None
  end.
(** ndarray [co_broadcast]: leading dimensions of the longer operand are kept; see
    binary_ops.rs:326, 335. *)
Definition co_broadcast (a b : list nat) : option (list nat) :=
  let k := length a - length b in
  let k' := length b - length a in
  match co_dims (skipn k a) (skipn k' b) with
  | None => None
  | Some r => Some (firstn k a ++ firstn k' b ++ r)
  end.

(** A binary operator on arrays ([&a + &b] etc.); [None]: the panic for shapes that do
    not broadcast. E.g. binary_ops.rs:186, 267, array_ops.rs:511. *)
Definition zip_bc {A B C} (da : A) (db : B) (f : A -> B -> C) (a : arr A) (b : arr B) : option (arr C) :=
  match co_broadcast (a_shape a) (a_shape b) with
  | None => None
  | Some sh => Some (tab sh (fun i => f (aget da a (bc_idx (a_shape a) i)) (aget db b (bc_idx (a_shape b) i))))
  end.

(** [zip_mut_with]: the right side is broadcast to the left side's shape. E.g.
    sgd.rs:18, adagrad.rs:12, array_ops.rs:740. *)
Definition zip_mut {A B} (da : A) (db : B) (f : A -> B -> A) (a : arr A) (b : arr B) : option (arr A) :=
  if can_broadcast (a_shape b) (a_shape a)
  then Some (tab (a_shape a) (fun i => f (aget da a i) (aget db b (bc_idx (a_shape b) i))))
  else None.

(** [into_shape] of an array in standard layout: same elements. E.g.
    array_ops.rs:201-216, binary_ops.rs:64, 90. *)
Definition into_shape {A} (a : arr A) (sh : list nat) : option (arr A) :=
  if prod (a_shape a) =? prod sh then Some (Arr sh (a_data a)) else None.

(** [fold_axis]; [None]: axis out of range (panic). E.g. reduction_ops.rs:81-88,
    binary_ops.rs:77-78. *)
Definition fold_axis {A B} (d : A) (a : arr A) (k : nat) (init : B) (f : B -> A -> B) : option (arr B) :=
  match nth_error (a_shape a) k with
  | None => None
  | Some n => Some (tab (remove_at k (a_shape a))
                        (fun j => fold_left f (map (fun i => aget d a (insert_at k i j)) (seq 0 n)) init))
  end.

(** [permuted_axes]: axis [pos] of the result is axis [p[pos]] of the operand. Helper of
    [permute]; see math_ops.rs:448. *)
Fixpoint pos_of (k : nat) (p : list nat) : nat :=
  match p with
  | [] => 0
  | x :: p => if x =? k then 0 else S (pos_of k p)
  end.
(** ndarray [permuted_axes], math_ops.rs:448. *)
Definition permute {A} (d : A) (p : list nat) (a : arr A) : arr A :=
  tab (map (fun k => nth k (a_shape a) 0) p)
      (fun j => aget d a (map (fun k => nth (pos_of k p) j 0) (seq 0 (length (a_shape a))))).
