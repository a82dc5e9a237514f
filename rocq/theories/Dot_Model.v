(** Matrix products (src/tensor_ops/dot_ops.rs). *)
From Coq Require Import List Arith ZArith Bool.
Import ListNotations.
From Verif Require Import Array_Model Arith_Model Reduce_Model Shape_Model.

(** What an operation's [compute] can do: succeed, return an [OpError], panic.
    src/op.rs:97: the result of [Op::compute]. *)
Inductive res (X : Type) := Ok (x : X) | OpErr | Panic.
Arguments Ok {X}. Arguments OpErr {X}. Arguments Panic {X}.
(** Reading a result, dot_ops.rs:565-606. *)
Definition ok {X} (r : res X) : option X := match r with Ok x => Some x | _ => None end.

Section Dot.
  Context {A : Type} (zero : A) (add mul : A -> A -> A).

  (** The external kernels [matrixmultiply::sgemm]/[dgemm] (and cblas) with alpha = 1,
      beta = 0: entry (i,j) of the product of an operand read by [a] and an operand
      read by [b] with inner dimension [k]. Called at dot_ops.rs:383-422, 498-513. *)
  Definition gemm (k : nat) (a b : nat -> nat -> A) (i j : nat) : A :=
    fold_left (fun s l => add s (mul (a i l) (b l j))) (seq 0 k) zero.

  (** Entry (i,l) of a 2-D operand whose axes may have been swapped. dot_ops.rs:383-422
      (the matrices handed to gemm). *)
  Definition mget (t : bool) (a : arr A) (i l : nat) : A := aget zero a (if t then [l; i] else [i; l]).

  (** dot_ops.rs:560-606 MatMul::compute: not 2-D panics; the inner dimensions
      must agree.  The strides passed to the kernel are the views' own, so the
      layout does not matter.  Overflow of m*n is not modelled. *)
  Definition matmul (ta tb : bool) (a b : arr A) : res (arr A) :=
    match a_shape a, a_shape b with
    | [a0; a1], [b0; b1] =>
        let m := if ta then a1 else a0 in let k := if ta then a0 else a1 in
        let k2 := if tb then b1 else b0 in let n := if tb then b0 else b1 in
        if k =? k2
        then Ok (tab [m; n] (fun i => gemm k (mget ta a) (mget tb b) (nth 0 i 0) (nth 1 i 0)))
        else OpErr
    | _, _ => Panic
    end.

  (** dot_ops.rs:608-628 MatMul::grad: the same two products whatever the
      operation's own flags are. *)
  Definition matmul_grad_a (ta tb : bool) (a b gy : arr A) : res (arr A) := matmul false true gy b.
  (** dot_ops.rs:608-628: the gradient of the second operand. *)
  Definition matmul_grad_b (ta tb : bool) (a b gy : arr A) : res (arr A) := matmul true false a gy.

  (** dot_ops.rs:723-766 tensordot_preprocess *)
  Definition free_axes (n : nat) (axes : list nat) : list nat :=
    filter (fun i => negb (existsb (Nat.eqb i) axes)) (seq 0 n).
  (** dot_ops.rs:734-739. *)
  Definition dims_at (sh : list nat) (axes : list nat) : list nat := map (fun k => nth k sh 0) axes.
  (** An axis out of range panics when the shape is indexed. dot_ops.rs:723-791. *)
  Definition tensordot_pre (sh axes : list nat) (flip : bool) : option (list nat * list nat * list nat) :=
    if forallb (fun k => k <? length sh) axes then
      let free := free_axes (length sh) axes in
      let pf := prod (dims_at sh free) in
      let pa := prod (dims_at sh axes) in
      Some (if flip then axes ++ free else free ++ axes,
            if flip then [pa; pf] else [pf; pa],
            dims_at sh free)
    else None.
  (** mod.rs:1914-1947 tensordot and dot_ops.rs:769-791 TensordotPreprocess. *)
  Definition tensordot (a b : arr A) (axes_a axes_b : list Z) : option (arr A) :=
    bind (normalize_axes (length (a_shape a)) axes_a) (fun xa =>
    bind (normalize_axes (length (a_shape b)) axes_b) (fun xb =>
    bind (tensordot_pre (a_shape a) xa false) (fun pa =>
    bind (tensordot_pre (a_shape b) xb true) (fun pb =>
      let '(perm_a, new_a, free_a) := pa in
      let '(perm_b, new_b, free_b) := pb in
      bind (transpose zero false (map Z.of_nat perm_a) a) (fun a =>
      bind (reshape (map Z.of_nat new_a) a) (fun a =>
      bind (transpose zero false (map Z.of_nat perm_b) b) (fun b =>
      bind (reshape (map Z.of_nat new_b) b) (fun b =>
      bind (ok (matmul false false a b)) (fun y =>
        reshape (map Z.of_nat (free_a ++ free_b)) y))))))))).
End Dot.
