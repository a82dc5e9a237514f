(** [tensordot] on array graphs: the tensors it makes.

    Simplification: the five vectors that TensordotPreprocess computes from the shapes of the operands when the graph is
    evaluated (dot_ops.rs:769-791) are constants here, for operands of the given shapes; the operation has no gradients of
    its own (dot_ops.rs:793-798), so nothing flows through them. *)
From Coq Require Import List Arith ZArith.
Import ListNotations.
From Verif Require Import Array_Model Arith_Model Reduce_Model Shape_Model Dot_Model Tens_Model.

(** The two permutations, the two matrix shapes and the final shape. dot_ops.rs:769-791 TensordotPreprocess::compute. *)
Definition tdot_pre (sa sb : list nat) (za zb : list Z) : option (list nat * list nat * list nat * list nat * list nat) :=
  bind (normalize_axes (length sa) za) (fun xa =>
  bind (normalize_axes (length sb) zb) (fun xb =>
  bind (tensordot_pre sa xa false) (fun pa =>
  bind (tensordot_pre sb xb true) (fun pb =>
    let '(perm_a, new_a, free_a) := pa in
    let '(perm_b, new_b, free_b) := pb in
    Some (perm_a, perm_b, new_a, new_b, free_a ++ free_b))))).

(** src/tensor_ops/mod.rs:1941-1942: [reshape(transpose(x, perm), new_shape)]. *)
Definition as_matrix_expr (i : nat) (perm new : list nat) : expr :=
  EOp2 TReshape SNone (EOp2 (TTranspose false) SNone (EIn i) (EInts (map Z.of_nat perm))) (EInts (map Z.of_nat new)).
(** src/tensor_ops/mod.rs:1941-1946. *)
Definition tdot_expr (perm_a perm_b new_a new_b final : list nat) : expr :=
  EOp2 TReshape SNone (EOp2 (TMatMul false false) SNone (as_matrix_expr 0 perm_a new_a) (as_matrix_expr 1 perm_b new_b))
    (EInts (map Z.of_nat final)).

(** src/tensor_ops/mod.rs:1914-1947 [tensordot] of tensors [a] and [b] of shapes [sa] and [sb]. *)
Definition build_tensordot (sa sb : list nat) (za zb : list Z) (a b : nat) : tbld nat :=
  match tdot_pre sa sb za zb with
  | Some (pa, pb, na, nb, final) => build_expr [a; b] a a [] (tdot_expr pa pb na nb final)
  | None => fun _ => None
  end.
