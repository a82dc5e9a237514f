(** Elementwise arithmetic with broadcasting: src/tensor_ops/binary_ops.rs
    (built without the mkl feature).

    Element types are generic.  A shape tensor is modelled by the list of
    dimensions it holds (the code stores them as floats, as_shape,
    ndarray_ext.rs:29-31; dimensions too large to be exact floats are not
    modelled).  [None] is a panic or a returned error. *)
From Coq Require Import List Arith Bool.
Import ListNotations.
From Verif Require Import Array_Model.

(** ndarray_ext.rs:119-122 is_scalar_shape *)
Definition is_scalar_shape (sh : list nat) : bool := shape_eqb sh [] || shape_eqb sh [0].

(** array_ops.rs:107-136 InferBinOpShape::compute: the shape tensor attached to
    the result of a binary operation (mod.rs:589-651). *)
Definition infer_shape (a b : list nat) : option (list nat) :=
  if negb (is_scalar_shape a) && negb (is_scalar_shape b) then
    if length a =? length b then Some (map2 Nat.max a b) else None
  else if negb (is_scalar_shape a) then Some a
  else Some b.

Section Arith.
  Context {A : Type} (zero one : A) (add sub mul div : A -> A -> A) (neg : A -> A) (powm2 : A -> A).
  (** [x[IxDyn(&[])]]: indexing with an empty index.  On a rank-0 array it is the
      element; what ndarray does on other ranks (panic, or read the first
      element) is left open, the parameter decides. *)
  Variable at_empty : arr A -> option A.

  (** binary_ops.rs:304-347 impl_bin_op_forward (add_forward, mul_forward):
      note that the scalar is always put on the right. *)
  Definition bin_forward (op : A -> A -> A) (x0 x1 : arr A) : option (arr A) :=
    let s0 := is_scalar_shape (a_shape x0) in
    let s1 := is_scalar_shape (a_shape x1) in
    if s0 && negb s1 then
      match at_empty x0 with None => None | Some e => Some (amap (fun a => op a e) x1) end
    else if s1 && negb s0 then
      match at_empty x1 with None => None | Some e => Some (amap (fun a => op a e) x0) end
    else zip_bc zero zero op x0 x1.

  (** binary_ops.rs:147-152 AddOp::compute *)
  Definition add_forward := bin_forward add.
  (** binary_ops.rs:209-217 MulOp::compute *)
  Definition mul_forward := bin_forward mul.
  (** binary_ops.rs:168-193 SubOp::compute *)
  Definition sub_forward (x0 x1 : arr A) : option (arr A) :=
    if shape_eqb (a_shape x0) [] then
      match at_empty x0 with None => None | Some e => Some (amap (fun a => sub e a) x1) end
    else zip_bc zero zero sub x0 x1.
  (** binary_ops.rs:239-273 DivOp::compute *)
  Definition div_forward (x0 x1 : arr A) : option (arr A) :=
    if shape_eqb (a_shape x0) [] || shape_eqb (a_shape x0) [0] then
      match at_empty x0 with None => None | Some e => Some (amap (fun a => div e a) x1) end
    else if shape_eqb (a_shape x1) [] || shape_eqb (a_shape x1) [1] then
      match at_empty x1 with
      | None => None
      | Some e => Some (amap (fun a => mul a (div one e)) x0)
      end
    else zip_bc zero zero div x0 x1.

  (** ndarray_ext.rs:33-38 expand_dims *)
  Definition expand_dims (a : arr A) (k : nat) : option (arr A) :=
    if k <=? length (a_shape a) then into_shape a (insert_at k 1 (a_shape a)) else None.

  (** The loop of binary_ops.rs:70-88: [dims] are the remaining pairs of
      dimensions (original, gradient), [i] their position, [folded] the
      accumulated reduction. *)
  Fixpoint reduce_loop (gy : arr A) (dims : list (nat * nat)) (i : nat) (folded : option (arr A))
    : option (option (arr A)) :=
    match dims with
    | [] => Some folded
    | (o, g) :: dims =>
        if (o =? 1) && (1 <? g) then
          let src := match folded with Some t => t | None => gy end in
          match fold_axis zero src i zero add with
          | None => None
          | Some r => match expand_dims r i with
                      | None => None
                      | Some r => reduce_loop gy dims (S i) (Some r)
                      end
          end
        else if negb (o =? g) then None
        else reduce_loop gy dims (S i) folded
    end.

  (** binary_ops.rs:38-94 MaybeReduceSum::compute *)
  Definition maybe_reduce (orig : list nat) (gy : arr A) : option (arr A) :=
    if shape_eqb orig (a_shape gy) then Some gy
    else
      let o := if is_scalar_shape orig then repeat 1 (length (a_shape gy)) else orig in
      if shape_eqb o (a_shape gy) then into_shape gy orig
      else match reduce_loop gy (combine o (a_shape gy)) 0 None with
           | None => None
           | Some None => None
           | Some (Some r) => into_shape r orig
           end.

  (** binary_ops.rs:106-135 MaybeBroadcast::compute *)
  Definition maybe_broadcast (target : list nat) (x : arr A) : option (arr A) :=
    if shape_eqb (a_shape x) target then Some x
    else
      match (if is_scalar_shape (a_shape x) then into_shape x (repeat 1 (length target)) else Some x) with
      | None => None
      | Some x => broadcast zero x target
      end.

  (** Panics propagate through the evaluation of a rule (binary_ops.rs:195-289). *)
  Definition bind {X Y} (o : option X) (f : X -> option Y) : option Y :=
    match o with None => None | Some x => f x end.

  (** binary_ops.rs:154-166 AddOp::grad: what the two gradient tensors evaluate to. *)
  Definition add_grad (x0 x1 gy : arr A) : option (arr A) * option (arr A) :=
    (maybe_reduce (a_shape x0) gy, maybe_reduce (a_shape x1) gy).
  (** binary_ops.rs:195-207 SubOp::grad *)
  Definition sub_grad (x0 x1 gy : arr A) : option (arr A) * option (arr A) :=
    (maybe_reduce (a_shape x0) gy,
     bind (maybe_reduce (a_shape x1) gy) (fun g => Some (amap neg g))).
  (** binary_ops.rs:218-237 MulOp::grad *)
  Definition mul_grad (x0 x1 gy : arr A) : option (arr A) * option (arr A) :=
    (bind (mul_forward gy x1) (maybe_reduce (a_shape x0)),
     bind (mul_forward gy x0) (maybe_reduce (a_shape x1))).
  (** binary_ops.rs:273-289 DivOp::grad *)
  Definition div_grad (x0 x1 gy : arr A) : option (arr A) * option (arr A) :=
    (bind (div_forward gy x1) (maybe_reduce (a_shape x0)),
     bind (bind (mul_forward (amap neg x0) (amap powm2 x1)) (fun t => mul_forward t gy))
          (maybe_reduce (a_shape x1))).
  (** binary_ops.rs:96-104, 137-145: the gradients of the two helpers are each
      other. *)
  Definition maybe_reduce_grad (gy_in : arr A) (g : arr A) : option (arr A) := maybe_broadcast (a_shape gy_in) g.
  (** binary_ops.rs:139-144 MaybeBroadcast::grad. *)
  Definition maybe_broadcast_grad (x : arr A) (g : arr A) : option (arr A) := maybe_reduce (a_shape x) g.
End Arith.
