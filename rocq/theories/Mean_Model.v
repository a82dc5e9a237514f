(** Reduction by averaging: src/tensor_ops/reduction_ops.rs:187-238 ReduceMean,
    over the real numbers except for the number of averaged elements, which the
    code computes in single precision for every element type. *)
From Coq Require Import List Arith ZArith NArith Bool Reals.
Import ListNotations.
From Verif Require Import Array_Model Arith_Model Reduce_Model.
From Verif Require Pool_Model.
Local Open Scope R_scope.

(** reduction_ops.rs:197-201: [reduction_len *= x_shape[axis as usize] as f32],
    starting from 1; an axis out of range panics.  Dimensions and products are
    rounded to 24 significant bits. *)
Definition f32_of (n : N) : N := Pool_Model.round_bits 24 n.
(** reduction_ops.rs:197-201: the loop over the axes. *)
Fixpoint mean_len_from (acc : N) (sh axes : list nat) : option N :=
  match axes with
  | [] => Some acc
  | k :: axes =>
      match nth_error sh k with
      | None => None
      | Some d => mean_len_from (f32_of (acc * f32_of (N.of_nat d))) sh axes
      end
  end.
(** reduction_ops.rs:197-201. *)
Definition mean_len (sh axes : list nat) : option N := mean_len_from 1 sh axes.

(** reduction_ops.rs:188-216 ReduceMean::compute.  Without axes the operand
    itself; a scalar's "sum" is a view of the operand and is not divided. *)
Definition reduce_mean (axes : list Z) (keep sparse : bool) (x : arr R) : option (arr R) :=
  bind (preprocess_axes (length (a_shape x)) axes sparse) (fun ax =>
    match ax with
    | [] => Some x
    | _ =>
        bind (mean_len (a_shape x) ax) (fun len =>
        bind (compute_reduce 0 Rplus 0 x ax keep) (fun sum =>
          if is_scalar_shape (a_shape x) then Some sum
          else Some (amap (fun elem => elem * (1 / IZR (Z.of_N len))) sum)))
    end).
