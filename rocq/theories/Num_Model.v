(** Shapes, axes and indices stored as floats: every tensor of the library holds
    an array of floats (src/tensor.rs, ndarray_ext.rs:10-31); a shape is a vector
    of floats that operations convert back to integers where they need one
    (to_usize, to_isize).  Tens_Model keeps such tensors as integer vectors; here
    they are arrays like all others, and the optimizers of Opt_Model run on the
    same arrays. *)
From Coq Require Import String List Arith ZArith NArith Bool Reals.
Import ListNotations.
From Verif Require Import Array_Model Graph_Model Eval_Model Var_Model Pool_Model Scalar_Model Tens_Model Opt_Model.
Local Open Scope R_scope.

(** [Float::to_isize], [to_usize]: towards zero. E.g. array_ops.rs:111-112, 190. *)
Definition trunc (r : R) : Z := if Rle_dec 0 r then Int_part r else (- Int_part (- r))%Z.

(** Which operands an operation converts to integers, by position
    (array_ops.rs:107-142, 187-240, 353-384, 401-473, 831-882; const_gen_ops.rs:27-81;
    binary_ops.rs:39-146; reduction_ops.rs:139-184, 459-512 and ndarray_ext.rs:67-80;
    math_ops.rs:426-466; xent_ops.rs:64-158). *)
Definition int_operands (o : top) : list bool :=
  match o with
  | TInferShape => [true; true]
  | TZeros | TOnes => [true]
  | TMaybeReduceSum | TMaybeBroadcast | TSumAllGrad | TReduceSum _ | TReshape | TTranspose _
  | TReduceMean _ | TReduceProd _ | TReduceExt _ _ _ | TExpandDims | TSqueeze
  | TSparseXent _ | TXentLog _ | TSparseXentGrad => [false; true]
  | TReduceGrad _ => [false; true; true]
  | TGather _ _ | TGatherGrad _ => [true]
  | _ => []
  end.
(** Operations that Tens_Model has in two versions are one operation here. Gather:
    array_ops.rs:353-384; ReduceProd: reduction_ops.rs:241-253; ConvertToTensor:
    const_gen_ops.rs:83-90. *)
Definition num_op (o : top) : top :=
  match o with
  | TConstI l => TConst (vecR l)
  | TGatherI => TGather true 0
  | TProdI => TReduceProd false
  | _ => o
  end.
(** Reading operands. Integers are read from vectors; simplification: other ranks are
    outside the model. ndarray_ext.rs:29-31 [as_shape]; array_ops.rs:111-112. *)
Definition as_ints (a : arr R) : option tv :=
  match a_shape a with [_] => Some (TI (map trunc (a_data a))) | _ => None end.
(** [ctx.input(i)] of the operations cited at [int_operands], e.g. array_ops.rs:107-112.
    *)
Fixpoint operands (ks : list bool) (vs : list (arr R)) : option (list tv) :=
  match vs with
  | [] => Some []
  | a :: vs =>
      match (if hd false ks then as_ints a else Some (TA a)), operands (tl ks) vs with
      | Some v, Some l => Some (v :: l)
      | _, _ => None
      end
  end.

Section Num.
  (** The float next to an integer: [T::from(n)] (array_ops.rs:149-151
      shape_of_view, 127, 176). *)
  Variable rnd : Z -> Z.

  (** Integer results become floats; numbers computed from them by float arithmetic are
      not rounded (simplification). ndarray_ext.rs:125-146 [shape_of_view],
      [shape_of]. *)
  Definition encode (v : tv) : arr R :=
    match v with TA a => a | TI l => vecR (map rnd l) end.
  (** [Op::compute] of the operations cited at [int_operands], on floats (e.g.
      array_ops.rs:107-142). *)
  Definition num_value (o : top) (vs : list (arr R)) : option (arr R) :=
    match o, vs with
    | TSize, [a] => Some (Arr [] [IZR (rnd (Z.of_nat (prod (a_shape a))))])
    | TConstI l, [] => Some (vecR (map rnd l))
    | _, _ => match operands (int_operands (num_op o)) vs with
              | Some l => option_map encode (tcompute (num_op o) l)
              | None => None
              end
    end.

  (** The operations of a training program: those of Tens_Model and the updates of the
      optimizers. src/tensor_ops and src/tensor_ops/gradient_descent_ops/mod.rs:1-4.
      *)
  Inductive nop := NTens (o : top) | NOpt (o : opt_op).
  (** src/op.rs:96-97 for these operations. *)
  Definition num_compute (powf : R -> R -> R) (o : nop) (xs : list (opin (arr R))) : cout (arr R) unit :=
    match o with
    | NTens o => match num_value o (map opin_val xs) with
                 | Some a => CRet [] [a] None
                 | None => CPanic
                 end
    | NOpt o => opt_compute powf o xs
    end.
End Num.

(** A graph of Tens_Model as part of a training program. src/tensor.rs:408-441: the same
    node. *)
Definition num_node (n : node top) : node nop :=
  Node (NTens (n_op n)) (n_inputs n) (n_rank n) (n_shape n) (n_ph n) (n_diff n) (n_backprop n) (n_known n) (n_var n).
(** src/graph.rs:17-20: the same graph. *)
Definition num_graph (g : tgraph) : graph nop := map num_node g.

(** Rounding to floats with [bits] significant bits (24 for f32, 53 for f64). *)
Definition float_int (bits : N) (z : Z) : Z := (Z.sgn z * Z.of_N (round_bits bits (Z.abs_N z)))%Z.
