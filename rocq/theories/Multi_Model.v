(** Operations with two outputs, the tensor of an output and the gradients read from one:
    src/tensor_ops/mod.rs:545-555 and the [grad] functions of
    src/tensor_ops/xent_ops.rs, conv_ops/conv2d.rs, conv_ops/max_pool2d.rs, in graphs
    with any other operations.  Elements are reals. *)
From Coq Require Import List Arith ZArith NArith Bool Reals.
Import ListNotations.
From Verif Require Import Graph_Model Eval_Model Array_Model Arith_Model Softmax_Model Scalar_Model Tens_Model Num_Model.
From Verif Require Conv_Model Pool_Model.
Local Open Scope R_scope.

(** The operations beside arbitrary others. *)
Inductive mop (Op : Type) :=
| MSparseXent (minv : R)                  (* xent_ops.rs:63-113; [minv] is [T::min_value()] *)
| MSparseXentGrad                         (* xent_ops.rs:139-152 *)
| MXent (minv : R)                        (* xent_ops.rs:160-178 *)
| MExp                                    (* math_ops.rs:713-725 Exp *)
| MSub                                    (* binary_ops.rs SubOp, as in Arith_Model *)
| MMul                                    (* binary_ops.rs MulOp, as in Arith_Model *)
| MConv (p s d : nat)                     (* conv2d.rs:531-554 *)
| MConvGradW                              (* conv2d.rs:736-744; its fields are used by [grad] only *)
| MPool (lowest : R) (bits : N) (checked : bool) (p s size : nat)  (* max_pool2d.rs:166-227 *)
| MPoolGrad (checked : bool) (p s size : nat)                      (* max_pool2d.rs:244-279 *)
| MIdentity                               (* activation_ops.rs:170-175 *)
| MOther (o : Op).
Arguments MSparseXent {Op}. Arguments MSparseXentGrad {Op}. Arguments MXent {Op}. Arguments MExp {Op}.
Arguments MSub {Op}. Arguments MMul {Op}. Arguments MConv {Op}. Arguments MConvGradW {Op}.
Arguments MPool {Op}. Arguments MPoolGrad {Op}. Arguments MIdentity {Op}. Arguments MOther {Op}.

Section Multi.
  Context {Op Err : Type}.
  Variable other : Op -> list (opin (arr R)) -> cout (arr R) Err.
  (** [OpError::IncompatibleShape] (src/op.rs:67-73; its message is left out). *)
  Variable bad_shape : Err.
  (** What unwritten memory holds (conv2d.rs:143-148, max_pool2d.rs:34-37). *)
  Variable uninit : nat -> R.
  (** See Arith_Model. *)
  Variable at_empty : arr R -> option R.

  (** What [compute] appends, or a panic: src/op.rs:300-303 [append_output]. *)
  Definition outputs (o : option (list (arr R))) : cout (arr R) Err :=
    match o with Some ys => CRet [] ys None | None => CPanic end.
  (** What a convolution or pooling kernel leads to (conv2d.rs:545-553; an access outside
      the operands' memory, which has no defined effect, counts as a panic). *)
  Definition koutputs (r : Conv_Model.kres (list (arr R))) : cout (arr R) Err :=
    match r with
    | Conv_Model.KOk ys => CRet [] ys None
    | Conv_Model.KErr => CRet [] [] (Some bad_shape)
    | _ => CPanic
    end.
  (** xent_ops.rs:68-91: the validation of the operands. *)
  Definition xent_shapes (log_x t : arr R) : bool :=
    match a_shape log_x, a_shape t with
    | [_; _], [_] => true
    | [_; _], [_; m] => (m =? 1)%nat
    | _, _ => false
    end.
  (** xent_ops.rs:63-113 [SparseSoftmaxCrossEntropy::compute]. *)
  Definition sparse_run (minv : R) (x t : arr R) : cout (arr R) Err :=
    match log_softmax minv exp 1 x with
    | None => CPanic
    | Some log_x =>
        if xent_shapes log_x t then outputs (option_map (fun r => [fst r; snd r]) (sparse_xent minv exp x t))
        else CRet [] [] (Some bad_shape)
    end.
  (** A pair of arrays as two outputs (conv2d.rs:546-549). *)
  Definition conv_outputs (r : arr R * arr R) : Conv_Model.kres (list (arr R)) := Conv_Model.KOk [fst r; snd r].
  (** max_pool2d.rs:218-225: the pooled image and the positions, stored as elements. *)
  Definition pool_outputs (r : arr R * arr nat) : Conv_Model.kres (list (arr R)) :=
    Conv_Model.KOk [fst r; amap INR (snd r)].
  (** max_pool2d.rs:127: a stored position read as an index. *)
  Definition position (v : R) : nat := Z.to_nat (trunc v).

  (** The [compute] functions cited at [mop]: xent_ops.rs:63-178, conv2d.rs:531-554,
      736-744, max_pool2d.rs:166-279, activation_ops.rs:170-175 and the arithmetic. *)
  Definition mcompute (o : mop Op) (ins : list (opin (arr R))) : cout (arr R) Err :=
    match o, ins with
    | MSparseXent minv, x :: t :: _ => sparse_run minv (opin_val x) (opin_val t)
    | MSparseXentGrad, l :: t :: gy :: _ =>
        outputs (option_map (fun a => [a]) (sparse_xent_grad_x exp (opin_val l) (opin_val t) (opin_val gy)))
    | MXent minv, x :: t :: _ =>
        outputs (option_map (fun r => [fst r; snd r]) (softmax_xent minv exp (opin_val x) (opin_val t)))
    | MExp, x :: _ => CRet [] [amap exp (opin_val x)] None
    | MSub, x :: y :: _ => outputs (option_map (fun a => [a]) (sub_forward 0 Rminus at_empty (opin_val x) (opin_val y)))
    | MMul, x :: y :: _ => outputs (option_map (fun a => [a]) (mul_forward 0 Rmult at_empty (opin_val x) (opin_val y)))
    | MConv p s d, x :: w :: _ =>
        koutputs (Conv_Model.kbind (Conv_Model.conv2d 0 Rplus Rmult uninit p s d (opin_val x) (opin_val w)) conv_outputs)
    | MConvGradW, cols :: gy :: w :: _ =>
        koutputs (Conv_Model.kbind (Conv_Model.conv2d_filter_grad 0 Rplus Rmult uninit (opin_val cols) (opin_val gy) (opin_val w))
                    (fun a => Conv_Model.KOk [a]))
    | MPool lowest bits checked p s size, x :: _ =>
        koutputs (Conv_Model.kbind (Pool_Model.max_pool2d lowest rgtb bits uninit checked p s size (opin_val x)) pool_outputs)
    | MPoolGrad checked p s size, gy :: pos :: _ =>
        koutputs (Conv_Model.kbind (Pool_Model.max_pool2d_grad 0 Rplus checked p s size (opin_val gy) (amap position (opin_val pos)))
                    (fun a => Conv_Model.KOk [a]))
    | MIdentity, x :: _ => CRet [] [opin_val x] None
    | MOther o, _ => other o ins
    | _, _ => CPanic
    end.

  (** Readable inputs in order, backprop inputs, the operation: the chains of
      [append_input] and [append_backprop_input] of the functions below
      (src/tensor.rs:716-766). *)
  Definition node_of (g : graph (mop Op)) (xs bs : list nat) (o : mop Op) : option (graph (mop Op) * nat) :=
    build g (fold_left append_backprop_input bs (fold_left (fun b x => append_input b x false 0) xs new_builder)) o.

  (** src/tensor_ops/mod.rs:545-555 [nth_tensor]. *)
  Definition nth_tensor (g : graph (mop Op)) (x n : nat) : option (graph (mop Op) * nat) :=
    build g (append_input new_builder x false n) MIdentity.

  (** src/tensor_ops/mod.rs:1828-1840 [sparse_softmax_cross_entropy]. *)
  Definition sparse_softmax_cross_entropy (g : graph (mop Op)) (minv : R) (y t : nat) := node_of g [y; t] [] (MSparseXent minv).
  (** src/tensor_ops/mod.rs:1803-1815 [softmax_cross_entropy]. *)
  Definition softmax_cross_entropy (g : graph (mop Op)) (minv : R) (y t : nat) := node_of g [y; t] [] (MXent minv).
  (** src/tensor_ops/mod.rs:2733-2748 [conv2d]. *)
  Definition conv2d (g : graph (mop Op)) (x w p s : nat) := node_of g [x; w] [] (MConv p s 1).
  (** src/tensor_ops/mod.rs:2763-2784 [dilated_conv2d]. *)
  Definition dilated_conv2d (g : graph (mop Op)) (x w p s d : nat) := node_of g [x; w] [] (MConv p s d).
  (** src/tensor_ops/mod.rs:2869-2887 [max_pool2d]. *)
  Definition max_pool2d (g : graph (mop Op)) (lowest : R) (bits : N) (checked : bool) (x size p s : nat) :=
    node_of g [x] [] (MPool lowest bits checked p s size).

  (** xent_ops.rs:115-136 [SparseSoftmaxCrossEntropy::grad]: the gradient of the scores
      (the tensors of the labels' gradient, which are built after it, are left out). *)
  Definition sparse_xent_rule (g : graph (mop Op)) (out t gy : nat) : option (graph (mop Op) * nat) :=
    match nth_tensor g out 1 with
    | Some (g, log_x) => node_of g [log_x; t; gy] [] MSparseXentGrad
    | None => None
    end.
  (** xent_ops.rs:179-193 [SoftmaxCrossEntropy::grad]: the gradient of the scores (shape
      tensors, which do not influence values, are left out). *)
  Definition xent_rule (g : graph (mop Op)) (out t gy : nat) : option (graph (mop Op) * nat) :=
    match nth_tensor g out 1 with
    | Some (g, log_x) =>
        match node_of g [log_x] [] MExp with
        | Some (g, x) =>
            match node_of g [x; t] [] MSub with
            | Some (g, d) => node_of g [d; gy] [] MMul
            | None => None
            end
        | None => None
        end
    | None => None
    end.
  (** conv2d.rs:556-587 [Conv2D::grad]: the gradient of the filter. *)
  Definition conv_rule_w (g : graph (mop Op)) (out x w gy : nat) : option (graph (mop Op) * nat) :=
    match nth_tensor g out 1 with
    | Some (g, cols) => node_of g [cols; gy; w] [x; gy] MConvGradW
    | None => None
    end.
  (** max_pool2d.rs:229-242 [MaxPool2D::grad]. *)
  Definition pool_rule (g : graph (mop Op)) (out gy : nat) (checked : bool) (p s size : nat) : option (graph (mop Op) * nat) :=
    match nth_tensor g out 1 with
    | Some (g, pos) => node_of g [gy; pos] [] (MPoolGrad checked p s size)
    | None => None
    end.
End Multi.
