(** The labels' gradients of the cross entropies, and the gradients of the gradients of
    convolution and max pooling, in graphs: the rest of the [grad] functions of
    src/tensor_ops/xent_ops.rs, conv_ops/conv2d.rs and conv_ops/max_pool2d.rs.  Elements
    are reals. *)
From Coq Require Import List Arith ZArith NArith Bool Reals.
Import ListNotations.
From Verif Require Import Graph_Model Eval_Model Array_Model Reduce_Model Scalar_Model Num_Model Multi_Model.
From Verif Require Conv_Model Pool_Model.
Local Open Scope R_scope.

(** More operations beside arbitrary others; they stand in [MOther] of Multi_Model. *)
Inductive sop (Op : Type) :=
| SConst (a : arr R)                          (* const_gen_ops.rs:83-90 ConvertToTensor *)
| SSum (keep : bool)                          (* reduction_ops.rs:161-170 ReduceSum, dense axes *)
| STransposed (checked : bool) (p s d : nat)  (* conv2d_transpose.rs:249-272 *)
| SWithCols                                   (* conv2d.rs:589-598; its fields are used by [grad] only *)
| SPoolGradGrad (p s size : nat)              (* max_pool2d.rs:298-328 *)
| SOther (o : Op).
Arguments SConst {Op}. Arguments SSum {Op}. Arguments STransposed {Op}. Arguments SWithCols {Op}.
Arguments SPoolGradGrad {Op}. Arguments SOther {Op}.

Section Second.
  Context {Op Err : Type}.
  Variable other : Op -> list (opin (arr R)) -> cout (arr R) Err.
  (** See Multi_Model. *)
  Variable bad_shape : Err.
  (** See Multi_Model. *)
  Variable uninit : nat -> R.

  (** The [compute] functions cited at [sop]: const_gen_ops.rs:83-90,
      reduction_ops.rs:161-170, conv2d_transpose.rs:249-272, conv2d.rs:589-598,
      max_pool2d.rs:298-328. *)
  Definition scompute (o : sop Op) (ins : list (opin (arr R))) : cout (arr R) Err :=
    match o, ins with
    | SConst a, _ => CRet [] [a] None
    | SSum keep, x :: axes :: _ =>
        outputs (option_map (fun a => [a]) (reduce 0 Rplus 0 (map trunc (a_data (opin_val axes))) keep false (opin_val x)))
    | STransposed checked p s d, gy :: w :: _ =>
        koutputs bad_shape (Conv_Model.kbind (Conv_Model.conv2d_transpose 0 Rplus Rmult uninit checked p s d (opin_val gy) (opin_val w))
                              (fun a => Conv_Model.KOk [a]))
    | SWithCols, cols :: w :: _ =>
        koutputs bad_shape (Conv_Model.kbind (Conv_Model.conv2d_with_cols 0 Rplus Rmult uninit (opin_val cols) (opin_val w))
                              (fun a => Conv_Model.KOk [a]))
    | SPoolGradGrad p s size, ggx :: pos :: _ =>
        koutputs bad_shape (Conv_Model.kbind (Pool_Model.max_pool2d_grad_grad p s size (opin_val ggx) (amap position (opin_val pos)))
                              (fun a => Conv_Model.KOk [a]))
    | SOther o, _ => other o ins
    | _, _ => CPanic
    end.
End Second.

Section Rules.
  Context {Op : Type}.
  (** The graphs: src/graph.rs:20-31. *)
  Notation gr := (graph (mop (sop Op))).
  (** [let x = …;] of the [grad] functions: build a tensor and go on in the larger graph
      (src/tensor.rs:716-766). *)
  Definition after {X} (r : option (gr * nat)) (k : gr -> nat -> option X) : option X :=
    match r with Some (g, t) => k g t | None => None end.

  (** src/tensor.rs:925-939: the tensor of an array of integers. *)
  Definition as_tensor (g : gr) (l : list Z) := node_of g [] [] (MOther (SConst (Arr [length l] (map IZR l)))).
  (** src/tensor_ops/mod.rs:1195-1210 [reduce_sum]. *)
  Definition reduce_sum (g : gr) (x : nat) (axes : list Z) (keep : bool) : option (gr * nat) :=
    after (as_tensor g axes) (fun g ax => node_of g [x; ax] [] (MOther (SSum keep))).

  (** xent_ops.rs:115-136 [SparseSoftmaxCrossEntropy::grad]: both gradients (shape tensors
      are left out). *)
  Definition sparse_xent_grads (g : gr) (out t gy : nat) : option (gr * nat * nat) :=
    after (nth_tensor g out 1) (fun g log_x =>
    after (node_of g [log_x; t; gy] [] MSparseXentGrad) (fun g gx1 =>
    after (node_of g [log_x] [] MExp) (fun g x =>
    after (node_of g [x; log_x] [] MMul) (fun g p =>
    after (reduce_sum g p [1%Z] true) (fun g sum =>
    after (node_of g [x; gy] [] MMul) (fun g xg =>
    after (node_of g [sum; log_x] [] MSub) (fun g d =>
    after (node_of g [xg; d] [] MMul) (fun g gx2 => Some (g, gx1, gx2))))))))).
  (** xent_ops.rs:179-202 [SoftmaxCrossEntropy::grad]: both gradients (shape tensors are
      left out). *)
  Definition xent_grads (g : gr) (out t gy : nat) : option (gr * nat * nat) :=
    after (nth_tensor g out 1) (fun g log_x =>
    after (node_of g [log_x] [] MExp) (fun g x =>
    after (node_of g [x; t] [] MSub) (fun g xt =>
    after (node_of g [xt; gy] [] MMul) (fun g gx1 =>
    after (node_of g [x; log_x] [] MMul) (fun g p =>
    after (reduce_sum g p [(-1)%Z] true) (fun g sum =>
    after (node_of g [sum; log_x] [] MSub) (fun g d =>
    after (node_of g [gy; d] [] MMul) (fun g e =>
    after (node_of g [e; out] [] MMul) (fun g gx2 => Some (g, gx1, gx2)))))))))).

  (** conv2d.rs:556-587 [Conv2D::grad]: both gradients. *)
  Definition conv_grads (g : gr) (out x w gy : nat) (checked : bool) (p s d : nat) : option (gr * nat * nat) :=
    after (node_of g [gy; w] [] (MOther (STransposed checked p s d))) (fun g gx =>
    after (conv_rule_w g out x w gy) (fun g gw => Some (g, gx, gw))).
  (** conv2d.rs:746-775 [Conv2DFilterGrad::grad]; [cols] and [gy] are the first two inputs
      of the tensor, [x] its first backprop input. *)
  Definition filter_grads (g : gr) (cols gy x ggw : nat) (checked : bool) (p s d : nat) : option (gr * nat * nat) :=
    after (node_of g [gy; ggw] [] (MOther (STransposed checked p s d))) (fun g gx =>
    after (node_of g [cols; ggw] [x; ggw] (MOther SWithCols)) (fun g ggy => Some (g, gx, ggy))).
  (** max_pool2d.rs:281-294 [MaxPool2DGrad::grad]; [pos] is the second input of the
      tensor. *)
  Definition pool_grad_rule (g : gr) (pos ggx : nat) (p s size : nat) : option (gr * nat) :=
    node_of g [ggx; pos] [] (MOther (SPoolGradGrad p s size)).

  (** src/op.rs:404-411 [GradientContext::input] for operations. *)
  Definition input_of (g : gr) (t i : nat) : option nat :=
    match nth_error g t with Some n => option_map in_id (nth_error (n_inputs n) i) | None => None end.
  (** src/tensor.rs:358-361 [Tensor::get_backprop_input]. *)
  Definition backprop_input_of (g : gr) (t i : nat) : option nat :=
    match nth_error g t with Some n => option_map in_id (nth_error (get_backprop_inputs n) i) | None => None end.
  (** conv2d.rs:746-775: the rule called for the tensor [gw]. *)
  Definition filter_grad_rule (g : gr) (gw ggw : nat) (checked : bool) (p s d : nat) : option (gr * nat * nat) :=
    match input_of g gw 0, input_of g gw 1, backprop_input_of g gw 0 with
    | Some cols, Some gy, Some x => filter_grads g cols gy x ggw checked p s d
    | _, _, _ => None
    end.
  (** max_pool2d.rs:281-294: the rule called for the tensor [gx]. *)
  Definition pool_second_rule (g : gr) (gx ggx : nat) (p s size : nat) : option (gr * nat) :=
    match input_of g gx 1 with Some pos => pool_grad_rule g pos ggx p s size | None => None end.
End Rules.
