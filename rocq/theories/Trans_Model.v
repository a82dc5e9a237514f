(** Transposed convolutions in graphs: [conv2d_transpose], the tensors made by its [grad]
    and by the [grad] of its filter's gradient.  Elements are reals. *)
From Coq Require Import List Arith ZArith Bool Reals.
Import ListNotations.
From Verif Require Import Graph_Model Eval_Model Array_Model Scalar_Model Num_Model Multi_Model Second_Model.
From Verif Require Conv_Model.
Local Open Scope R_scope.

(** More operations; they stand in [SOther] of Second_Model. *)
Inductive trop (Op : Type) :=
| TStop                          (* gradient_ops.rs:4-16 StopGradient *)
| TFilterGrad (p s d : nat)      (* conv2d_transpose.rs:433-451 Conv2DTransposeFilterGrad *)
| TRest (o : Op).
Arguments TStop {Op}. Arguments TFilterGrad {Op}. Arguments TRest {Op}.

Section Trans.
  Context {Op Err : Type}.
  Variable other : Op -> list (opin (arr R)) -> cout (arr R) Err.
  (** See Multi_Model. *)
  Variable bad_shape : Err.
  (** See Multi_Model. *)
  Variable uninit : nat -> R.

  (** The [compute] functions cited at [trop]: gradient_ops.rs:7-11,
      conv2d_transpose.rs:434-450. *)
  Definition trcompute (o : trop Op) (ins : list (opin (arr R))) : cout (arr R) Err :=
    match o, ins with
    | TStop, x :: _ => CRet [] [opin_val x] None
    | TFilterGrad p s d, gy :: x :: w :: _ =>
        koutputs bad_shape (Conv_Model.kbind (Conv_Model.conv2d_transpose_filter_grad 0 Rplus Rmult uninit p s d (opin_val gy) (opin_val x) (opin_val w))
                              (fun a => Conv_Model.KOk [a]))
    | TRest o, _ => other o ins
    | _, _ => CPanic
    end.
End Trans.

Section Rules.
  Context {Op : Type}.
  (** The graphs: src/graph.rs:20-31. *)
  Notation gr := (graph (mop (sop (trop Op)))).

  (** src/tensor_ops/mod.rs:2834-2856 [dilated_conv2d_transpose]; 2799-2818
      [conv2d_transpose] is the case [d = 1]. *)
  Definition dilated_conv2d_transpose (g : gr) (x w : nat) (checked : bool) (p s d : nat) : option (gr * nat) :=
    node_of g [x; w] [] (MOther (STransposed checked p s d)).
  (** src/tensor_ops/mod.rs:242-252 [stop_gradient] (that it is marked as not
      differentiable is left out: no value depends on it; see C17). *)
  Definition stop_gradient (g : gr) (x : nat) : option (gr * nat) := node_of g [x] [] (MOther (SOther TStop)).
  (** conv2d_transpose.rs:274-300 [Conv2DTranspose::grad]: both gradients. *)
  Definition transposed_grads (g : gr) (x w gy p s d : nat) : option (gr * nat * nat) :=
    after (node_of g [gy; w] [] (MConv p s d)) (fun g gx =>
    after (stop_gradient g w) (fun g sw =>
    after (node_of g [gy; x; sw] [] (MOther (SOther (TFilterGrad p s d)))) (fun g gw => Some (g, gx, gw)))).
  (** conv2d_transpose.rs:452-478 [Conv2DTransposeFilterGrad::grad] called for the tensor
      [gw]: the gradients of its first and second input; the third gets none. *)
  Definition transposed_filter_rule (g : gr) (gw ggw : nat) (checked : bool) (p s d : nat) : option (gr * nat * nat) :=
    match input_of g gw 0, input_of g gw 1 with
    | Some gy, Some x =>
        after (node_of g [x; ggw] [] (MOther (STransposed checked p s d))) (fun g ggy =>
        after (node_of g [gy; ggw] [] (MConv p s d)) (fun g ggx => Some (g, ggy, ggx)))
    | _, _ => None
    end.
End Rules.
