(** The [grad] functions of the five operations of convolution (conv_ops/conv2d.rs,
    conv_ops/conv2d_transpose.rs), which call each other when differentiating
    repeatedly. *)
From Coq Require Import List Arith ZArith Bool Reals.
Import ListNotations.
From Verif Require Import Graph_Model Eval_Model Array_Model Scalar_Model Num_Model Multi_Model Second_Model Trans_Model.
Local Open Scope R_scope.

Section Rules.
  Context {Op : Type}.
  (** The graphs: src/graph.rs:20-31. *)
  Notation gr := (graph (mop (sop (trop Op)))).

  (** conv2d.rs:599-629 [Conv2DWithCols::grad]; [cols] and [w] are the inputs of the
      tensor, [x] its first backprop input. *)
  Definition with_cols_grads (g : gr) (cols w x gy : nat) (checked : bool) (p s d : nat) : option (gr * nat * nat) :=
    after (node_of g [gy; w] [] (MOther (STransposed checked p s d))) (fun g gx =>
    after (node_of g [cols; gy; w] [x; gy] MConvGradW) (fun g gw => Some (g, gx, gw))).

  (** The rule called for the tensor [t] with gradient [gy] (src/op.rs:365-380 calls the
      [grad] of its operation): conv2d.rs:556-587, 599-629, 746-775,
      conv2d_transpose.rs:274-300, 452-478.  [p], [s], [d] are the fields that the
      operations without them in the model carry. *)
  Definition conv_rule (g : gr) (t gy : nat) (checked : bool) (p s d : nat) : option (gr * nat * nat) :=
    match nth_error g t with
    | None => None
    | Some n =>
        match n_op n, input_of g t 0, input_of g t 1 with
        | MConv p s d, Some x, Some w => conv_grads g t x w gy checked p s d
        | MOther SWithCols, Some cols, Some w =>
            match backprop_input_of g t 0 with Some x => with_cols_grads g cols w x gy checked p s d | None => None end
        | MConvGradW, _, _ => filter_grad_rule g t gy checked p s d
        | MOther (STransposed _ p s d), Some x, Some w => transposed_grads g x w gy p s d
        | MOther (SOther (TFilterGrad p s d)), _, _ => transposed_filter_rule g t gy checked p s d
        | _, _, _ => None
        end
    end.
End Rules.
