(** The [grad] function of the operation that computes second-order gradients of max
    pooling (conv_ops/max_pool2d.rs). *)
From Coq Require Import List.
Import ListNotations.

(** max_pool2d.rs:333-336 [MaxPool2DGradGrad::grad]: what it supplies for its two inputs,
    the tensor [ggx] and the positions of the maxima, whatever comes in. *)
Definition pool_third_rule : list (option nat) := [None; None].
