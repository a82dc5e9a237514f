(** The convolutional classifier of examples/cnn_mnist.rs.

    Simplifications: the number of convolution blocks, all sizes, paddings and
    strides are parameters; dropout is left out (the example's value at test
    time); the labels are integer constants instead of a placeholder. *)
From Coq Require Import List Arith ZArith NArith Bool Reals.
Import ListNotations.
From Verif Require Import Graph_Model Array_Model Scalar_Model Tens_Model.

(** The variables (as tensors) and parameters of one block: examples/cnn_mnist.rs:36-41. *)
Record block := Block { k_w : nat; k_b : nat; k_pad : nat; k_stride : nat; k_size : nat; k_step : nat }.

Section Net.
  (** Debug build; [T::min_value()]; precision of the floats. *)
  Variables (checked : bool) (lowest : R) (bits : N).

  (** src/tensor_ops/mod.rs:1319-1330 [reshape] to a list of sizes. *)
  Definition a_reshape (x : nat) (l : list Z) : tbld nat :=
    tbind (a_ints l) (fun s => tmk [x; s] None true TReshape).

  (** examples/cnn_mnist.rs:36-41 [conv_pool]; builders: src/tensor_ops/mod.rs:2733-2748
      conv2d, 1678-1688 relu, 2869-2887 max_pool2d. *)
  Definition conv_pool (k : block) (x : nat) : tbld nat :=
    tbind (tmk [x; k_w k] None true (TConv checked (k_pad k) (k_stride k) 1)) (fun y0 =>
    tbind (a_bin Add y0 (k_b k)) (fun y1 =>
    tbind (a_un ReLU y1) (fun y2 =>
    tmk [y2] None true (TPool lowest bits checked 0 (k_step k) (k_size k))))).
  (** examples/cnn_mnist.rs:43-47: the blocks one after the other. *)
  Fixpoint conv_pools (ks : list block) (x : nat) : tbld nat :=
    match ks with
    | [] => tret x
    | k :: ks => tbind (conv_pool k x) (conv_pools ks)
    end.

  (** examples/cnn_mnist.rs:43-51 [compute_logits]; [img] and [flat] are the sizes
      given to [reshape], [w] and [b] the last layer's variables. *)
  Definition compute_logits (ks : list block) (img flat : list Z) (x w b : nat) : tbld nat :=
    tbind (a_reshape x img) (fun x =>
    tbind (conv_pools ks x) (fun z2 =>
    tbind (a_reshape z2 flat) (fun z3 =>
    tbind (tmk [z3; w] None true (TMatMul false false)) (fun z4 => a_bin Add z4 b)))).

  (** examples/cnn_mnist.rs:97-100 [mean_loss]. *)
  Definition mean_loss (ks : list block) (img flat labels : list Z) (x w b : nat) : tbld nat :=
    tbind (compute_logits ks img flat x w b) (fun logits =>
    tbind (a_ints labels) (fun t =>
    tbind (tmk [logits; t] None true (TSparseXent lowest)) (fun loss =>
    tbind (a_ints [0%Z]) (fun ax =>
    tmk [loss; ax] None true (TReduceMean false))))).
End Net.
