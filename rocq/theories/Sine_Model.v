(** The regression network of examples/sine.rs.

    Simplifications: the number of hidden layers and all sizes are parameters; the
    inputs are a leaf instead of the random tensor [standard_uniform(..) * 10.] (what
    that tensor holds: Sample_Model.v, C79). *)
From Coq Require Import List Arith ZArith Bool Reals.
Import ListNotations.
From Verif Require Import Graph_Model Array_Model Scalar_Model Tens_Model Lstm_Model.

(** src/tensor_ops/mod.rs:1173-1178 [mean_all], with 295-305 [size]. *)
Definition a_mean_all (x : nat) : tbld nat :=
  tbind (a_sum_all x) (fun s => tbind (tmk [x] None false TSize) (fun n => a_bin Div s n)).
(** examples/sine.rs:29-30: the hidden layers, [ws] their variables. *)
Fixpoint tanh_layers (ws : list nat) (h : nat) : tbld nat :=
  match ws with
  | [] => tret h
  | w :: ws => tbind (a_matmul h w) (fun z => tbind (a_un Tanh z) (tanh_layers ws))
  end.
(** examples/sine.rs:26-32: [t], the network and [mse]; [x] the inputs, [ws] and [last]
    the variables. *)
Definition sine_loss (x : nat) (ws : list nat) (last : nat) : tbld nat :=
  tbind (a_un Sin x) (fun t =>
  tbind (tanh_layers ws x) (fun h =>
  tbind (a_matmul h last) (fun y =>
  tbind (a_bin Sub y t) (fun d =>
  tbind (a_un Square d) a_mean_all)))).
