(** The language model of examples/lstm_lm.rs.

    Simplifications: batch size, number of steps, vector dimension and vocabulary
    are parameters; the sentences are integer constant vectors (one per position,
    holding that word of every sentence) instead of columns sliced from a
    placeholder, so [gather] returns a matrix and [squeeze] of the column's unit
    axis is left out. *)
From Coq Require Import List Arith ZArith Bool Reals.
Import ListNotations.
From Verif Require Import Graph_Model Array_Model Shape_Model Scalar_Model Tens_Model.

(** The variables, as tensors: examples/lstm_lm.rs:54-81. *)
Record lstm := Lstm { v_table : nat; v_wx : nat; v_wh : nat; v_b : nat; v_pred : nat }.

(** src/tensor_ops/mod.rs:1870-1882 [matmul], 2171-2196 [slice], 2290-2305 [gather]. *)
Definition a_matmul (x y : nat) : tbld nat := tmk [x; y] None true (TMatMul false false).
(** src/tensor_ops/mod.rs:2171-2196 [slice]. *)
Definition a_slice (x : nat) (starts ends : list Z) : tbld nat :=
  match user_slice starts ends with
  | Some sl => tmk [x] None true (TSlice sl)
  | None => fun _ => None
  end.
(** src/tensor_ops/mod.rs:2290-2305 [gather]. *)
Definition a_gather (param indices : nat) (axis : Z) : tbld nat :=
  tmk [indices; param] None true (TGather false axis).
(** src/tensor_ops/mod.rs:831-847 [add_n], of any number of tensors. *)
Definition a_sum_of (xs : list nat) : tbld nat :=
  match xs with
  | [] => fun _ => None
  | [x] => tret x
  | _ => a_add_n xs
  end.
(** src/tensor_ops/mod.rs:1828-1840 [sparse_softmax_cross_entropy]. *)
Definition a_sparse_xent (lowest : R) (logits labels : nat) : tbld nat :=
  tmk [logits; labels] None true (TSparseXent lowest).

(** One element popped from [hs] or [cells], zeros in the shape of [x] if there is
    none: examples/lstm_lm.rs:30-34. *)
Definition popped (x : nat) (last : option nat) : tbld nat :=
  match last with Some t => tret t | None => a_zeros_like x end.

(** examples/lstm_lm.rs:22-52 [LSTM::step]; returns [(h, cell)], the new last
    elements of [hs] and [cells]. *)
Definition lstm_step (v : lstm) (dim : nat) (x : nat) (last : option (nat * nat)) : tbld (nat * nat) :=
  let size := Z.of_nat dim in
  tbind (popped x (option_map fst last)) (fun last_output =>
  tbind (popped x (option_map snd last)) (fun last_cell =>
  tbind (a_matmul x (v_wx v)) (fun xw =>
  tbind (a_matmul last_output (v_wh v)) (fun hw =>
  tbind (a_bin Add xw hw) (fun xh0 =>
  tbind (a_bin Add xh0 (v_b v)) (fun xh =>
  tbind (a_slice xh [0; 0 * size]%Z [-1; 1 * size]%Z) (fun i =>
  tbind (a_slice xh [0; 1 * size]%Z [-1; 2 * size]%Z) (fun f =>
  tbind (a_slice xh [0; 2 * size]%Z [-1; 3 * size]%Z) (fun c =>
  tbind (a_slice xh [0; 3 * size]%Z [-1; 4 * size]%Z) (fun o =>
  tbind (a_un Sigmoid f) (fun sf =>
  tbind (a_bin Mul sf last_cell) (fun kept =>
  tbind (a_un Sigmoid i) (fun si =>
  tbind (a_un Tanh c) (fun tc =>
  tbind (a_bin Mul si tc) (fun added =>
  tbind (a_bin Add kept added) (fun cell =>
  tbind (a_un Sigmoid o) (fun so =>
  tbind (a_un Tanh cell) (fun th =>
  tbind (a_bin Mul so th) (fun h =>
  tret (h, cell)))))))))))))))))))).

(** examples/lstm_lm.rs:106-116: the losses of all steps. [words] has one vector
    per position of the sentences. *)
Fixpoint lstm_losses (lowest : R) (v : lstm) (dim : nat) (last : option (nat * nat)) (words : list (list Z)) : tbld (list nat) :=
  match words with
  | cur :: ((next :: _) as rest) =>
      tbind (a_ints cur) (fun cur_id =>
      tbind (a_ints next) (fun next_id =>
      tbind (a_gather (v_table v) cur_id 0) (fun x =>
      tbind (lstm_step v dim x last) (fun hc =>
      tbind (a_matmul (fst hc) (v_pred v)) (fun prediction =>
      tbind (a_sparse_xent lowest prediction next_id) (fun loss =>
      tbind (lstm_losses lowest v dim (Some hc) rest) (fun losses =>
      tret (loss :: losses))))))))
  | _ => tret []
  end.
(** examples/lstm_lm.rs:119. *)
Definition lstm_loss (lowest : R) (v : lstm) (dim : nat) (words : list (list Z)) : tbld nat :=
  tbind (lstm_losses lowest v dim None words) a_sum_of.
