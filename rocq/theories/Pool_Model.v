(** Model of max pooling: src/tensor_ops/conv_ops/max_pool2d.rs. *)
From Coq Require Import List Arith ZArith NArith Bool.
Import ListNotations.
From Verif Require Import Array_Model Conv_Model.

(** Positions are stored in an array of floats (max_pool2d.rs:74-75,
    [max_i as $t]) and converted back ([*argmax as isize], 127, 151): a number of
    more than [bits] bits (24 for f32, 53 for f64) is rounded to [bits]
    significant bits, to nearest, ties to even. *)
Definition round_bits (bits n : N) : N :=
  (if n <? 2 ^ bits then n
   else let e := N.log2 n + 1 - bits in
        let q := n / 2 ^ e in let r := n mod 2 ^ e in let half := 2 ^ (e - 1) in
        let q' := if r <? half then q else if half <? r then q + 1 else if N.even q then q else q + 1 in
        q' * 2 ^ e)%N.
(** max_pool2d.rs:74-75, 127, 151. *)
Definition float_index (bits : N) (n : nat) : nat := N.to_nat (round_bits bits (N.of_nat n)).

(** [(x + 2 * pad - size) / stride + 1] (183-184, 314-315).  [size > x + 2 * pad]
    panics: the subtraction overflows, or in release builds the wrapped size is
    more than a vector's capacity (simplification: for enormous strides it would
    not be). *)
Definition pool_out_size (x p s size : nat) : kres nat :=
  kbind (usub (x + 2 * p) size) (fun r => kbind (udiv r s) (fun q => KOk (q + 1))).

(** [i * stride - pad] on usize (43, 53): panics below zero with overflow checks,
    wraps around without. *)
Definition window_start (checked : bool) (i s p : nat) : kres Z :=
  if checked then kbind (usub (i * s) p) (fun a => KOk (Z.of_nat a))
  else KOk ((Z.of_nat (i * s) - Z.of_nat p) mod 2 ^ 64)%Z.
(** [start + size], wrapping in release builds (44-47, 54-57), cut at the image. *)
Definition window_end (checked : bool) (start : Z) (size x : nat) : Z :=
  let e := if checked then (start + Z.of_nat size)%Z else ((start + Z.of_nat size) mod 2 ^ 64)%Z in
  if (Z.of_nat x <? e)%Z then Z.of_nat x else e.
(** The rows (columns) [start..end] visited; [start * (start > 0)] is [start]
    (49, 59). *)
Definition window_range (checked : bool) (i s p size x : nat) : kres (list nat) :=
  kbind (window_start checked i s p) (fun start =>
    let e := window_end checked start size x in
    KOk (map (fun k => Z.to_nat start + k) (seq 0 (Z.to_nat (e - start))))).

(** Positions visited in the window at (i,j) of channel [c] of image [b], in
    order (61-64). *)
Definition window_positions (xh xw ch b c : nat) (rows cols : list nat) : list nat :=
  flat_map (fun h => map (fun w => w + xw * (h + xh * (c + b * ch))) cols) rows.

(** Replaces element [k]; [None] outside. max_pool2d.rs:73-75, 127. *)
Fixpoint put {A} (l : list A) (k : nat) (v : A) : option (list A) :=
  match l, k with
  | [], _ => None
  | _ :: l, O => Some (v :: l)
  | x :: l, S k => option_map (cons x) (put l k v)
  end.
(** Access outside a vector, max_pool2d.rs:73-75, 127 (unchecked pointers). *)
Definition kopt {X} (o : option X) : kres X := match o with Some x => KOk x | None => KFault end.

Section Pool.
  Context {A : Type} (zero lowest : A) (add : A -> A -> A) (gt : A -> A -> bool) (bits : N) (uninit : nat -> A).

  (** The scan of one window (51-71): [lowest] is [T::min_value()]. *)
  Fixpoint scan (data : list A) (l : list nat) (m : A * nat) : kres (A * nat) :=
    match l with
    | [] => KOk m
    | k :: l => kbind (kopt (nth_error data k)) (fun v => scan data l (if gt v (fst m) then (v, k) else m))
    end.

  (** One output (41-76): its value and position. *)
  Definition pool_window (checked : bool) (p s size ch xh xw : nat) (data : list A) (ix : list nat) : kres (A * nat) :=
    match ix with
    | [b; c; i; j] =>
        kbind (window_range checked i s p size xh) (fun rows =>
        kbind (window_range checked j s p size xw) (fun cols =>
        scan data (window_positions xh xw ch b c rows cols) (lowest, 0)))
    | _ => KPanic
    end.

  (** All outputs (38-79), written at [j + yw * (i + yh * (c + b * ch))] into
      uninitialised vectors of [batch * ch * yh * yw] elements. *)
  Definition out_index (ch yh yw : nat) (ix : list nat) : nat :=
    match ix with [b; c; i; j] => j + yw * (i + yh * (c + b * ch)) | _ => 0 end.
  (** max_pool2d.rs:38-79. *)
  Fixpoint pool_loop (checked : bool) (p s size ch xh xw yh yw : nat) (data : list A) (ixs : list (list nat)) (st : list A * list nat) : kres (list A * list nat) :=
    match ixs with
    | [] => KOk st
    | ix :: ixs =>
        kbind (pool_window checked p s size ch xh xw data ix) (fun m =>
        kbind (kopt (put (fst st) (out_index ch yh yw ix) (fst m))) (fun ys =>
        kbind (kopt (put (snd st) (out_index ch yh yw ix) (float_index bits (snd m)))) (fun is =>
        pool_loop checked p s size ch xh xw yh yw data ixs (ys, is))))
    end.

  (** MaxPool2D::compute (166-227): the pooled image and the positions (kept as
      numbers; what the uninitialised position vector holds first is immaterial,
      0 here). *)
  Definition max_pool2d (checked : bool) (p s size : nat) (x : arr A) : kres (arr A * arr nat) :=
    match a_shape x with
    | batch :: ch :: xh :: xw :: _ =>
        kbind (pool_out_size xh p s size) (fun yh =>
        kbind (pool_out_size xw p s size) (fun yw =>
        let n := batch * ch * yh * yw in
        kbind (pool_loop checked p s size ch xh xw yh yw (a_data x) (indices [batch; ch; yh; yw]) (map uninit (seq 0 n), repeat 0 n)) (fun r =>
        KOk (Arr [batch; ch; yh; yw] (fst r), Arr [batch; ch; yh; yw] (snd r)))))
    | _ => KPanic
    end.

  (** [stride * (y - 1) - 2 * pad + size] on usize (263-264). *)
  Definition pool_in_size (checked : bool) (y p s size : nat) : kres nat :=
    if checked then kbind (usub y 1) (fun y1 => kbind (usub (s * y1) (2 * p)) (fun a => KOk (a + size)))
    else KOk (Z.to_nat ((Z.of_nat s * (Z.of_nat y - 1) - 2 * Z.of_nat p + Z.of_nat size) mod 2 ^ 64)).

  (** [max_pool_grad] (111-135): adds the k-th element of [gy] to the element at
      the k-th position.  A position outside the vector is a write outside it. *)
  Fixpoint scatter (gx gy : list A) (pos : list nat) (n : nat) : kres (list A) :=
    match n with
    | O => KOk gx
    | S n =>
        match gy, pos with
        | g :: gy, k :: pos =>
            kbind (kopt (nth_error gx k)) (fun v => kbind (kopt (put gx k (add v g))) (fun gx => scatter gx gy pos n))
        | _, _ => KFault
        end
    end.
  (** MaxPool2DGrad::compute (245-279). *)
  Definition max_pool2d_grad (checked : bool) (p s size : nat) (gy : arr A) (argmax : arr nat) : kres (arr A) :=
    match a_shape gy with
    | batch :: ch :: yh :: yw :: _ =>
        kbind (pool_in_size checked yh p s size) (fun xh =>
        kbind (pool_in_size checked yw p s size) (fun xw =>
        kbind (scatter (repeat zero (batch * ch * xh * xw)) (a_data gy) (a_data argmax) (yh * yw * ch * batch)) (fun l =>
        KOk (Arr [batch; ch; xh; xw] l))))
    | _ => KPanic
    end.

  (** [max_pool_grad_grad] (137-159). *)
  Fixpoint gather_at (ggx : list A) (pos : list nat) (n : nat) : kres (list A) :=
    match n with
    | O => KOk []
    | S n =>
        match pos with
        | k :: pos => kbind (kopt (nth_error ggx k)) (fun v => kbind (gather_at ggx pos n) (fun l => KOk (v :: l)))
        | _ => KFault
        end
    end.
  (** MaxPool2DGradGrad::compute (297-331). *)
  Definition max_pool2d_grad_grad (p s size : nat) (ggx : arr A) (argmax : arr nat) : kres (arr A) :=
    match a_shape ggx with
    | batch :: ch :: xh :: xw :: _ =>
        kbind (pool_out_size xh p s size) (fun yh =>
        kbind (pool_out_size xw p s size) (fun yw =>
        kbind (gather_at (a_data ggx) (a_data argmax) (yh * yw * ch * batch)) (fun l => KOk (Arr [batch; ch; yh; yw] l))))
    | _ => KPanic
    end.

  (** The gradient MaxPool2D::grad builds (229-242): MaxPool2DGrad of the incoming
      gradient and the recorded positions. *)
  Definition max_pool2d_grad_x (checked : bool) (p s size : nat) (x gy : arr A) : kres (arr A) :=
    kbind (max_pool2d checked p s size x) (fun r => max_pool2d_grad checked p s size gy (snd r)).
End Pool.
