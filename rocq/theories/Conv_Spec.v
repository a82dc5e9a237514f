(** Two-dimensional convolution as neural networks use it (cross-correlation
    with padding, stride and dilation), independent of the model. *)
From Coq Require Import List Arith ZArith Bool Reals.
Import ListNotations.
From Verif Require Import Array_Model Vjp_Spec Dot_Spec.
Local Open Scope R_scope.

(** Element of channel [c] of image [b] at row [r] and column [q]; 0 outside. *)
Definition pixel (x : arr R) (b c : nat) (r q : Z) : R :=
  match a_shape x with
  | [_; _; h; w] =>
      if ((0 <=? r) && (r <? Z.of_nat h) && (0 <=? q) && (q <? Z.of_nat w))%Z
      then aget 0 x [b; c; Z.to_nat r; Z.to_nat q] else 0
  | _ => 0
  end.

(** Along one axis a kernel of [k] taps, [d] apart, can be placed at [n] places,
    [s] apart, on an image of [x] pixels with [p] pixels of padding at each end. *)
Definition placements (x p s d k n : nat) : Prop :=
  forall i, (i < n <-> i * s + d * (k - 1) < x + 2 * p)%nat.

(** Row (column) of the image under tap [k] of the kernel at place [i]. *)
Definition under (p s d i k : nat) : Z := (Z.of_nat (i * s + k * d) - Z.of_nat p)%Z.

(** Output [o] of the convolution at place (i,j) of image [b]. *)
Definition correlation (xch kh kw p s d : nat) (x w : arr R) (b o i j : nat) : R :=
  sum_below xch (fun c => sum_below kh (fun ki => sum_below kw (fun kj =>
    aget 0 w [o; c; ki; kj] * pixel x b c (under p s d i ki) (under p s d j kj)))).

(** The transposed convolution: every tap adds its product to the pixel under it;
    pixel (r,q) of channel [c] of image [b]. *)
Definition transposed (ych kh kw yh yw p s d : nat) (y w : arr R) (b c r q : nat) : R :=
  sum_below ych (fun o => sum_below kh (fun ki => sum_below kw (fun kj => sum_below yh (fun i => sum_below yw (fun j =>
    if ((under p s d i ki =? Z.of_nat r) && (under p s d j kj =? Z.of_nat q))%Z
    then aget 0 w [o; c; ki; kj] * aget 0 y [b; o; i; j] else 0))))).

(** Gradient of the filter: image [x], gradient (or map) [y]; the sum over all
    placements of the kernel. *)
Definition filter_gradient (batch yh yw p s d : nat) (x y : arr R) (o c ki kj : nat) : R :=
  sum_below batch (fun b => sum_below yh (fun i => sum_below yw (fun j =>
    aget 0 y [b; o; i; j] * pixel x b c (under p s d i ki) (under p s d j kj)))).

(** Sizes for which the code's 32-bit sizes do not overflow. *)
Definition in_i32 (l : list nat) : Prop := Forall (fun n => (Z.of_nat n < 2 ^ 31)%Z) l.

(** Sizes a convolution makes sense for: positive, [yh] (yw) places along each
    axis, and no 32-bit overflow. *)
Definition conv_sizes (xch ych xh xw kh kw p s d yh yw : nat) : Prop :=
  (0 < s /\ 0 < xch /\ 0 < ych /\ 0 < xh /\ 0 < xw /\ 0 < kh /\ 0 < kw /\ 0 < yh /\ 0 < yw)%nat /\
  placements xh p s d kh yh /\ placements xw p s d kw yw /\
  in_i32 [xh + 2 * p + s; xw + 2 * p + s; xh * xw; xch * kw * kh * yh * yw; ych * yh * yw]%nat.

(** The last of [n] places ends at the end of the padded image. *)
Definition covers (x p s d k n : nat) : Prop := (s * (n - 1) + d * (k - 1) + 1 = x + 2 * p)%nat.
