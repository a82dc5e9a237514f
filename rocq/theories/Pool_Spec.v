(** Max pooling, independent of the model. *)
From Coq Require Import List Arith ZArith Reals.
Import ListNotations.
From Verif Require Import Array_Model Vjp_Spec.

(** Pixel (h,w) lies in the window at place (i,j). *)
Definition in_window (xh xw p s size i j h w : nat) : Prop :=
  h < xh /\ w < xw /\ (i * s <= h + p /\ h + p < i * s + size) /\ (j * s <= w + p /\ w + p < j * s + size).

(** [n] windows of [size] pixels, [s] apart, fit on [x] pixels with padding [p]. *)
Definition fits (x p s size n : nat) : Prop := forall i, i < n <-> i * s + size <= x + 2 * p.

(** Pixel (h,w) of channel [c] of image [b] is the first (row by row) of the
    largest pixels of the window at (i,j). *)
Definition first_max (xh xw p s size : nat) (x : arr R) (b c i j h w : nat) : Prop :=
  in_window xh xw p s size i j h w /\
  forall h' w', in_window xh xw p s size i j h' w' ->
    (aget 0 x [b; c; h'; w'] <= aget 0 x [b; c; h; w])%R /\
    (h' < h \/ h' = h /\ w' < w -> (aget 0 x [b; c; h'; w'] < aget 0 x [b; c; h; w])%R).

(** Every window has one largest pixel only. *)
Definition unique_maxima (batch ch xh xw yh yw p s size : nat) (x : arr R) : Prop :=
  forall b c i j, b < batch -> c < ch -> i < yh -> j < yw ->
  exists h w, in_window xh xw p s size i j h w /\
    forall h' w', in_window xh xw p s size i j h' w' -> (h', w') <> (h, w) -> (aget 0 x [b; c; h'; w'] < aget 0 x [b; c; h; w])%R.

(** Sizes pooling makes sense for; the last condition is that sizes fit a machine
    word. *)
Definition pool_sizes (xh xw p s size yh yw : nat) : Prop :=
  0 < s /\ 0 < size /\ 0 < yh /\ 0 < yw /\ fits xh p s size yh /\ fits xw p s size yw /\
  (Z.of_nat (2 * xh + 4 * p) < 2 ^ 64)%Z /\ (Z.of_nat (2 * xw + 4 * p) < 2 ^ 64)%Z.

(** The last of [n] windows ends at the end of the (padded) image. *)
Definition pool_covers (x p s size n : nat) : Prop := s * (n - 1) + size = x + 2 * p.
