(** Operations that need an order or rounding on the elements: Clip, ClipGrad
    and SetDiff1D on real data. *)
From Coq Require Import List Arith ZArith Bool Reals.
Import ListNotations.
From Verif Require Import Array_Model Arith_Model Shape_Model.
Local Open Scope R_scope.

(** array_ops.rs:538-542 Clip::compute: [a.min(max).max(min)]. *)
Definition clip (lo hi : R) (x : arr R) : arr R := amap (fun a => Rmax (Rmin a hi) lo) x.
(** array_ops.rs:559-568 ClipGrad::compute: 1 strictly between the bounds, else 0;
    then [ret *= gy]. *)
Definition within (lo hi a : R) : R := (if Rlt_dec lo a then 1 else 0) * (if Rlt_dec a hi then 1 else 0).
(** array_ops.rs:560-568 ClipGrad::compute. *)
Definition clip_grad (lo hi : R) (x gy : arr R) : option (arr R) :=
  zip_mut 0 0 Rmult (amap (within lo hi) x) gy.

(** array_ops.rs:240-272: elements go through [to_isize], which truncates. *)
Definition truncate (a : R) : Z := if Rle_dec 0 a then Int_part a else (- Int_part (- a))%Z.
(** array_ops.rs:242-273 SetDiff1D::compute. *)
Definition setdiff1d_real (a b : list R) : list R := map IZR (setdiff1d (map truncate a) (map truncate b)).
