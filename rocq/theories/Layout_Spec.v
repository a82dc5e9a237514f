(** What memory layouts mean, without strides of any particular form. *)
From Coq Require Import List Arith.
Import ListNotations.
From Verif Require Import Array_Model Batch_Model.

(** The position of an element relative to the first. *)
Definition position {A} (v : view A) (i : list nat) : nat := stride_sum (v_strides v) i.
(** As many strides as axes. *)
Definition view_ok {A} (v : view A) : Prop := length (v_strides v) = length (v_shape v).
(** The elements follow one another with the last index varying fastest. *)
Definition row_major_view {A} (v : view A) : Prop :=
  forall i, in_bounds (v_shape v) i -> position v i = ravel (v_shape v) i.
(** The elements follow one another with the first index varying fastest. *)
Definition column_major_view {A} (v : view A) : Prop :=
  forall i, in_bounds (v_shape v) i -> position v i = ravel (rev (v_shape v)) (rev i).
