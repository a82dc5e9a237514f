(** What a gradient of an array operation has to be: the vector-Jacobian
    product, stated with the real derivative in every direction.  Independent of
    the models of the operations. *)
From Coq Require Import List Arith Bool Reals.
Import ListNotations.
From Verif Require Import Array_Model.
Local Open Scope R_scope.

(** A well-formed array of the given shape. *)
Definition has_shape (sh : list nat) (a : arr R) : Prop :=
  a_shape a = sh /\ length (a_data a) = prod sh.

(** Inner product: the sum over all positions of the products. *)
Definition dot (a b : arr R) : R := fold_right Rplus 0 (map2 Rmult (a_data a) (a_data b)).

(** [x + t*v], elementwise. *)
Definition step (x v : arr R) (t : R) : arr R := Arr (a_shape x) (map2 (fun a b => a + t * b) (a_data x) (a_data v)).

(** [gx] is the gradient with respect to [x] of the function [F] at [x] when the
    gradient with respect to its result is [gy]: it has [x]'s shape, and for
    every direction [v] the derivative of [dot gy (F (x + t*v))] at [t = 0] is
    [dot gx v]. *)
Definition vjp (F : arr R -> option (arr R)) (x gy gx : arr R) : Prop :=
  has_shape (a_shape x) gx /\
  forall v, has_shape (a_shape x) v ->
    exists f : R -> arr R,
      (forall t, F (step x v t) = Some (f t) /\ has_shape (a_shape gy) (f t)) /\
      derivable_pt_lim (fun t => dot gy (f t)) 0 (dot gx v).
