(** What the float properties of the optimizers say. *)
From Coq Require Import ZArith List Reals.
From Flocq Require Import Core BinarySingleNaN.
From Verif Require Import Float_Spec.
Local Open Scope R_scope.

Section Floats.
  Variables prec emax : Z.
  Notation float := (binary_float prec emax).

  (** Equal numbers; the zeros of both signs count as equal. *)
  Definition same_number (x y : float) : Prop :=
    x = y \/ (is_finite x = true /\ is_finite y = true /\ B2R x = B2R y).

  (** [powf] of a number below 1 to a power of at least 1 is below 1. *)
  Definition powf_ok (powf : float -> float -> float) (b : float) : Prop :=
    forall t, is_finite t = true -> 1 <= B2R t -> is_finite (powf b t) = true /\ 0 <= B2R (powf b t) < 1.

  (** A counter holding the number [k]. *)
  Definition counts (t : float) (k : Z) : Prop := is_finite t = true /\ B2R t = IZR k.

  (** The float nearest to a real number (ties to even), without a largest exponent. *)
  Definition nearest (r : R) : R := round radix2 (SpecFloat.fexp prec emax) ZnearestE r.
End Floats.
Arguments same_number {prec emax}.
Arguments powf_ok {prec emax}.
Arguments counts {prec emax}.
