(** What is assumed of the platform's elementary functions, and words for the range
    of a float. *)
From Coq Require Import ZArith Reals.
From Flocq Require Import Core BinarySingleNaN.
Local Open Scope R_scope.

Section Floats.
  Variables prec emax : Z.
  Notation float := (binary_float prec emax).

  (** A finite float with a value between [lo] and [hi]. *)
  Definition within (lo hi : R) (x : float) : Prop := is_finite x = true /\ lo <= B2R x <= hi.

  (** An input of the softmax family: a finite number, or minus infinity (masked). *)
  Definition logit (x : float) : Prop := is_finite x = true \/ x = B754_infinity true.
  (** Not positive, possibly minus infinity; never NaN. *)
  Definition nonpositive (x : float) : Prop := (is_finite x = true /\ B2R x <= 0) \/ x = B754_infinity true.
  Definition nonnegative (x : float) : Prop := (is_finite x = true /\ 0 <= B2R x) \/ x = B754_infinity false.

  (** [exp]: exact at zeros, infinities and NaN; between 0 and 1 for arguments up to 0;
      infinite where the true value is beyond the largest float. *)
  Record exp_ok (f : float -> float) : Prop := {
    exp_zero : forall s, within 1 1 (f (B754_zero s));
    exp_nan : f B754_nan = B754_nan;
    exp_minus_infinity : within 0 0 (f (B754_infinity true));
    exp_plus_infinity : f (B754_infinity false) = B754_infinity false;
    exp_nonpositive : forall x, is_finite x = true -> B2R x <= 0 -> within 0 1 (f x);
    exp_not_negative : forall x, is_finite x = true -> f x = B754_infinity false \/ (is_finite (f x) = true /\ 0 <= B2R (f x));
    exp_overflow : forall x, is_finite x = true -> bpow radix2 emax <= exp (B2R x) -> f x = B754_infinity false
  }.
  (** [ln]: not negative and not above its argument from 1 on. *)
  Record ln_ok (f : float -> float) : Prop := {
    ln_plus_infinity : f (B754_infinity false) = B754_infinity false;
    ln_from_one : forall x, is_finite x = true -> 1 <= B2R x -> within 0 (B2R x) (f x)
  }.
  Definition tanh_ok (f : float -> float) : Prop := forall x, is_nan x = false -> within (-1) 1 (f x).
End Floats.
Arguments within {prec emax}.
Arguments logit {prec emax}.
Arguments nonpositive {prec emax}.
Arguments nonnegative {prec emax}.
Arguments exp_ok {prec emax}.
Arguments ln_ok {prec emax}.
Arguments tanh_ok {prec emax}.
