(** The logarithm of the gamma function and its derivative (src/tensor_ops/math_ops.rs). *)
From Coq Require Import List Reals.
Import ListNotations.
From Verif Require Import Array_Model Arith_Model.
Local Open Scope R_scope.

(** [Gamma::ln_gamma(a).0] and [Gamma::digamma(a)] of the crate `special`
    (math_ops.rs:1020, 1029, 1043). *)
Record special := Special { ln_gamma : R -> R; digamma : R -> R }.

Section Gamma.
  (** The crate's functions, whatever they are (math_ops.rs:1020). *)
  Variable lib : special.
  (** See Arith_Model. *)
  Variable at_empty : arr R -> option R.

  (** math_ops.rs:1041-1046 [Lgamma::compute]. *)
  Definition lgamma_forward (x : arr R) : arr R := amap (ln_gamma lib) x.
  (** math_ops.rs:1027-1032 [Digamma::compute]. *)
  Definition digamma_forward (x : arr R) : arr R := amap (digamma lib) x.
  (** math_ops.rs:1048-1053 [Lgamma::grad]: what the tensor supplied evaluates to. *)
  Definition lgamma_grad (gy x : arr R) : option (arr R) := mul_forward 0 Rmult at_empty gy (digamma_forward x).
  (** math_ops.rs:1034-1037 [Digamma::grad]: what it supplies. *)
  Definition digamma_rule : list (option nat) := [None].
End Gamma.
