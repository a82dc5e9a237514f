(** What random tensors should hold over several evaluations, stated without the model's
    generators in graphs. *)
From Coq Require Import String List Arith ZArith Bool Reals.
Import ListNotations.
From Verif Require Import Graph_Model Eval_Model Eval_Spec Eval_Proofs Array_Model Sample_Model Rand_Spec.
Local Open Scope R_scope.

(** [d] is how operation [k] draws one element. *)
Inductive draws_by {Rng : Type} (dist : distribution -> option (Rng -> R * Rng)) (uniform : Rng -> R * Rng)
  : random_op -> (Rng -> R * Rng) -> Prop :=
| by_normal m s d : dist (DNormal m s) = Some d -> draws_by dist uniform (RandomNormal m s) d
| by_uniform a b d : dist (DUniform a b) = Some d -> draws_by dist uniform (RandomUniform a b) d
| by_standard_normal d : dist (DNormal 0 1) = Some d -> draws_by dist uniform StandardNormal d
| by_standard_uniform : draws_by dist uniform StandardUniform uniform
| by_bernoulli p d :
    (forall r, snd (d r) = snd (uniform r)) ->
    (forall r, (fst (uniform r) < p -> fst (d r) = 1) /\ (~ fst (uniform r) < p -> fst (d r) = 0)) ->
    draws_by dist uniform (Bernoulli p) d
| by_exponential l d : dist (DExp l) = Some d -> draws_by dist uniform (Exponential l) d
| by_log_normal m s d : dist (DLogNormal m s) = Some d -> draws_by dist uniform (LogNormal m s) d
| by_gamma k s d : dist (DGamma k s) = Some d -> draws_by dist uniform (Gamma k s) d.

(** [x] holds the dimensions [sh] (fractions are cut off). *)
Definition holds_dims (x : arr R) (sh : list nat) : Prop :=
  Forall2 (fun v n => (INR n <= v \/ n = 0%nat /\ -1 < v) /\ v < INR n + 1) (a_data x) sh.

(** The samples number [from], [from + 1], ... drawn with [d] when the generator starts
    in state [r], as an array. *)
Definition samples {Rng} (d : Rng -> R * Rng) (r : Rng) (from : nat) (sh : list nat) (a : arr R) : Prop :=
  a_shape a = sh /\ length (a_data a) = prod sh /\
  forall i, (i < prod sh)%nat -> nth_error (a_data a) i = Some (draw d (from + i) r).

(** Evaluations that can be asked for. *)
Fixpoint legal {Rng Op} (g : graph (sop Rng Op)) (qs : list (request Rng Op)) : Prop :=
  match qs with
  | [] => True
  | q :: qs => wf_graph (g ++ rq_more q) /\ in_range (g ++ rq_more q) (rq_targets q) /\ legal (g ++ rq_more q) qs
  end.
(** All tensors existing at evaluation [j]. *)
Definition tensors_at {Rng Op} (g : graph (sop Rng Op)) (qs : list (request Rng Op)) (j : nat) : graph (sop Rng Op) :=
  g ++ concat (map rq_more (firstn (S j) qs)).
Definition total (l : list nat) : nat := fold_right Nat.add 0%nat l.
