(** What the gradient checker compares, stated with shifted variables and
    derivatives. *)
From Coq Require Import List Arith Bool Reals.
Import ListNotations.
From Verif Require Import Array_Model.
Local Open Scope R_scope.

Definition with_index {A} (l : list A) : list (nat * A) := combine (seq 0 (length l)) l.
(** The variables after element [i] (in row-major order) of variable [vid] has
    moved by [t]. *)
Definition shift (env : list (arr R)) (vid i : nat) (t : R) : list (arr R) :=
  map (fun p => if (fst p =? vid)%nat
                then Arr (a_shape (snd p)) (map (fun q => if (fst q =? i)%nat then snd q + t else snd q) (with_index (a_data (snd p))))
                else snd p) (with_index env).

(** The objective [f], along that movement up to [eps], is three times
    differentiable with third derivative at most [M] in size, and its slope at
    the start is [d]. *)
Definition slope_bound (f : list (arr R) -> R) (env : list (arr R)) (vid i : nat) (eps M d : R) : Prop :=
  exists f1 f2 f3 : R -> R,
    (forall t, Rabs t <= eps ->
       derivable_pt_lim (fun t => f (shift env vid i t)) t (f1 t) /\
       derivable_pt_lim f1 t (f2 t) /\ derivable_pt_lim f2 t (f3 t) /\ Rabs (f3 t) <= M) /\
    f1 0 = d.

(** [P vid th i] holds for every element [i] of every variable [vid] that is
    paired with a gradient [th]. *)
Definition every_element {F} (variables : list nat) (ths : list (option (arr F))) (env : list (arr F))
  (P : nat -> arr F -> nat -> Prop) : Prop :=
  forall p vid th a i, nth_error variables p = Some vid -> nth_error ths p = Some (Some th) ->
    nth_error env vid = Some a -> (i < length (a_data a))%nat -> P vid th i.
(** Variables exist, gradients are arrays with one element per variable element. *)
Definition matching {F} (variables : list nat) (ths : list (option (arr F))) (env : list (arr F)) : Prop :=
  forall p vid th, nth_error variables p = Some vid -> nth_error ths p = Some th ->
    exists a t, nth_error env vid = Some a /\ th = Some t /\ length (a_data t) = length (a_data a).
