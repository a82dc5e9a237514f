(** Which integers floats hold exactly, and graphs in which only such integers
    occur as shapes, axes, indices and sizes. *)
From Coq Require Import String List Arith ZArith NArith Bool Reals.
Import ListNotations.
From Verif Require Import Array_Model Graph_Model Eval_Model Eval_Spec Tens_Model Tens_Spec.

Definition exact_in (rnd : Z -> Z) (ls : nat -> list nat) (g : tgraph) : Prop :=
  (forall i l, nth_error (ttypes ls g) i = Some (Some (TyI l)) -> forall z, In z l -> rnd z = z) /\
  (forall i n inc sh, nth_error g i = Some n -> n_op n = TSize -> In inc (n_inputs n) -> shaped ls g (in_id inc) sh ->
     rnd (Z.of_nat (prod sh)) = Z.of_nat (prod sh)).

(** The same for the types of graphs with lookups ([wtypes], Tens_Spec). *)
Definition exact_inx (lax : bool) (rnd : Z -> Z) (ls : nat -> list nat) (g : tgraph) : Prop :=
  (forall i l, nth_error (wtypes lax ls g) i = Some (Some (TyI l)) -> forall z, In z l -> rnd z = z) /\
  (forall i n inc sh, nth_error g i = Some n -> n_op n = TSize -> In inc (n_inputs n) ->
     nth_error (wtypes lax ls g) (in_id inc) = Some (Some (TyA sh)) -> rnd (Z.of_nat (prod sh)) = Z.of_nat (prod sh)).

(** The variables and feeds hold the leaf values [rho]. *)
Definition leaf_arrays (g : tgraph) (feeds : list (ph_key * arr R)) (env : list (arr R)) (rho : nat -> arr R) : Prop :=
  forall i n, nth_error g i = Some n -> n_op n = TLeaf ->
    (exists vid, n_var n = Some vid /\ n_ph n = None /\ nth_error env vid = Some (rho i)) \/
    (n_var n = None /\ fed a_shape feeds i n (rho i)).
