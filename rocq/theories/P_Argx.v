(** Property C43: argmax and argmin. *)
From Coq Require Import List Arith ZArith Bool Reals Lia Lra.
Import ListNotations.
From Verif Require Import Array_Model Array_Proofs Vjp_Spec Vjp_Proofs Argx_Model Argx_Proofs.

Lemma axis_0 axz n : (axz = 0 \/ axz = - Z.of_nat (S n))%Z -> normalize_axis axz (S n) = Some 0.
Proof.
  unfold normalize_axis. intros [->| ->]; [reflexivity|].
  destruct (Z.ltb_spec (- Z.of_nat (S n)) 0); [|lia].
  replace (Z.of_nat (S n) + - Z.of_nat (S n))%Z with 0%Z by lia. reflexivity.
Qed.

(** The value-finding part: the extremum of a line is attained. *)
Lemma first_max_of f d n : (forall k, k < n -> (d <= f k)%R) -> 0 < n ->
  exists k, first_max f n k /\ first_eq f (fold_left Rmax (map f (seq 0 n)) d) n k.
Proof.
  intros Hd Hn. destruct (fold_max f d n Hd Hn) as (H1 & Hex). destruct (first_eq_exists f _ n Hex) as (k & Hk).
  exists k. split; auto. destruct Hk as (K1 & K2 & K3). split; auto. split.
  - intros k' Hk'. rewrite K2. auto.
  - intros k' Hk'. specialize (K3 k' Hk'). rewrite K2. assert (L : (f k' <= fold_left Rmax (map f (seq 0 n)) d)%R) by (apply H1; lia).
    destruct L; [auto|contradiction].
Qed.
Lemma first_min_of f d n : (forall k, k < n -> (f k <= d)%R) -> 0 < n ->
  exists k, first_min f n k /\ first_eq f (fold_left Rmin (map f (seq 0 n)) d) n k.
Proof.
  intros Hd Hn. destruct (fold_min f d n Hd Hn) as (H1 & Hex). destruct (first_eq_exists f _ n Hex) as (k & Hk).
  exists k. split; auto. destruct Hk as (K1 & K2 & K3). split; auto. split.
  - intros k' Hk'. rewrite K2. auto.
  - intros k' Hk'. specialize (K3 k' Hk'). rewrite K2. assert (L : (fold_left Rmin (map f (seq 0 n)) d <= f k')%R) by (apply H1; lia).
    destruct L; [auto|]. exfalso; apply K3; auto.
Qed.

(** Along the first axis (also of a vector): the first position of the largest element.
    [lowest] is the smallest number of the element type. *)
Theorem C43_argmax_first_axis :
  forall (lowest : R) (keep : bool) (axis : Z) (x : arr R) (n : nat) (rest : list nat),
  has_shape (n :: rest) x -> 0 < n -> (axis = 0 \/ axis = - Z.of_nat (S (length rest)))%Z ->
  (forall i, in_bounds (n :: rest) i -> (lowest <= aget 0%R x i)%R) ->
  exists r, argx Rmax lowest keep axis x = Some r /\ has_shape (if keep then 1 :: rest else rest) r /\
    forall j, in_bounds rest j -> exists k,
      first_max (fun k => aget 0%R x (k :: j)) n k /\ aget 0%R r (if keep then 0 :: j else j) = INR k.
Proof.
  intros lowest keep axis x n rest Hx Hn Ha Hlow. apply has_shape_wf in Hx. destruct Hx as [Hs Hw].
  destruct (argx_axis0 Rmax lowest x axis keep n rest Hs Hn (axis_0 _ _ Ha)) as (r & Hr & Hrs & Hv).
  exists r. split; auto. split; auto. intros j Hj.
  destruct (first_max_of (fun k => aget 0%R x (k :: j)) lowest n) as (k & K1 & K2); auto.
  { intros k Hk. apply Hlow. constructor; auto. }
  exists k. split; auto.
Qed.
Print Assumptions C43_argmax_first_axis.

Theorem C43_argmin_first_axis :
  forall (highest : R) (keep : bool) (axis : Z) (x : arr R) (n : nat) (rest : list nat),
  has_shape (n :: rest) x -> 0 < n -> (axis = 0 \/ axis = - Z.of_nat (S (length rest)))%Z ->
  (forall i, in_bounds (n :: rest) i -> (aget 0%R x i <= highest)%R) ->
  exists r, argx Rmin highest keep axis x = Some r /\ has_shape (if keep then 1 :: rest else rest) r /\
    forall j, in_bounds rest j -> exists k,
      first_min (fun k => aget 0%R x (k :: j)) n k /\ aget 0%R r (if keep then 0 :: j else j) = INR k.
Proof.
  intros highest keep axis x n rest Hx Hn Ha Hlow. apply has_shape_wf in Hx. destruct Hx as [Hs Hw].
  destruct (argx_axis0 Rmin highest x axis keep n rest Hs Hn (axis_0 _ _ Ha)) as (r & Hr & Hrs & Hv).
  exists r. split; auto. split; auto. intros j Hj.
  destruct (first_min_of (fun k => aget 0%R x (k :: j)) highest n) as (k & K1 & K2); auto.
  { intros k Hk. apply Hlow. constructor; auto. }
  exists k. split; auto.
Qed.
Print Assumptions C43_argmin_first_axis.

(** Along the rows of a matrix. *)
Theorem C43_argmax_rows :
  forall (lowest : R) (keep : bool) (axis : Z) (x : arr R) (r c : nat),
  has_shape [r; c] x -> 0 < c -> (axis = 1 \/ axis = -1)%Z ->
  (forall i, in_bounds [r; c] i -> (lowest <= aget 0%R x i)%R) ->
  exists y, argx Rmax lowest keep axis x = Some y /\ has_shape (if keep then [r; 1] else [r]) y /\
    forall i, i < r -> exists k,
      first_max (fun k => aget 0%R x [i; k]) c k /\ aget 0%R y (if keep then [i; 0] else [i]) = INR k.
Proof.
  intros lowest keep axis x r c Hx Hn Ha Hlow. apply has_shape_wf in Hx. destruct Hx as [Hs Hw].
  assert (Hax : normalize_axis axis 2 = Some 1) by (destruct Ha as [->| ->]; reflexivity).
  destruct (argx_matrix Rmax lowest x axis keep r c Hs Hn Hax) as (y & Hy & Hys & Hv).
  exists y. split; auto. split; auto. intros i Hi.
  destruct (first_max_of (fun k => aget 0%R x [i; k]) lowest c) as (k & K1 & K2); auto.
  { intros k Hk. apply Hlow. repeat constructor; auto. }
  exists k. split; auto.
Qed.
Print Assumptions C43_argmax_rows.

Theorem C43_argmin_rows :
  forall (highest : R) (keep : bool) (axis : Z) (x : arr R) (r c : nat),
  has_shape [r; c] x -> 0 < c -> (axis = 1 \/ axis = -1)%Z ->
  (forall i, in_bounds [r; c] i -> (aget 0%R x i <= highest)%R) ->
  exists y, argx Rmin highest keep axis x = Some y /\ has_shape (if keep then [r; 1] else [r]) y /\
    forall i, i < r -> exists k,
      first_min (fun k => aget 0%R x [i; k]) c k /\ aget 0%R y (if keep then [i; 0] else [i]) = INR k.
Proof.
  intros highest keep axis x r c Hx Hn Ha Hlow. apply has_shape_wf in Hx. destruct Hx as [Hs Hw].
  assert (Hax : normalize_axis axis 2 = Some 1) by (destruct Ha as [->| ->]; reflexivity).
  destruct (argx_matrix Rmin highest x axis keep r c Hs Hn Hax) as (y & Hy & Hys & Hv).
  exists y. split; auto. split; auto. intros i Hi.
  destruct (first_min_of (fun k => aget 0%R x [i; k]) highest c) as (k & K1 & K2); auto.
  { intros k Hk. apply Hlow. repeat constructor; auto. }
  exists k. split; auto.
Qed.
Print Assumptions C43_argmin_rows.

(** With three or more axes of length at least two, every axis but the first panics. *)
Theorem C43_higher_rank_panics :
  forall (comp : R -> R -> R) (default : R) (keep : bool) (axis : Z) (k : nat) (x : arr R),
  3 <= length (a_shape x) -> Forall (fun d => 2 <= d) (a_shape x) ->
  (axis = Z.of_nat k \/ axis = Z.of_nat k - Z.of_nat (length (a_shape x)))%Z -> 1 <= k < length (a_shape x) ->
  argx comp default keep axis x = None.
Proof.
  intros comp default keep axis k x Hl Hd Ha Hk. apply (argx_panics comp default keep axis k x); auto.
  unfold normalize_axis. destruct Ha as [->| ->].
  - destruct (Z.ltb_spec (Z.of_nat k) 0); [lia|]. destruct (Z.ltb_spec (Z.of_nat k) 0); [lia|]. f_equal. lia.
  - destruct (Z.ltb_spec (Z.of_nat k - Z.of_nat (length (a_shape x))) 0); [|lia].
    destruct (Z.ltb_spec (Z.of_nat (length (a_shape x)) + (Z.of_nat k - Z.of_nat (length (a_shape x)))) 0); [lia|]. f_equal. lia.
Qed.
Print Assumptions C43_higher_rank_panics.

(** With a leading axis of length 1 the last axis gives wrong positions instead:
    the maxima of [[[1,5,2],[7,3,4]]] are reported at 0 and 1. *)
Theorem C43_last_axis_refuted :
  argx_helper 0%Z 1%Z Z.add Z.mul Z.eqb Z.of_nat Z.max (-100)%Z false (-1)%Z (Arr [1; 2; 3] [1; 5; 2; 7; 3; 4]%Z) =
    Some (Arr [1; 2] [0; 1]%Z).
Proof. reflexivity. Qed.
Print Assumptions C43_last_axis_refuted.

Example C43_hypotheses_met :
  let x := Arr [2; 3] [1; 5; 5; 7; 3; 4]%R in
  has_shape [2; 3] x /\ (forall i, in_bounds [2; 3] i -> (-100 <= aget 0 x i)%R) /\
  first_max (fun k => aget 0%R x [0; k]) 3 1 /\ first_max (fun k => aget 0%R x [k; 1]) 2 0 /\
  (3 <= length (a_shape (full [2; 2; 2] 0%R))) /\ Forall (fun d => 2 <= d) (a_shape (full [2; 2; 2] 0%R)).
Proof.
  cbv zeta. split; [split; reflexivity|]. split.
  { intros i Hi. inversion Hi as [|a d i' ? Ha Hi']; subst. inversion Hi' as [|b d' i'' ? Hb Hi'']; subst. inversion Hi''; subst.
    destruct a as [|[|a]]; [| |lia]; destruct b as [|[|[|b]]]; try lia; unfold aget; simpl; lra. }
  split. { split; [lia|]. split; intros k Hk; destruct k as [|[|[|k]]]; try lia; unfold aget; simpl; lra. }
  split. { split; [lia|]. split; intros k Hk; destruct k as [|[|[|k]]]; try lia; unfold aget; simpl; lra. }
  split; [simpl; lia|]. repeat constructor.
Qed.
