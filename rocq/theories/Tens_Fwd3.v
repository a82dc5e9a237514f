(** Slices, splits, tiles and concatenations in terms of index maps. *)
From Coq Require Import String List Arith ZArith NArith Bool Lia Reals Lra.
Import ListNotations.
From Verif Require Import Graph_Model Eval_Model Eval_Spec Eval_Proofs Grad_Model Grad_Spec
  Scalar_Model Scalar_Spec Scalar_Proofs.
From Verif Require Import Array_Model Array_Proofs Array_Sum Array_Fold Arith_Model Arith_Proofs Vjp_Spec Vjp_Proofs
  Reduce_Model Reduce_Spec Reduce_Proofs Mean_Model Shape_Model Shape_Spec Shape_Proofs Shape_Proofs2 Shape_Proofs3
  Dot_Model Dot_Proofs Softmax_Model Softmax_Spec Softmax_Proofs Softmax_Proofs2 Softmax_Proofs3 Softmax_Xent Tens_Model Tens_Spec Tens_Fwd Tens_Fwd2.
Local Set Bullet Behavior "Strict Subproofs".
Local Open Scope R_scope.

(** ** Blocks *)
Lemma read_pull rs x : read_ranges 0 x rs = pullr (enter rs) (range_lens rs) x.
Proof. reflexivity. Qed.
Lemma slice_pull sl rs sh x : has_shape sh x -> ranges sh sl = Some rs -> slice_forward 0 sl x = Some (pullr (enter rs) (range_lens rs) x).
Proof. intros Hx E. unfold slice_forward. rewrite (hs_sh _ _ Hx), E. reflexivity. Qed.
Lemma push_one f h b s0 sh gy : (forall i, in_bounds sh i -> in_bounds s0 (f i)) ->
  (forall i j, in_bounds sh i -> in_bounds s0 j -> (f i = j <-> b j = true /\ h j = i)) ->
  (forall j, in_bounds s0 j -> b j = true -> in_bounds sh (h j)) ->
  push f sh s0 gy = tab s0 (fun j => if b j then rget gy (h j) else 0).
Proof.
  intros HF HI HH. apply tab_ext. intros j Hj. destruct (b j) eqn:E.
  - rewrite <- (rsum_delta sh (h j) (rget gy)) by auto. apply rsum_idx_ext. intros i Hi. f_equal.
    unfold delta. destruct (shape_eqb (f i) j) eqn:E1; destruct (shape_eqb (h j) i) eqn:E2; auto; exfalso.
    + apply shape_eqb_ok in E1. apply HI in E1; auto. destruct E1 as [_ E1]. apply shape_eqb_ok in E1. congruence.
    + apply shape_eqb_ok in E2. assert (Q : f i = j) by (apply HI; auto). apply shape_eqb_ok in Q. congruence.
  - apply rsum_zero. intros i Hi. apply indices_in in Hi. unfold delta. destruct (shape_eqb (f i) j) eqn:E1; [|ring].
    apply shape_eqb_ok in E1. apply HI in E1; auto. destruct E1. congruence.
Qed.
Lemma slice_grad_push sl rs sh x gy : has_shape sh x -> ranges sh sl = Some rs -> has_shape (range_lens rs) gy ->
  slice_grad 0 sl x gy = Some (push (enter rs) (range_lens rs) sh gy).
Proof.
  intros Hx E Hg. pose proof (ranges_ok _ _ _ E) as F. unfold slice_grad. rewrite (hs_sh _ _ Hx), E.
  destruct (write_ranges_ok 0 (full sh 0) rs gy F (hs_wf _ _ Hg) (hs_sh _ _ Hg)) as (y & Ey & Wy & Sy & G).
  match goal with |- ?l = _ => change l with (write_ranges 0 (full sh 0) rs gy) end. rewrite Ey. f_equal.
  rewrite (push_one (enter rs) (leave rs) (inside rs)).
  - apply tab_eq; [apply has_shape_intro; auto|]. intros i Hi. rewrite G by exact Hi. destruct (inside rs i); [reflexivity|].
    unfold full. rewrite aget_tab by exact Hi. reflexivity.
  - intros i Hi. apply (enter_in rs sh); auto.
  - intros i j Hi Hj. apply (enter_leave rs sh); auto.
  - intros j Hj Hb. apply (leave_in rs sh); auto.
Qed.
Lemma split_as_slice axis lo hi sh rs : split_ranges sh axis lo hi = Some rs ->
  exists sl, ranges sh sl = Some rs /\
    (forall x, has_shape sh x -> split_forward 0 axis lo hi x = slice_forward 0 sl x) /\
    (forall x gy, has_shape sh x -> split_grad 0 axis lo hi x gy = slice_grad 0 sl x gy).
Proof.
  unfold split_ranges. destruct (normalize_axis axis (length sh)) as [k|] eqn:EN; [|discriminate].
  destruct (split_slices (length sh) k lo hi) as [sl|] eqn:ES; [|discriminate]. intros E. exists sl. split; [exact E|].
  split; intros x; [|intros gy]; intros Hx; unfold split_forward, split_grad; rewrite (hs_sh _ _ Hx), EN; cbn; rewrite ES; reflexivity.
Qed.

(** ** Tiles *)
Lemma tile_shape axis k num sh x : has_shape sh x -> axis_of (length sh) axis = Some k -> (0 < num)%nat ->
  exists y, tile 0 axis num x = Some y /\ has_shape (set_at k (num * nth k sh 0) sh)%nat y.
Proof.
  intros Hx NA Hn. apply axis_of_ok in NA. rewrite <- (hs_sh _ _ Hx) in NA.
  destruct (tile_ok 0 axis k num x (hs_wf _ _ Hx) NA Hn) as (y & E & W & S & _). exists y. split; [exact E|].
  apply has_shape_intro; auto. rewrite S. unfold axis_len. rewrite (hs_sh _ _ Hx). reflexivity.
Qed.
Lemma tile_pull axis k num sh x : has_shape sh x -> axis_of (length sh) axis = Some k -> (0 < num)%nat -> nth k sh 0%nat = 1%nat ->
  tile 0 axis num x = Some (pullr (set_at k 0%nat) (set_at k num sh) x).
Proof.
  intros Hx NA Hn E1. apply axis_of_ok in NA. rewrite <- (hs_sh _ _ Hx) in NA.
  destruct (tile_ok 0 axis k num x (hs_wf _ _ Hx) NA Hn) as (y & E & W & S & G). rewrite E. f_equal.
  unfold axis_len in S, G. rewrite (hs_sh _ _ Hx), E1, Nat.mul_1_r in S.
  apply tab_eq; [apply has_shape_intro; auto|]. intros i Hi. rewrite G by (rewrite S; exact Hi).
  rewrite (hs_sh _ _ Hx), E1. reflexivity.
Qed.

(** ** Concatenations *)
Lemma all_shapes_typed ts l vs : all_shapes ts = Some l -> Forall2 has_ty vs ts ->
  exists xs, arrays vs = Some xs /\ Forall2 (fun x s => has_shape s x) xs l.
Proof.
  intros H F. revert l H. induction F as [|v t vs ts Hv F IH]; intros l H.
  - simpl in H. inv H. exists []. split; [reflexivity|constructor].
  - unfold all_shapes in H. simpl in H. fold (all_shapes ts) in H. destruct t as [s|]; [|discriminate]. destruct (all_shapes ts) as [l'|]; [|discriminate]. inv H.
    destruct (IH l' eq_refl) as (xs & E & FX). destruct v as [a|]; [|destruct Hv]. exists (a :: xs). split; [change (arrays (TA a :: vs)) with (match arrays vs with Some l => Some (a :: l) | None => None end); rewrite E; reflexivity|]. constructor; auto.
Qed.
Lemma concat_typed axis sh l t xs : (axis <? 0)%Z = false -> joined (Z.to_nat axis) (sh :: l) = Some t ->
  Forall2 (fun x s => has_shape s x) xs (sh :: l) ->
  exists y, concat 0 axis xs = Some y /\ has_ty (TA y) t.
Proof.
  intros HA HJ F. unfold concat. rewrite HA. set (k := Z.to_nat axis) in *.
  assert (M : map a_shape xs = sh :: l).
  { clear HJ. induction F as [|x s xs ss Hx F IH]; [reflexivity|]. simpl. rewrite (hs_sh _ _ Hx), IH. reflexivity. }
  destruct xs as [|x0 xs]; [discriminate|]. unfold concatenate.
  assert (M0 : a_shape x0 = sh) by (simpl in M; congruence). rewrite M0. unfold joined in HJ. rewrite <- M in HJ.
  destruct (k <? length sh)%nat; [|discriminate]. cbn [andb] in HJ.
  match type of HJ with context [forallb ?f (map ?h ?m)] => assert (E : forallb f (map h m) = forallb (fun x => f (h x)) m) end.
  { clear. induction (x0 :: xs) as [|a m IH]; [reflexivity|]. simpl. rewrite IH. reflexivity. }
  rewrite E in HJ. cbv beta in HJ.
  match goal with |- context [if ?b then _ else _] => destruct b; [|discriminate] end.
  rewrite map_map in HJ. inv HJ. eexists. split; [reflexivity|]. simpl. apply tab_has_shape.
Qed.
