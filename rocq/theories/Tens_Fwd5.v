(** Gathers in terms of index maps. *)
From Coq Require Import String List Arith ZArith NArith Bool Lia Reals Lra.
Import ListNotations.
From Verif Require Import Graph_Model Eval_Model Eval_Spec Eval_Proofs Grad_Model Grad_Spec
  Scalar_Model Scalar_Spec Scalar_Proofs.
From Verif Require Import Array_Model Array_Proofs Array_Sum Array_Fold Arith_Model Arith_Proofs Vjp_Spec Vjp_Proofs
  Reduce_Model Reduce_Spec Reduce_Proofs Mean_Model Shape_Model Shape_Spec Shape_Proofs Shape_Proofs2 Shape_Proofs3
  Dot_Model Dot_Proofs Softmax_Model Softmax_Spec Softmax_Proofs Softmax_Proofs2 Softmax_Proofs3 Softmax_Xent Tens_Model Tens_Spec Tens_Fwd Tens_Fwd2.
Local Set Bullet Behavior "Strict Subproofs".
Local Open Scope R_scope.

(** The positions that indices name on an axis of [n] elements. *)
Definition position (n : nat) (z : Z) : nat := Z.to_nat (if (z <? 0)%Z then z + Z.of_nat n else z)%Z.
Definition gpick (k : nat) (n : nat) (idx : list Z) (i : list nat) : list nat :=
  set_at k (nth (nth k i 0%nat) (map (position n) idx) 0%nat) i.

Lemma named_position norm n z : named norm n z = true -> names_index norm n z (position n z).
Proof.
  unfold named, names_index, position. rewrite orb_true_iff, !andb_true_iff, !Z.leb_le, !Z.ltb_lt.
  intros [[H1 H2]|[[Hn H1] H2]].
  - destruct (Z.ltb_spec z 0); [lia|]. split; [lia|]. left. lia.
  - destruct (Z.ltb_spec z 0); [|lia]. split; [lia|]. right. split; [exact Hn|]. lia.
Qed.
Lemma named_positions norm n idx : forallb (named norm n) idx = true -> Forall2 (names_index norm n) idx (map (position n) idx).
Proof.
  induction idx as [|z idx IH]; simpl; [constructor|]. intros H. apply andb_prop in H. destruct H as [H1 H2].
  constructor; [apply named_position; exact H1|auto].
Qed.
Lemma named_true norm n z : named norm n z = true -> named true n z = true.
Proof. unfold named. destruct norm; [auto|]. cbn [andb]. rewrite orb_false_r. intros ->. reflexivity. Qed.

Lemma gather_ty_ok norm axis idx sh out : gather_ty norm axis idx sh = Some out ->
  exists k, axis_of (length sh) axis = Some k /\ (k < length sh)%nat /\ idx <> [] /\
    forallb (named norm (nth k sh 0%nat)) idx = true /\ out = set_at k (length idx) sh.
Proof.
  unfold gather_ty. destruct (axis_of (length sh) axis) as [k|] eqn:EA; [|discriminate].
  destruct (Nat.eqb_spec (length idx) 0); [discriminate|]. destruct (forallb _ idx) eqn:EF; [|discriminate]. intros E. cbn in E. exists k.
  split; [reflexivity|]. split; [apply axis_of_ok in EA; apply EA|]. split; [intros ->; apply n; reflexivity|]. split; [exact EF|]. congruence.
Qed.
Lemma gather_ty_true norm axis idx sh out : gather_ty norm axis idx sh = Some out -> gather_ty true axis idx sh = Some out.
Proof.
  unfold gather_ty. destruct (axis_of (length sh) axis) as [k|]; [|discriminate]. destruct (length idx =? 0)%nat; [discriminate|].
  destruct (forallb (named norm _) idx) eqn:EF; [|discriminate]. replace (forallb (named true (nth k sh 0%nat)) idx) with true; auto.
  symmetry. rewrite forallb_forall in EF |- *. intros z Hz. eapply named_true; eauto.
Qed.
Lemma gpick_in norm k n idx sh i : (k < length sh)%nat -> n = nth k sh 0%nat -> forallb (named norm n) idx = true ->
  in_bounds (set_at k (length idx) sh) i -> in_bounds sh (gpick k n idx i).
Proof.
  intros Hk -> HF Hi. pose proof (names_index_lt _ _ _ _ (named_positions _ _ _ HF)) as [B L].
  pose proof (in_bounds_nth _ _ k Hi ltac:(rewrite set_length; exact Hk)) as Bi. rewrite nth_set_eq in Bi by exact Hk.
  unfold gpick. rewrite <- (Shape_Proofs.set_nth_self k 0%nat sh) at 1. apply (in_bounds_set_to k sh i _ (length idx)); [exact Hi|].
  rewrite Forall_forall in B. apply B. apply nth_In. rewrite map_length. exact Bi.
Qed.
Lemma vecZ_wf l : wf (vecZ l).
Proof. unfold wf. simpl. lia. Qed.
Lemma gather_pull norm axis idx sh out k x : has_shape sh x -> gather_ty norm axis idx sh = Some out -> axis_of (length sh) axis = Some k ->
  gather 0 norm axis (vecZ idx) x = Some (pullr (gpick k (nth k sh 0%nat) idx) out x).
Proof.
  intros Hx HG HA. destruct (gather_ty_ok _ _ _ _ _ HG) as (k' & HA' & Hk & HN & HF & ->). assert (k' = k) by congruence. subst k'.
  pose proof (hs_sh _ _ Hx) as Sx. pose proof (axis_of_ok _ _ _ HA) as NA.
  destruct (gather_ok 0 norm axis k (vecZ idx) x (map (position (nth k sh 0%nat)) idx)) as (s & _ & E & Ws & Ss & G & _); auto.
  - apply (hs_wf _ _ Hx).
  - apply vecZ_wf.
  - rewrite Sx. exact NA.
  - unfold axis_len. rewrite Sx. apply named_positions. exact HF.
  - rewrite E. f_equal. rewrite Sx, map_length in Ss. cbn [vecZ a_shape].
    rewrite Sx, <- (set_firstn k (length idx) sh Hk), <- Ss. destruct s as [ss ds]. cbn [a_shape a_data] in *. subst ss.
    apply tab_eq; [apply has_shape_intro; auto|]. intros i Hi. apply G. exact Hi.
Qed.
Lemma gather_grad_push axis idx sh out k x gy : has_shape sh x -> gather_ty true axis idx sh = Some out -> axis_of (length sh) axis = Some k ->
  gather_back axis idx = true -> has_shape out gy ->
  gather_grad 0 Rplus axis (vecZ idx) x gy = Some (push (gpick k (nth k sh 0%nat) idx) out sh gy).
Proof.
  intros Hx HG HA HB Hg. destruct (gather_ty_ok _ _ _ _ _ HG) as (k' & HA' & Hk & HN & HF & ->). assert (k' = k) by congruence. subst k'.
  pose proof (hs_sh _ _ Hx) as Sx. pose proof (axis_of_ok _ _ _ HA) as NA.
  unfold gather_back in HB. apply andb_prop in HB. destruct HB as [Hax HM]. apply Z.leb_le in Hax.
  assert (Ek : axis = Z.of_nat k) by (destruct NA as [_ [->|E]]; [reflexivity|lia]). subst axis.
  unfold gather_grad. destruct (Z.ltb_spec (Z.of_nat k) 0); [lia|]. rewrite Nat2Z.id, Sx. rewrite (nth_error_nth' _ 0%nat Hk). unfold bind at 1.
  cbn [vecZ a_data]. rewrite <- (set_firstn k (length idx) sh Hk). rewrite into_shape_get by (rewrite (hs_sh _ _ Hg); reflexivity). unfold bind.
  set (g' := Arr (set_at k (length idx) sh) (a_data gy)). assert (Eg : g' = gy) by (unfold g'; rewrite <- (hs_sh _ _ Hg); destruct gy; reflexivity). rewrite Eg.
  assert (N1 : ~ In (-1)%Z idx).
  { intros Hin. rewrite forallb_forall in HM. specialize (HM _ Hin). discriminate. }
  destruct (gather_loop_ok k (nth k sh 0%nat) gy idx (map (position (nth k sh 0%nat)) idx) 0 (full sh 0) (named_positions _ _ _ HF) N1 (tab_wf _ _)) as (gx & E & Wgx & Sgx & G).
  rewrite E. f_equal. cbn [full a_shape tab] in Sgx, G.
  apply sums_push; [exact Hg|apply has_shape_intro; auto|].
  apply (select_sums k sh); auto.
  - rewrite map_length. apply (hs_sh _ _ Hg).
  - intros j Hj. rewrite G by exact Hj. rewrite aget_full by exact Hj. rewrite Rplus_0_l.
    f_equal. apply filter_ext. intros c. rewrite Nat.sub_0_r. reflexivity.
Qed.
