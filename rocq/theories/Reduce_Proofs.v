(** Proofs about reductions, for any element type. *)
From Coq Require Import List Arith ZArith Bool Lia Permutation Sorting.Sorted.
Import ListNotations.
From Verif Require Import Eval_Proofs Array_Model Array_Proofs Array_Sum Array_Fold Arith_Model Arith_Proofs Reduce_Model Reduce_Spec.

(** ** Sorting and axes *)
Lemma insert_sorted_perm x l : Permutation (x :: l) (insert_sorted x l).
Proof.
  induction l as [|y l IH]; simpl; [apply Permutation_refl|]. destruct (x <=? y); [apply Permutation_refl|].
  etransitivity; [apply perm_swap|]. constructor. exact IH.
Qed.
Lemma sort_perm l : Permutation l (sort l).
Proof. induction l as [|x l IH]; simpl; [constructor|]. etransitivity; [|apply insert_sorted_perm]. constructor. exact IH. Qed.
Lemma insert_sorted_sorted x l : StronglySorted le l -> StronglySorted le (insert_sorted x l).
Proof.
  induction l as [|y l IH]; intros S; simpl; [repeat constructor|]. inv S.
  destruct (Nat.leb_spec x y).
  - constructor; [constructor; auto|]. constructor; [exact H|]. eapply Forall_impl; [|exact H2]. simpl. intros; lia.
  - constructor; [auto|]. apply (Permutation_Forall (insert_sorted_perm x l)). constructor; [lia|exact H2].
Qed.
Lemma sort_sorted l : StronglySorted le (sort l).
Proof. induction l as [|x l IH]; simpl; [constructor|]. apply insert_sorted_sorted. exact IH. Qed.
Lemma sorted_app {X} (R : X -> X -> Prop) a b : StronglySorted R a -> StronglySorted R b ->
  Forall (fun x => Forall (R x) b) a -> StronglySorted R (a ++ b).
Proof.
  induction a as [|x a IH]; intros Sa Sb H; simpl; [exact Sb|]. inv Sa. inv H. constructor; [auto|].
  apply Forall_app. auto.
Qed.
Lemma sorted_rev {X} (R : X -> X -> Prop) l : StronglySorted R l -> StronglySorted (fun x y => R y x) (rev l).
Proof.
  induction 1 as [|x l S IH F]; simpl; [constructor|]. apply sorted_app; [exact IH|repeat constructor|].
  apply Forall_rev. eapply Forall_impl; [|exact F]. intros. repeat constructor. exact H.
Qed.
Lemma desc_sort l : NoDup l -> StronglySorted (fun a b => b < a) (rev (sort l)) /\ Permutation l (rev (sort l)).
Proof.
  intros ND. assert (P : Permutation l (rev (sort l))) by (etransitivity; [apply sort_perm|apply Permutation_rev]).
  split; [|exact P]. pose proof (sorted_rev _ _ (sort_sorted l)) as S. pose proof (Permutation_NoDup P ND) as N.
  revert S N. generalize (rev (sort l)). clear. induction l as [|x l IH]; intros S N; [constructor|]. inv S. inv N.
  constructor; [auto|]. apply Forall_forall. intros y Hy. rewrite Forall_forall in H2. specialize (H2 y Hy). simpl in H2.
  assert (x <> y) by (intros ->; contradiction). lia.
Qed.
Lemma normalize_axes_ok n axes ax : Forall2 (fun z k => k < n /\ (z = Z.of_nat k \/ (z = Z.of_nat k - Z.of_nat n)%Z)) axes ax ->
  normalize_axes n axes = Some ax.
Proof.
  induction 1 as [|z k axes ax [Hk H] _ IH]; simpl; [reflexivity|].
  assert (E : (if (z <? 0)%Z then (Z.of_nat n + z)%Z else z) = Z.of_nat k) by (destruct (Z.ltb_spec z 0); lia).
  rewrite E, IH. destruct (Z.ltb_spec (Z.of_nat k) 0); [lia|]. rewrite Nat2Z.id. reflexivity.
Qed.
Lemma memb_in k ax : memb k ax = true <-> In k ax.
Proof. unfold memb. rewrite existsb_exists. split; [intros (x & H & E); apply Nat.eqb_eq in E; subst; auto|intros H; exists k; rewrite Nat.eqb_refl; auto]. Qed.
Lemma memb_perm k a b : Permutation a b -> memb k a = memb k b.
Proof. intros P. apply eq_true_iff_eq. rewrite !memb_in. split; apply Permutation_in; [exact P|symmetry; exact P]. Qed.

(** ** Dropping and filling axes *)
Lemma drop_perm a b l : Permutation a b -> drop_axes a l = drop_axes b l.
Proof. intros P. unfold drop_axes. f_equal. apply filter_ext. intros [k x]. rewrite (memb_perm _ _ _ P). reflexivity. Qed.
Lemma fill_perm v a b l : Permutation a b -> fill_axes v a l = fill_axes v b l.
Proof. intros P. unfold fill_axes. apply map_ext. intros [k x]. simpl. rewrite (memb_perm _ _ _ P). reflexivity. Qed.
Definition drop_from (s : nat) (ax l : list nat) := map snd (filter (fun p => negb (memb (fst p) ax)) (combine (seq s (length l)) l)).
Lemma drop_from_none ax l : forall s, (forall a, In a ax -> a < s) -> drop_from s ax l = l.
Proof.
  induction l as [|x l IH]; intros s H; [reflexivity|]. unfold drop_from in *. simpl.
  destruct (memb s ax) eqn:E; [apply memb_in in E; apply H in E; lia|]. simpl. f_equal. apply IH. intros a Ha. apply H in Ha. lia.
Qed.
Lemma drop_from_cons k ax l : forall s, s <= k -> k < s + length l -> (forall a, In a ax -> a < k) ->
  drop_from s (k :: ax) l = drop_from s ax (remove_at (k - s) l).
Proof.
  induction l as [|x l IH]; intros s H1 H2 H3; simpl in H2; [lia|].
  unfold drop_from. simpl length. simpl seq. simpl combine. simpl filter.
  destruct (Nat.eq_dec k s) as [->|N].
  - rewrite Nat.sub_diag. simpl remove_at. rewrite Nat.eqb_refl. simpl.
    change (drop_from (S s) (s :: ax) l = drop_from s ax l). rewrite !drop_from_none; auto.
    intros a [<-|Ha]; [lia|]. apply H3 in Ha. lia.
  - destruct (k - s) as [|m] eqn:E; [lia|]. simpl remove_at. simpl length. simpl seq. simpl combine. simpl filter.
    destruct (Nat.eqb_spec s k); [lia|]. simpl orb.
    assert (IH' : drop_from (S s) (k :: ax) l = drop_from (S s) ax (remove_at (k - S s) l)) by (apply IH; auto; lia).
    replace (k - S s) with m in IH' by lia. unfold drop_from in IH'.
    destruct (negb (memb s ax)) eqn:Q; unfold memb in Q; simpl in Q; rewrite ?Q; simpl; [f_equal|]; exact IH'.
Qed.
Lemma drop_cons k ax l : k < length l -> (forall a, In a ax -> a < k) -> drop_axes (k :: ax) l = drop_axes ax (remove_at k l).
Proof. intros H1 H2. pose proof (drop_from_cons k ax l 0 ltac:(lia) ltac:(lia) H2) as Q. rewrite Nat.sub_0_r in Q. exact Q. Qed.
Lemma drop_nil l : drop_axes [] l = l.
Proof. apply (drop_from_none [] l 0). intros a []. Qed.

Lemma combine_seq_nth l : forall s k, k < length l -> nth k (combine (seq s (length l)) l) (0, 0) = (s + k, nth k l 0).
Proof.
  induction l as [|x l IH]; intros s k H; simpl in *; [lia|]. destruct k; [rewrite Nat.add_0_r; reflexivity|].
  rewrite IH by lia. f_equal. lia.
Qed.
Lemma fill_length v ax l : length (fill_axes v ax l) = length l.
Proof. unfold fill_axes. rewrite map_length, combine_length, seq_length. lia. Qed.
Lemma fill_nth v ax l k : k < length l -> nth k (fill_axes v ax l) 0 = if memb k ax then v else nth k l 0.
Proof.
  intros H. unfold fill_axes.
  rewrite (nth_indep _ 0 ((fun p => if memb (fst p) ax then v else snd p) (0, 0)))
    by (rewrite map_length, combine_length, seq_length; lia).
  rewrite (map_nth (fun p => if memb (fst p) ax then v else snd p)), combine_seq_nth by exact H. reflexivity.
Qed.
Lemma fill_nil v l : fill_axes v [] l = l.
Proof. apply (nth_ext _ _ 0 0); [apply fill_length|]. rewrite fill_length. intros k H. rewrite fill_nth by exact H. reflexivity. Qed.
Lemma nth_insert {X} (d x : X) k l j : k <= length l ->
  nth j (insert_at k x l) d = if j <? k then nth j l d else if j =? k then x else nth (j - 1) l d.
Proof.
  revert l j. induction k as [|k IH]; intros l j H.
  - simpl insert_at. destruct j; [reflexivity|]. simpl. rewrite Nat.sub_0_r. reflexivity.
  - destruct l as [|y l]; simpl in H; [lia|]. simpl insert_at. destruct j; [reflexivity|]. simpl nth. rewrite IH by lia.
    change (S j <? S k) with (j <? k). change (S j =? S k) with (j =? k).
    destruct (Nat.ltb_spec j k); [reflexivity|]. destruct (Nat.eqb_spec j k); [reflexivity|]. simpl.
    rewrite Nat.sub_0_r. destruct j; [lia|]. simpl. rewrite Nat.sub_0_r. reflexivity.
Qed.
Lemma nth_remove {X} (d : X) k l j : nth j (remove_at k l) d = if j <? k then nth j l d else nth (S j) l d.
Proof.
  revert k j. induction l as [|x l IH]; intros k j.
  - replace (@remove_at X k []) with (@nil X) by (destruct k; reflexivity). destruct (j <? k); destruct j; reflexivity.
  - destruct k; [reflexivity|]. simpl remove_at. destruct j; [reflexivity|]. simpl nth. rewrite IH. reflexivity.
Qed.
Lemma fill_cons v k ax l : k < length l -> (forall a, In a ax -> a < k) ->
  fill_axes v (k :: ax) l = insert_at k v (fill_axes v ax (remove_at k l)).
Proof.
  intros H1 H2. pose proof (remove_length k l H1) as L.
  apply (nth_ext _ _ 0 0); [rewrite insert_length, !fill_length; lia|]. rewrite fill_length. intros j Hj.
  rewrite fill_nth by exact Hj. rewrite nth_insert by (rewrite fill_length; lia). unfold memb. simpl existsb.
  destruct (Nat.eqb_spec j k) as [->|N]; simpl.
  - rewrite Nat.ltb_irrefl. reflexivity.
  - destruct (Nat.ltb_spec j k).
    + rewrite fill_nth by lia. rewrite nth_remove. destruct (Nat.ltb_spec j k); [reflexivity|lia].
    + rewrite fill_nth by lia. rewrite nth_remove. destruct (Nat.ltb_spec (j - 1) k); [lia|].
      replace (S (j - 1)) with j by lia.
      destruct (existsb (Nat.eqb j) ax) eqn:E; [apply (memb_in j ax) in E; apply H2 in E; lia|].
      destruct (memb (j - 1) ax) eqn:E2; [apply memb_in in E2; apply H2 in E2; lia|reflexivity].
Qed.
Lemma fill_set v k ax l : fill_axes v (k :: ax) l = fill_axes v ax (set_at k v l).
Proof.
  apply (nth_ext _ _ 0 0); [rewrite !fill_length, set_length; reflexivity|]. rewrite fill_length. intros j Hj.
  rewrite !fill_nth by (rewrite ?set_length; exact Hj). rewrite nth_set. unfold memb. simpl existsb.
  destruct (Nat.eqb_spec j k) as [->|N]; simpl; [|reflexivity].
  rewrite (proj2 (Nat.ltb_lt _ _) Hj). destruct (existsb _ ax); reflexivity.
Qed.
Lemma filter_le {X} (f : X -> bool) l : length (filter f l) <= length l.
Proof. induction l as [|x l IH]; simpl; [lia|]. destruct (f x); simpl; lia. Qed.
Lemma drop_length ax l : (exists k, In k ax /\ k < length l) -> length (drop_axes ax l) < length l.
Proof.
  intros (k & Hk & Hl). unfold drop_axes. rewrite map_length.
  assert (G : forall (c : list (nat * nat)) x f, In x c -> f x = false -> length (filter f c) < length c).
  { clear. intros c x f. induction c as [|y c IH]; simpl; intros H E; [contradiction|]. destruct H as [->|H].
    - rewrite E. pose proof (filter_le f c). lia.
    - specialize (IH H E). destruct (f y); simpl; lia. }
  apply (Nat.lt_le_trans _ (length (combine (seq 0 (length l)) l))); [|rewrite combine_length; lia].
  apply (G _ (k, nth k l 0)).
  - replace (k, nth k l 0) with (nth k (combine (seq 0 (length l)) l) (0, 0)) by (apply combine_seq_nth; exact Hl).
    apply nth_In. rewrite combine_length, seq_length. lia.
  - simpl. apply negb_false_iff. apply memb_in. exact Hk.
Qed.

Lemma fill_in_bounds ax sh i : in_bounds sh i -> in_bounds (fill_axes 1 ax sh) (fill_axes 0 ax i).
Proof.
  intros H. assert (G : forall s, Forall2 (fun i d => i < d) (map (fun p => if memb (fst p) ax then 0 else snd p) (combine (seq s (length i)) i))
    (map (fun p => if memb (fst p) ax then 1 else snd p) (combine (seq s (length sh)) sh))); [|exact (G 0)].
  induction H as [|x d i sh H F IH]; intros s; simpl; constructor; [|apply IH]. destruct (memb s ax); lia.
Qed.
Lemma desc_induction (P : list nat -> nat -> Prop) :
  (forall n, P [] n) ->
  (forall k d n, k < n -> (forall a, In a d -> a < k) -> P d (n - 1) -> P (k :: d) n) ->
  forall d n, StronglySorted (fun a b => b < a) d -> Forall (fun k => k < n) d -> P d n.
Proof.
  intros H0 H1. induction d as [|k d IH]; intros n S F; [apply H0|].
  apply StronglySorted_inv in S. destruct S as [S D]. apply Forall_inv in F as K.
  rewrite Forall_forall in D. apply H1; [exact K|exact D|].
  apply IH; [exact S|]. rewrite Forall_forall. intros a Ha. apply D in Ha. lia.
Qed.
Lemma ravel_fill d : forall n, StronglySorted (fun a b => b < a) d -> Forall (fun k => k < n) d ->
  forall sh i, length sh = n -> length i = n -> ravel (fill_axes 1 d sh) (fill_axes 0 d i) = ravel (drop_axes d sh) (drop_axes d i).
Proof.
  apply (desc_induction (fun d n => forall sh i, length sh = n -> length i = n -> ravel (fill_axes 1 d sh) (fill_axes 0 d i) = ravel (drop_axes d sh) (drop_axes d i))).
  - intros n sh i _ _. rewrite !fill_nil, !drop_nil. reflexivity.
  - intros k d' n Hk Hd IH sh i Ls Li. rewrite !fill_cons, !drop_cons by (auto; lia).
    rewrite ravel_insert1.
    + apply IH; rewrite remove_length; lia.
    + rewrite fill_length, remove_length; lia.
    + rewrite !fill_length, !remove_length; lia.
Qed.
Lemma prod_fill d : forall n, StronglySorted (fun a b => b < a) d -> Forall (fun k => k < n) d ->
  forall sh, length sh = n -> prod (fill_axes 1 d sh) = prod (drop_axes d sh).
Proof.
  apply (desc_induction (fun d n => forall sh, length sh = n -> prod (fill_axes 1 d sh) = prod (drop_axes d sh))).
  - intros n sh _. rewrite fill_nil, drop_nil. reflexivity.
  - intros k d' n Hk Hd IH sh Ls. rewrite fill_cons, drop_cons by (auto; lia). rewrite prod_insert, Nat.mul_1_l. apply IH.
    rewrite remove_length; lia.
Qed.
Lemma insert_ones d : forall n, StronglySorted (fun a b => b < a) d -> Forall (fun k => k < n) d ->
  forall sh, length sh = n ->
  fold_right (fun k (s : option (list nat)) => bind s (fun s => if k <=? length s then Some (insert_at k 1 s) else None)) (Some (drop_axes d sh)) d
  = Some (fill_axes 1 d sh).
Proof.
  apply (desc_induction (fun d n => forall sh, length sh = n ->
  fold_right (fun k (s : option (list nat)) => bind s (fun s => if k <=? length s then Some (insert_at k 1 s) else None)) (Some (drop_axes d sh)) d
  = Some (fill_axes 1 d sh))).
  - intros n sh _. rewrite fill_nil, drop_nil. reflexivity.
  - intros k d' n Hk Hd IH sh Ls. rewrite fill_cons, drop_cons by (auto; lia). simpl fold_right.
    assert (L : length (remove_at k sh) = n - 1) by (rewrite remove_length; lia).
    rewrite IH by exact L. unfold bind. rewrite fill_length. destruct (Nat.leb_spec k (length (remove_at k sh))); [reflexivity|lia].
Qed.
Lemma dims_ok_nth a : forall b, length a = length b -> (forall k, k < length a -> nth k a 0 = nth k b 0 \/ nth k a 0 = 1) -> dims_ok a b = true.
Proof.
  induction a as [|x a IH]; intros [|y b] L H; simpl in *; try lia; auto. apply andb_true_iff. split.
  - apply orb_true_iff. rewrite !Nat.eqb_eq. apply (H 0). lia.
  - apply IH; [lia|]. intros k Hk. apply (H (S k)). lia.
Qed.
Lemma can_broadcast_fill ax sh : can_broadcast (fill_axes 1 ax sh) sh = true.
Proof.
  unfold can_broadcast. rewrite fill_length, Nat.leb_refl, Nat.sub_diag. simpl. apply dims_ok_nth; [apply fill_length|].
  rewrite fill_length. intros k H. rewrite fill_nth by exact H. destruct (memb k ax); auto.
Qed.
Lemma bc_idx_fill ax sh i : in_bounds sh i -> bc_idx (fill_axes 1 ax sh) i = fill_axes 0 ax i.
Proof.
  intros H. pose proof (in_bounds_length _ _ H) as L.
  apply (nth_ext _ _ 0 0); [rewrite bc_idx_length; rewrite !fill_length; lia|].
  rewrite bc_idx_length; rewrite fill_length; [|lia]. intros k Hk. unfold bc_idx. rewrite fill_length, L, Nat.sub_diag. simpl skipn.
  rewrite (map2_nth _ 0 0 0) by (rewrite ?fill_length; lia). rewrite !fill_nth by lia.
  destruct (memb k ax); [reflexivity|]. destruct (Nat.eqb_spec (nth k sh 0) 1) as [E|]; [|reflexivity].
  pose proof (in_bounds_nth _ _ k H Hk). lia.
Qed.

(** ** The reduction loop *)
Section Reduce.
  Context {A : Type} (zero e : A) (op : A -> A -> A).
  Hypothesis assoc : forall a b c, op a (op b c) = op (op a b) c.
  Hypothesis comm : forall a b, op a b = op b a.
  Hypothesis ee : op e e = e.

  Lemma reduced_index_in_desc keep d sh i : StronglySorted (fun a b => b < a) d -> Forall (fun k => k < length sh) d ->
    in_bounds sh i -> in_bounds (reduced_shape keep d sh) (reduced_index keep d i).
  Proof.
    intros S F H. destruct keep; simpl; [apply fill_in_bounds; exact H|].
    enough (G : forall d n, StronglySorted (fun a b => b < a) d -> Forall (fun k => k < n) d ->
      forall sh i, length sh = n -> in_bounds sh i -> in_bounds (drop_axes d sh) (drop_axes d i)).
    { apply (G d (length sh)); auto. }
    clear. apply (desc_induction (fun d n => forall sh i, length sh = n -> in_bounds sh i -> in_bounds (drop_axes d sh) (drop_axes d i))).
    - intros n sh i _ H. rewrite !drop_nil. exact H.
    - intros k d' n Hk Hd IH sh i L H. pose proof (in_bounds_length _ _ H). rewrite !drop_cons by (auto; lia).
      apply IH; [rewrite remove_length; lia|]. apply in_bounds_remove. exact H.
  Qed.
  Lemma reduced_perm keep a b l : Permutation a b -> reduced_shape keep a l = reduced_shape keep b l /\ reduced_index keep a l = reduced_index keep b l.
  Proof. intros P. destruct keep; simpl; split; apply fill_perm || apply drop_perm; exact P. Qed.
  Lemma reduced_index_in keep ax sh i : NoDup ax -> Forall (fun k => k < length sh) ax ->
    in_bounds sh i -> in_bounds (reduced_shape keep ax sh) (reduced_index keep ax i).
  Proof.
    intros ND F H. destruct (desc_sort ax ND) as [S P].
    rewrite (proj1 (reduced_perm keep _ _ sh P)), (proj2 (reduced_perm keep _ _ i P)).
    apply reduced_index_in_desc; auto. apply (Permutation_Forall P). exact F.
  Qed.

  Lemma reduce_step (keep : bool) (x : arr A) k : wf x -> k < length (a_shape x) ->
    exists r y, fold_axis zero x k e op = Some r /\ (if keep then expand_dims r k else Some r) = Some y /\ wf y /\
      a_shape y = (if keep then set_at k 1 (a_shape x) else remove_at k (a_shape x)) /\
      folds_along zero e op (fun i => if keep then set_at k 0 i else remove_at k i) x y.
  Proof.
    intros W Hk. destruct keep.
    - destruct (fold_expand_along zero e op assoc comm ee x k Hk W) as (r & b & Er & Eb & Wb & Sb & Fb). exists r, b. auto.
    - destruct (proj2 (fold_axis_defined zero x k e op) Hk) as [r Er].
      destruct (fold_axis_along zero e op assoc comm ee x k r Er) as (Sr & Wr & Ar). exists r, r. auto.
  Qed.
  Lemma reduced_step (keep : bool) k d l : k < length l -> (forall a, In a d -> a < k) ->
    reduced_shape keep (k :: d) l = reduced_shape keep d (if keep then set_at k 1 l else remove_at k l) /\
    reduced_index keep (k :: d) l = reduced_index keep d (if keep then set_at k 0 l else remove_at k l).
  Proof. intros H1 H2. destruct keep; simpl; split; apply fill_set || (apply drop_cons; auto). Qed.
  Lemma reduce_axes_ok keep d : StronglySorted (fun a b => b < a) d -> forall x, wf x -> Forall (fun k => k < length (a_shape x)) d ->
    exists y, reduce_axes zero op e keep x d = Some y /\ wf y /\ a_shape y = reduced_shape keep d (a_shape x) /\
      (d <> [] -> folds_along zero e op (reduced_index keep d) x y) /\ (d = [] -> y = x).
  Proof.
    induction d as [|k d IH]; intros S x W F.
    - exists x. simpl. repeat split; auto; [|congruence]. destruct keep; simpl; [rewrite fill_nil|rewrite drop_nil]; reflexivity.
    - inv S. inv F. rewrite Forall_forall in H2.
      destruct (reduce_step keep x k W H3) as (r & b & Er & Eb & Wb & Sb & Fb).
      destruct (IH H1 b Wb) as (y & Ey & Wy & Sy & Fy & Y0).
      { rewrite Forall_forall. intros a Ha. apply H2 in Ha. rewrite Sb.
        destruct keep; [rewrite set_length; lia|rewrite remove_length by exact H3; lia]. }
      exists y. simpl reduce_axes. rewrite Er, Eb. split; [exact Ey|]. split; [exact Wy|].
      pose proof (reduced_step keep k d (a_shape x) H3 H2) as [RS _].
      split; [rewrite RS, <- Sb; exact Sy|]. split; [|discriminate]. intros _.
      apply (folds_along_ext zero e op (fun i => reduced_index keep d (if keep then set_at k 0 i else remove_at k i))).
      { intros i Hi. symmetry. apply reduced_step; [rewrite (in_bounds_length _ _ Hi); exact H3|exact H2]. }
      destruct d as [|k2 d].
      + rewrite (Y0 eq_refl). apply (folds_along_ext zero e op (fun i => if keep then set_at k 0 i else remove_at k i)); [|exact Fb].
        intros i _. destruct keep; simpl; [rewrite fill_nil|rewrite drop_nil]; reflexivity.
      + apply (folds_along_compose zero e op assoc comm ee (fun i => if keep then set_at k 0 i else remove_at k i) (reduced_index keep (k2 :: d)) x b y).
        * intros i Hi. rewrite Sb. destruct keep; [apply in_bounds_set; [exact Hi|lia]|apply in_bounds_remove; exact Hi].
        * exact Fb.
        * apply Fy. discriminate.
  Qed.

  Lemma reduce_ok keep axes ax (x : arr A) : wf x -> a_shape x <> [0] -> names_axes (length (a_shape x)) axes ax ->
    exists y, reduce zero op e axes keep false x = Some y /\ wf y /\ a_shape y = reduced_shape keep ax (a_shape x) /\
      (ax <> [] -> folds_along zero e op (reduced_index keep ax) x y) /\ (ax = [] -> y = x).
  Proof.
    intros W N [ND F]. unfold reduce, preprocess_axes. rewrite (normalize_axes_ok _ _ _ F). unfold bind, compute_reduce.
    assert (B : Forall (fun k => k < length (a_shape x)) ax).
    { clear - F. induction F; constructor; auto. tauto. }
    assert (E0 : a_shape x = [] -> ax = []).
    { intros E. destruct ax as [|k ax]; [reflexivity|]. inv B. rewrite E in H1. simpl in H1. lia. }
    assert (D : ax = [] \/ ax <> []) by (destruct ax; [left; reflexivity|right; discriminate]).
    destruct D as [->|Nax].
    - exists x. split; [destruct (is_scalar_shape _); reflexivity|]. repeat split; auto; try congruence.
      destruct keep; simpl; [rewrite fill_nil|rewrite drop_nil]; reflexivity.
    - assert (NS : is_scalar_shape (a_shape x) = false).
      { unfold is_scalar_shape. destruct (shape_eqb (a_shape x) []) eqn:Q1; [apply shape_eqb_ok in Q1; apply E0 in Q1; congruence|].
        destruct (shape_eqb (a_shape x) [0]) eqn:Q2; [apply shape_eqb_ok in Q2; contradiction|reflexivity]. }
      rewrite NS. replace (match ax with [] => Some x | _ => reduce_axes zero op e keep x (rev (sort ax)) end) with (reduce_axes zero op e keep x (rev (sort ax))) by (destruct ax; [congruence|reflexivity]).
      destruct (desc_sort ax ND) as [S P].
      destruct (reduce_axes_ok keep (rev (sort ax)) S x W (Permutation_Forall P B)) as (y & Ey & Wy & Sy & Fy & _).
      exists y. split; [exact Ey|]. split; [exact Wy|].
      split; [rewrite (proj1 (reduced_perm keep _ _ _ P)); exact Sy|]. split; [|congruence]. intros _.
      apply (folds_along_ext zero e op (reduced_index keep (rev (sort ax)))); [intros i _; symmetry; apply (reduced_perm keep _ _ i P)|].
      apply Fy. intros Q. rewrite Q in P. symmetry in P. apply Permutation_nil in P. congruence.
  Qed.

  (** ** The gradient: broadcasting back *)
  Lemma reduce_grad_ok keep axes ax sh (gy : arr A) : wf gy -> names_axes (length sh) axes ax -> sh <> [0] ->
    a_shape gy = reduced_shape keep ax sh ->
    exists gx, reduce_grad zero (negb keep) false axes sh gy = Some gx /\ wf gx /\ a_shape gx = sh /\
      forall i, in_bounds sh i -> aget zero gx i = aget zero gy (reduced_index keep ax i).
  Proof.
    intros W [ND F] Nz Sg. unfold reduce_grad.
    assert (B : Forall (fun k => k < length sh) ax) by (clear - F; induction F; constructor; auto; tauto).
    destruct (desc_sort ax ND) as [S P]. pose proof (Permutation_Forall P B) as B'.
    destruct (shape_eqb (a_shape gy) sh) eqn:Q.
    - apply shape_eqb_ok in Q. exists gy. repeat split; auto. intros i Hi. f_equal. pose proof (in_bounds_length _ _ Hi) as Li.
      rewrite Q in Sg. destruct keep; simpl in *.
      + apply (nth_ext _ _ 0 0); [rewrite fill_length; reflexivity|]. intros k Hk. rewrite fill_nth by exact Hk.
        destruct (memb k ax) eqn:M; [|reflexivity].
        assert (E : nth k sh 0 = 1) by (rewrite Sg, fill_nth, M by lia; reflexivity).
        pose proof (in_bounds_nth _ _ k Hi ltac:(lia)). lia.
      + destruct ax as [|k ax]; [rewrite drop_nil; reflexivity|]. exfalso. apply Forall_inv in B.
        assert (D : length (drop_axes (k :: ax) sh) < length sh) by (apply drop_length; exists k; simpl; auto).
        rewrite <- Sg in D. lia.
    - destruct keep; simpl negb; simpl orb.
      + assert (NS : is_scalar_shape (a_shape gy) = false).
        { simpl in Sg. unfold is_scalar_shape. destruct (shape_eqb (a_shape gy) []) eqn:Q1.
          - apply shape_eqb_ok in Q1. rewrite Q1 in Sg. apply (f_equal (@length nat)) in Sg. rewrite fill_length in Sg.
            destruct sh; [|discriminate]. rewrite Q1 in Q. discriminate.
          - destruct (shape_eqb (a_shape gy) [0]) eqn:Q2; [|reflexivity]. apply shape_eqb_ok in Q2. rewrite Q2 in Sg.
            pose proof (f_equal (@length nat) Sg) as L. rewrite fill_length in L.
            destruct sh as [|d [|]]; try discriminate. unfold fill_axes in Sg. simpl in Sg.
            destruct (memb 0 ax); congruence. }
        rewrite NS. unfold broadcast. rewrite Sg. simpl reduced_shape. rewrite can_broadcast_fill. eexists. split; [reflexivity|].
        split; [apply tab_wf|]. split; [reflexivity|]. intros i Hi. rewrite aget_tab by exact Hi. rewrite bc_idx_fill by exact Hi. reflexivity.
      + simpl in Sg. unfold preprocess_axes. rewrite (normalize_axes_ok _ _ _ F). unfold bind at 1.
        rewrite <- fold_left_rev_right. rewrite Sg, (drop_perm _ _ sh P).
        rewrite (insert_ones _ _ S B' sh eq_refl). unfold bind.
        rewrite into_shape_get by (rewrite Sg, (drop_perm _ _ sh P); symmetry; apply (prod_fill _ _ S B'); reflexivity).
        unfold broadcast. simpl a_shape. rewrite can_broadcast_fill. eexists. split; [reflexivity|].
        split; [apply tab_wf|]. split; [reflexivity|]. intros i Hi. rewrite aget_tab by exact Hi.
        rewrite bc_idx_fill by exact Hi. unfold aget. simpl. rewrite Sg. f_equal.
        rewrite (drop_perm _ _ sh P), (drop_perm _ _ i P). apply (ravel_fill _ _ S B'); [reflexivity|]. apply in_bounds_length. exact Hi.
  Qed.
End Reduce.
