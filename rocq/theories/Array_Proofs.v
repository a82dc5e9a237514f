(** Basic facts about arrays and indices. *)
From Coq Require Import List Arith Bool Lia Permutation.
Import ListNotations.
From Verif Require Import Eval_Proofs Array_Model.

Definition wf {A} (a : arr A) : Prop := length (a_data a) = prod (a_shape a).

(** ** Indices *)
Lemma indices_in sh : forall i, In i (indices sh) <-> in_bounds sh i.
Proof.
  induction sh as [|d sh IH]; intros i; simpl.
  - split.
    + intros [<-|[]]. constructor.
    + intros H. inv H. auto.
  - rewrite in_flat_map. split.
    + intros (k & Hk & Hi). apply in_map_iff in Hi. destruct Hi as (j & <- & Hj). apply in_seq in Hk.
      constructor; [lia|]. apply IH. exact Hj.
    + intros H. inv H. exists x. split; [apply in_seq; lia|]. apply in_map. apply IH. auto.
Qed.
Lemma indices_length sh : length (indices sh) = prod sh.
Proof.
  induction sh as [|d sh IH]; [reflexivity|]. simpl.
  assert (H : forall s n, length (flat_map (fun i => map (cons i) (indices sh)) (seq s n)) = n * prod sh).
  { intros s n. revert s. induction n as [|n IHn]; intros s; [reflexivity|]. simpl. rewrite app_length, map_length, IHn, IH. reflexivity. }
  rewrite H. reflexivity.
Qed.
Lemma in_bounds_length sh i : in_bounds sh i -> length i = length sh.
Proof. intros H. induction H; simpl; auto. Qed.
Lemma ravel_lt sh i : in_bounds sh i -> ravel sh i < prod sh.
Proof.
  intros H. induction H as [|i d idx sh Hi H IH]; simpl; [lia|].
  assert (i * prod sh + prod sh <= d * prod sh); [|lia].
  replace (i * prod sh + prod sh) with (S i * prod sh) by (simpl; lia). apply Nat.mul_le_mono_r. lia.
Qed.
Lemma ravel_indices sh : map (ravel sh) (indices sh) = seq 0 (prod sh).
Proof.
  induction sh as [|d sh IH]; [reflexivity|]. simpl.
  assert (H : forall n s, map (ravel (d :: sh)) (flat_map (fun i => map (cons i) (indices sh)) (seq s n))
                          = seq (s * prod sh) (n * prod sh)).
  { induction n as [|n IHn]; intros s; [reflexivity|]. simpl seq. simpl flat_map. rewrite map_app, map_map. simpl.
    rewrite IHn. rewrite seq_app. f_equal; [|f_equal; lia].
    rewrite <- (map_map (ravel sh) (fun r => s * prod sh + r)). rewrite IH.
    clear. generalize (s * prod sh) as o. generalize (prod sh) as n. intros n o.
    assert (E : forall n k, map (fun r => o + r) (seq k n) = seq (o + k) n).
    { clear n. induction n as [|n IHn]; intros k; [reflexivity|]. simpl. f_equal. rewrite IHn. f_equal. lia. }
    etransitivity; [apply E|]. f_equal. lia. }
  rewrite H. reflexivity.
Qed.
Lemma indices_nodup sh : NoDup (indices sh).
Proof.
  apply (NoDup_map_inv (ravel sh)). rewrite ravel_indices. apply seq_NoDup.
Qed.
Lemma nth_indices sh i : in_bounds sh i -> nth_error (indices sh) (ravel sh i) = Some i.
Proof.
  intros H. revert H. revert i. induction sh as [|d sh IH]; intros i H.
  - inv H. reflexivity.
  - inv H. simpl. rename x into a. rename l into idx.
    assert (G : forall n s, s <= a < s + n ->
      nth_error (flat_map (fun i => map (cons i) (indices sh)) (seq s n)) ((a - s) * prod sh + ravel sh idx) = Some (a :: idx)).
    { induction n as [|n IHn]; intros s Hs; [lia|]. simpl.
      destruct (Nat.eq_dec a s) as [->|Hne].
      - rewrite Nat.sub_diag. simpl. rewrite nth_error_app1.
        + rewrite nth_error_map. rewrite IH by auto. reflexivity.
        + rewrite map_length, indices_length. apply ravel_lt. auto.
      - rewrite nth_error_app2; rewrite map_length, indices_length.
        + replace ((a - s) * prod sh + ravel sh idx - prod sh) with ((a - S s) * prod sh + ravel sh idx).
          * apply IHn. lia.
          * replace (a - s) with (S (a - S s)) by lia. generalize (a - S s). intros q. rewrite Nat.mul_succ_l. lia.
        + replace (a - s) with (S (a - S s)) by lia. generalize (a - S s). intros q. rewrite Nat.mul_succ_l. lia. }
    specialize (G d 0). rewrite Nat.sub_0_r in G. apply G. lia.
Qed.
Lemma ravel_inj sh i j : in_bounds sh i -> in_bounds sh j -> ravel sh i = ravel sh j -> i = j.
Proof. intros Hi Hj E. apply nth_indices in Hi. apply nth_indices in Hj. rewrite E in Hi. congruence. Qed.
Lemma map_seq_nth {A} (d : A) l : map (fun k => nth k l d) (seq 0 (length l)) = l.
Proof.
  induction l as [|x l IH]; [reflexivity|]. simpl. f_equal. rewrite <- seq_shift, map_map. exact IH.
Qed.

(** ** Tabulation and indexing *)
Section Basic.
  Context {A : Type} (d : A).
  Lemma tab_shape sh (f : list nat -> A) : a_shape (tab sh f) = sh.
  Proof. reflexivity. Qed.
  Lemma tab_wf sh (f : list nat -> A) : wf (tab sh f).
  Proof. unfold wf, tab. simpl. rewrite map_length. apply indices_length. Qed.
  Lemma aget_tab sh f i : in_bounds sh i -> aget d (tab sh f) i = f i.
  Proof.
    intros H. unfold aget, tab. simpl. apply nth_error_nth. rewrite nth_error_map, (nth_indices sh i H). reflexivity.
  Qed.
  Lemma tab_aget a : wf a -> tab (a_shape a) (aget d a) = a.
  Proof.
    intros W. destruct a as [sh l]. unfold wf in W. simpl in *. unfold tab, aget. simpl. f_equal.
    rewrite <- (map_map (ravel sh) (fun k => nth k l d)). rewrite ravel_indices, <- W. apply map_seq_nth.
  Qed.
  Lemma tab_ext sh f g : (forall i, in_bounds sh i -> f i = g i) -> @tab A sh f = tab sh g.
  Proof. intros H. unfold tab. f_equal. apply map_ext_in. intros i Hi. apply H. apply indices_in. exact Hi. Qed.
  Lemma arr_ext a b : wf a -> wf b -> a_shape a = a_shape b ->
    (forall i, in_bounds (a_shape a) i -> aget d a i = aget d b i) -> a = b.
  Proof.
    intros Wa Wb E H. rewrite <- (tab_aget a Wa), <- (tab_aget b Wb), <- E. apply tab_ext. exact H.
  Qed.
  Lemma aget_map {B} (e : B) (f : A -> B) a i : wf a -> in_bounds (a_shape a) i -> aget e (amap f a) i = f (aget d a i).
  Proof.
    intros W H. unfold aget, amap. simpl. rewrite (nth_indep _ e (f d)).
    - apply map_nth.
    - rewrite map_length, W. apply ravel_lt. exact H.
  Qed.
  Lemma amap_wf {B} (f : A -> B) a : wf a -> wf (amap f a).
  Proof. unfold wf, amap. simpl. rewrite map_length. auto. Qed.
  Lemma aget_full sh (v : A) i : in_bounds sh i -> aget d (full sh v) i = v.
  Proof. intros H. unfold full. rewrite aget_tab by exact H. reflexivity. Qed.
End Basic.

(** ** Broadcasting *)
Lemma shape_eqb_ok a b : shape_eqb a b = true <-> a = b.
Proof. unfold shape_eqb. destruct (list_eq_dec Nat.eq_dec a b); split; congruence. Qed.
Lemma map2_length {A B C} (f : A -> B -> C) l : forall l', length (map2 f l l') = Nat.min (length l) (length l').
Proof. induction l as [|x l IH]; intros [|y l']; simpl; auto. Qed.
Lemma bc_dims_bounds from to idx : dims_ok from to = true -> in_bounds to idx ->
  in_bounds from (map2 (fun d i => if d =? 1 then 0 else i) from idx).
Proof.
  intros H Hb. revert from H. induction Hb as [|i t idx to Hi Hb IH]; intros [|f from] H; simpl in *; try discriminate.
  - constructor.
  - apply andb_prop in H. destruct H as [H1 H2]. constructor; [|apply IH; exact H2].
    destruct (Nat.eqb_spec f 1) as [->|Hf]; [lia|]. apply orb_prop in H1. destruct H1 as [H1|H1]; [|discriminate].
    apply Nat.eqb_eq in H1. subst f. exact Hi.
Qed.
Lemma in_bounds_skipn k : forall sh i, in_bounds sh i -> in_bounds (skipn k sh) (skipn k i).
Proof.
  induction k as [|k IH]; intros sh i H; [exact H|]. inv H; simpl; [constructor|]. apply IH. auto.
Qed.
Lemma bc_bounds from to idx : can_broadcast from to = true -> in_bounds to idx -> in_bounds from (bc_idx from idx).
Proof.
  unfold can_broadcast, bc_idx. intros H Hb. apply andb_prop in H. destruct H as [H1 H2].
  rewrite (in_bounds_length _ _ Hb). apply bc_dims_bounds with (to := skipn (length to - length from) to); auto.
  apply in_bounds_skipn. exact Hb.
Qed.
Lemma bc_idx_self sh i : in_bounds sh i -> bc_idx sh i = i.
Proof.
  intros H. unfold bc_idx. rewrite (in_bounds_length _ _ H), Nat.sub_diag. simpl.
  induction H as [|i d idx sh Hi H IH]; simpl; [reflexivity|]. rewrite IH. f_equal.
  destruct (Nat.eqb_spec d 1); lia.
Qed.
Lemma dims_ok_refl sh : dims_ok sh sh = true.
Proof. induction sh as [|x sh IH]; [reflexivity|]. simpl. rewrite Nat.eqb_refl. exact IH. Qed.
Lemma can_broadcast_refl sh : can_broadcast sh sh = true.
Proof. unfold can_broadcast. rewrite Nat.leb_refl, Nat.sub_diag. simpl. apply dims_ok_refl. Qed.
Lemma co_dims_ok a : forall b r, co_dims a b = Some r -> dims_ok a r = true /\ dims_ok b r = true.
Proof.
  induction a as [|x a IH]; intros [|y b] r H; simpl in H; try discriminate.
  - inv H. auto.
  - destruct (co_dims a b) as [r'|] eqn:E; [|discriminate]. destruct (IH b r' E) as [H1 H2].
    destruct (Nat.eqb_spec x y) as [->|Hxy]; [inv H; simpl; rewrite Nat.eqb_refl, H1, H2; auto|].
    destruct (Nat.eqb_spec x 1) as [->|Hx]; [inv H; simpl; rewrite Nat.eqb_refl, H1, H2, orb_true_r; auto|].
    destruct (Nat.eqb_spec y 1) as [->|Hy]; [inv H; simpl; rewrite Nat.eqb_refl, H1, H2, orb_true_r; auto|discriminate].
Qed.
Lemma co_dims_sym a : forall b, co_dims a b = co_dims b a.
Proof.
  induction a as [|x a IH]; intros [|y b]; simpl; auto. rewrite IH. destruct (co_dims b a) as [r|]; [|reflexivity].
  destruct (Nat.eqb_spec x y) as [->|Hxy]; [rewrite Nat.eqb_refl; reflexivity|].
  destruct (Nat.eqb_spec y x); [congruence|]. destruct (Nat.eqb_spec x 1), (Nat.eqb_spec y 1); subst; auto; congruence.
Qed.
Lemma co_dims_self a : co_dims a a = Some a.
Proof. induction a as [|x a IH]; simpl; [reflexivity|]. rewrite IH, Nat.eqb_refl. reflexivity. Qed.
Lemma co_broadcast_sym a b : co_broadcast a b = co_broadcast b a.
Proof.
  unfold co_broadcast. rewrite co_dims_sym. destruct (co_dims _ _); [|reflexivity]. f_equal.
  destruct (Nat.le_ge_cases (length a) (length b)) as [H|H].
  - replace (length a - length b) with 0 by lia. reflexivity.
  - replace (length b - length a) with 0 by lia. reflexivity.
Qed.
Lemma co_broadcast_self a : co_broadcast a a = Some a.
Proof. unfold co_broadcast. rewrite Nat.sub_diag. simpl. rewrite co_dims_self. reflexivity. Qed.
Lemma co_dims_length a : forall b r, co_dims a b = Some r -> length r = length a /\ length b = length a.
Proof.
  induction a as [|x a IH]; intros [|y b] r H; simpl in H; try discriminate; [inv H; auto|].
  destruct (co_dims a b) as [r'|] eqn:E; [|discriminate]. destruct (IH b r' E).
  destruct (x =? y); [inv H; simpl; lia|]. destruct (x =? 1); [inv H; simpl; lia|]. destruct (y =? 1); [inv H; simpl; lia|discriminate].
Qed.
Lemma skipn_all0 {A} (l : list A) n : length l <= n -> skipn n l = [].
Proof. intros H. apply length_zero_iff_nil. rewrite skipn_length. lia. Qed.
Lemma co_broadcast_ok_l a b r : co_broadcast a b = Some r -> can_broadcast a r = true.
Proof.
  unfold co_broadcast, can_broadcast. destruct (co_dims _ _) as [r'|] eqn:E; [|discriminate]. intros H. inv H.
  destruct (co_dims_ok _ _ _ E) as [H1 H2]. destruct (co_dims_length _ _ _ E) as [L1 L2]. rewrite !skipn_length in *.
  assert (Ll : length (firstn (length a - length b) a ++ firstn (length b - length a) b ++ r') =
               Nat.max (length a) (length b)).
  { rewrite !app_length, !firstn_length, L1. lia. }
  rewrite Ll. destruct (Nat.le_ge_cases (length a) (length b)) as [H|H].
  - replace (length a - length b) with 0 in * by lia. simpl in *.
    replace (Nat.max (length a) (length b)) with (length b) by lia.
    rewrite (proj2 (Nat.leb_le _ _) H). simpl. rewrite skipn_app, firstn_length.
    replace (Nat.min (length b - length a) (length b)) with (length b - length a) by lia.
    rewrite Nat.sub_diag. simpl. rewrite skipn_all0 by (rewrite firstn_length; lia). exact H1.
  - replace (length b - length a) with 0 in * by lia. simpl in *.
    replace (Nat.max (length a) (length b)) with (length a) by lia. rewrite Nat.leb_refl, Nat.sub_diag. simpl.
    rewrite <- (firstn_skipn (length a - length b) a) at 1. clear - H1.
    induction (firstn (length a - length b) a) as [|x l IH]; simpl; [exact H1|]. rewrite Nat.eqb_refl. exact IH.
Qed.
Lemma co_broadcast_ok_r a b r : co_broadcast a b = Some r -> can_broadcast b r = true.
Proof. rewrite co_broadcast_sym. apply co_broadcast_ok_l. Qed.

(** ** Editing lists at a position *)
Lemma insert_remove {A} k (x : A) l : k <= length l -> remove_at k (insert_at k x l) = l.
Proof.
  revert l. induction k as [|k IH]; intros [|y l] H; simpl in *; auto; try lia. f_equal. apply IH. lia.
Qed.
Lemma insert_length {A} k (x : A) l : length (insert_at k x l) = S (length l).
Proof. revert l. induction k as [|k IH]; intros [|y l]; simpl; auto. Qed.
Lemma set_length {A} k (x : A) l : length (set_at k x l) = length l.
Proof. revert l. induction k as [|k IH]; intros [|y l]; simpl; auto. Qed.
Lemma nth_insert_eq {A} k (x d : A) l : k <= length l -> nth k (insert_at k x l) d = x.
Proof. revert l. induction k as [|k IH]; intros [|y l] H; simpl in *; auto; try lia. apply IH. lia. Qed.
Lemma nth_set {A} k (x d : A) l j : nth j (set_at k x l) d = if (j =? k) && (k <? length l) then x else nth j l d.
Proof.
  revert l j. induction k as [|k IH]; intros [|y l] [|j]; simpl; auto.
  - destruct (j =? k); reflexivity.
  - rewrite IH. reflexivity.
Qed.
Lemma insert_remove_nth {A} k (d : A) l : k < length l -> insert_at k (nth k l d) (remove_at k l) = l.
Proof. revert l. induction k as [|k IH]; intros [|y l] H; simpl in *; try lia; auto. f_equal. apply IH. lia. Qed.
Lemma in_bounds_insert k sh i x dk : k <= length sh -> (in_bounds (insert_at k dk sh) (insert_at k x i) /\ length i = length sh <->
  x < dk /\ in_bounds sh i).
Proof.
  revert sh i. induction k as [|k IH]; intros sh i Hk.
  - simpl. split.
    + intros [H _]. inv H. auto.
    + intros [H1 H2]. split; [constructor; auto|apply in_bounds_length; auto].
  - destruct sh as [|d sh]; simpl in Hk; [lia|]. destruct i as [|a i]; simpl.
    + split; [intros [_ H]; discriminate|intros [_ H]; inv H].
    + split.
      * intros [H HL]. inv H. destruct (proj1 (IH sh i ltac:(lia))) as [A B]; [split; auto|]. split; auto. constructor; auto.
      * intros [H1 H2]. inv H2. destruct (proj2 (IH sh i ltac:(lia))) as [A B]; [auto|]. split; [constructor; auto|simpl; congruence].
Qed.
Lemma in_bounds_remove k sh i : in_bounds sh i -> in_bounds (remove_at k sh) (remove_at k i).
Proof.
  intros H. revert k. induction H as [|a d i sh Ha H IH]; intros [|k]; simpl; [constructor|constructor|exact H|constructor; [exact Ha|apply IH]].
Qed.
Lemma in_bounds_nth sh i k : in_bounds sh i -> k < length sh -> nth k i 0 < nth k sh 0.
Proof.
  intros H. revert k. induction H as [|a d i sh Ha H IH]; intros [|k] Hk; simpl in *; try lia. apply IH. lia.
Qed.
Lemma in_bounds_set k sh i x dk : in_bounds sh i -> x < dk -> in_bounds (set_at k dk sh) (set_at k x i).
Proof.
  intros H Hx. revert k. induction H as [|a d i sh Ha H IH]; intros [|k]; simpl; [constructor|constructor|constructor; assumption|constructor; [exact Ha|apply IH]].
Qed.

(** Inserting an axis of length one does not move the elements. *)
Lemma prod_insert k sh x : prod (insert_at k x sh) = x * prod sh.
Proof.
  revert sh. induction k as [|k IH]; intros [|d sh]; simpl; auto. rewrite IH. lia.
Qed.
Lemma ravel_insert1 k sh : forall i, k <= length sh -> length i = length sh ->
  ravel (insert_at k 1 sh) (insert_at k 0 i) = ravel sh i.
Proof.
  revert sh. induction k as [|k IH]; intros sh i Hk HL; [reflexivity|].
  destruct sh as [|d sh]; simpl in *; [lia|]. destruct i as [|a i]; simpl in *; [lia|].
  rewrite IH by lia. rewrite prod_insert. lia.
Qed.
