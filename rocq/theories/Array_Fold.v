(** Folding array elements along a map of indices, for a commutative and
    associative operation with an idempotent start value (sum, product, minimum,
    maximum). *)
From Coq Require Import List Arith Bool Lia Permutation.
Import ListNotations.
From Verif Require Import Eval_Proofs Array_Model Array_Proofs Array_Sum Arith_Model Arith_Proofs.

Lemma filter_split {I} (b1 b2 : I -> bool) l : (forall i, In i l -> b1 i = true -> b2 i = false) ->
  Permutation (filter (fun i => b1 i || b2 i) l) (filter b1 l ++ filter b2 l).
Proof.
  induction l as [|x l IH]; intros H; simpl; [constructor|].
  assert (IH' : Permutation (filter (fun i => b1 i || b2 i) l) (filter b1 l ++ filter b2 l)) by (apply IH; intros; apply H; simpl; auto).
  destruct (b1 x) eqn:E1; simpl.
  - rewrite (H x (or_introl eq_refl) E1). constructor. exact IH'.
  - destruct (b2 x); [|exact IH']. apply Permutation_cons_app. exact IH'.
Qed.
Lemma fibres_perm {I} (p : I -> list nat) (L : list I) M : NoDup M ->
  Permutation (flat_map (fun j => filter (fun i => shape_eqb (p i) j) L) M)
              (filter (fun i => existsb (shape_eqb (p i)) M) L).
Proof.
  induction M as [|j M IH]; intros ND; simpl.
  - induction L as [|x L IHL]; simpl; auto.
  - inv ND. symmetry. etransitivity.
    + apply filter_split. intros i _ E. apply shape_eqb_ok in E. subst j.
      destruct (existsb (shape_eqb (p i)) M) eqn:E2; [|reflexivity]. apply existsb_exists in E2.
      destruct E2 as (k & Hk & E2). apply shape_eqb_ok in E2. subst k. contradiction.
    + apply Permutation_app_head. symmetry. apply IH. exact H2.
Qed.

Section Fold.
  Context {A : Type} (zero e : A) (op : A -> A -> A).
  Hypothesis assoc : forall a b c, op a (op b c) = op (op a b) c.
  Hypothesis comm : forall a b, op a b = op b a.
  Hypothesis ee : op e e = e.
  Notation fsum := (sumf e op).

  Definition folds_along (p : list nat -> list nat) (a b : arr A) : Prop :=
    forall j, in_bounds (a_shape b) j ->
      aget zero b j = fsum (filter (fun i => shape_eqb (p i) j) (indices (a_shape a))) (aget zero a).

  Lemma fs_unit {I} (l : list I) f : op e (fsum l f) = fsum l f.
  Proof. induction l as [|x l IH]; simpl; [exact ee|]. rewrite assoc, (comm e), <- assoc, IH. reflexivity. Qed.
  Lemma fs_app {I} (l l' : list I) f : fsum (l ++ l') f = op (fsum l f) (fsum l' f).
  Proof. induction l as [|x l IH]; simpl; [symmetry; apply fs_unit|]. rewrite IH. apply assoc. Qed.
  Lemma fs_perm {I} (l l' : list I) f : Permutation l l' -> fsum l f = fsum l' f.
  Proof.
    induction 1; simpl; try reflexivity; [rewrite IHPermutation; reflexivity| |congruence].
    rewrite !assoc. rewrite (comm (f y)). reflexivity.
  Qed.
  Lemma fs_ext {I} (l : list I) f g : (forall i, In i l -> f i = g i) -> fsum l f = fsum l g.
  Proof. induction l as [|x l IH]; intros H; simpl; [reflexivity|]. rewrite IH by (intros; apply H; simpl; auto). rewrite H by (simpl; auto). reflexivity. Qed.
  Lemma fs_map {I J} (l : list I) (h : I -> J) f : fsum (map h l) f = fsum l (fun i => f (h i)).
  Proof. induction l as [|x l IH]; simpl; [reflexivity|]. rewrite IH. reflexivity. Qed.
  Lemma fs_flat_map {I J} (l : list I) (h : I -> list J) f : fsum (flat_map h l) f = fsum l (fun i => fsum (h i) f).
  Proof. induction l as [|x l IH]; simpl; [reflexivity|]. rewrite fs_app, IH. reflexivity. Qed.
  Lemma fs_list (l : list A) : fold_left op l e = fsum l (fun x => x).
  Proof.
    assert (G : forall l acc, fold_left op l (op acc e) = op acc (fsum l (fun x => x))).
    { clear l. induction l as [|x l IH]; intros acc; simpl; [reflexivity|].
      replace (op (op acc e) x) with (op (op acc x) e).
      - rewrite IH. symmetry. apply assoc.
      - rewrite <- !assoc. f_equal. apply comm. }
    transitivity (fold_left op l (op e e)); [rewrite ee; reflexivity|]. rewrite G. apply fs_unit.
  Qed.

  Lemma folds_along_ext p q a b : (forall i, in_bounds (a_shape a) i -> p i = q i) -> folds_along p a b -> folds_along q a b.
  Proof.
    intros H S j Hj. rewrite S by exact Hj. f_equal. apply filter_ext_in. intros i Hi. rewrite H by (apply indices_in; exact Hi). reflexivity.
  Qed.
  Lemma folds_along_compose p q a b c : maps_into p (a_shape a) (a_shape b) ->
    folds_along p a b -> folds_along q b c -> folds_along (fun i => q (p i)) a c.
  Proof.
    intros M S1 S2 j Hj. rewrite S2 by exact Hj.
    set (K := filter (fun k => shape_eqb (q k) j) (indices (a_shape b))).
    rewrite (fs_ext K _ (fun k => fsum (filter (fun i => shape_eqb (p i) k) (indices (a_shape a))) (aget zero a))).
    - rewrite <- fs_flat_map. apply fs_perm. etransitivity; [apply fibres_perm|].
      + apply NoDup_filter. apply indices_nodup.
      + rewrite (filter_ext_in _ (fun i => shape_eqb (q (p i)) j)); [apply Permutation_refl|].
        intros i Hi. apply indices_in in Hi. apply M in Hi. apply eq_true_iff_eq. rewrite existsb_exists. split.
        * intros (k & Hk & E). apply shape_eqb_ok in E. subst k. apply filter_In in Hk. tauto.
        * intros E. exists (p i). split; [apply filter_In; split; [apply indices_in; exact Hi|exact E]|apply shape_eqb_ok; reflexivity].
    - intros k Hk. apply filter_In in Hk. apply S1. apply indices_in. tauto.
  Qed.
  (** Reading the result through a bijection of its indices. *)
  Lemma folds_along_rename p q r a b c : maps_into r (a_shape c) (a_shape b) ->
    (forall j, in_bounds (a_shape c) j -> aget zero c j = aget zero b (r j)) ->
    (forall i j, in_bounds (a_shape a) i -> in_bounds (a_shape c) j -> (p i = r j <-> q i = j)) ->
    folds_along p a b -> folds_along q a c.
  Proof.
    intros M H E S j Hj. rewrite H by exact Hj. rewrite S by (apply M; exact Hj). f_equal.
    apply filter_ext_in. intros i Hi. apply indices_in in Hi. apply eq_true_iff_eq. rewrite !shape_eqb_ok. apply E; auto.
  Qed.

  Lemma fold_axis_along a k b : fold_axis zero a k e op = Some b ->
    a_shape b = remove_at k (a_shape a) /\ wf b /\ folds_along (remove_at k) a b.
  Proof.
    unfold fold_axis. destruct (nth_error (a_shape a) k) as [n|] eqn:En; [|discriminate]. intros H. inv H.
    split; [reflexivity|]. split; [apply tab_wf|]. intros j Hj. simpl in Hj. rewrite aget_tab by exact Hj.
    rewrite fs_list, fs_map.
    assert (Hk : k < length (a_shape a)) by (apply nth_error_Some; congruence).
    assert (Ln : nth k (a_shape a) 0 = n) by (apply nth_error_nth; exact En).
    rewrite <- (fs_map (seq 0 n) (fun i => insert_at k i j) (aget zero a)).
    apply fs_perm.
    assert (Lj : length j = length (remove_at k (a_shape a))) by (apply in_bounds_length; exact Hj).
    assert (Lr : length (a_shape a) = S (length (remove_at k (a_shape a)))).
    { rewrite <- (insert_remove_nth k 0 (a_shape a) Hk) at 1. apply insert_length. }
    apply NoDup_Permutation.
    - apply (NoDup_map_inv (fun i => nth k i 0)). rewrite map_map. rewrite (map_ext_in _ (fun x => x)).
      + rewrite map_id. apply seq_NoDup.
      + intros x _. apply nth_insert_eq. lia.
    - apply NoDup_filter. apply indices_nodup.
    - intros i. rewrite filter_In, indices_in, in_map_iff. split.
      + intros (x & <- & Hx). apply in_seq in Hx. split.
        * rewrite <- (insert_remove_nth k 0 (a_shape a) Hk). rewrite Ln. apply in_bounds_insert; [lia|]. split; [lia|exact Hj].
        * apply shape_eqb_ok. apply insert_remove. lia.
      + intros [Hi E]. apply shape_eqb_ok in E. exists (nth k i 0). split.
        * rewrite <- E. apply insert_remove_nth. rewrite (in_bounds_length _ _ Hi). exact Hk.
        * apply in_seq. pose proof (in_bounds_nth _ _ k Hi Hk). lia.
  Qed.
  Lemma expand_dims_reads (a : arr A) k : k <= length (a_shape a) -> wf a ->
    exists b, expand_dims a k = Some b /\ wf b /\ a_shape b = insert_at k 1 (a_shape a) /\
      forall j, in_bounds (a_shape b) j -> in_bounds (a_shape a) (remove_at k j) /\ insert_at k 0 (remove_at k j) = j /\
        aget zero b j = aget zero a (remove_at k j).
  Proof.
    intros Hk W. unfold expand_dims. rewrite (proj2 (Nat.leb_le _ _) Hk).
    rewrite into_shape_get by (rewrite prod_insert; lia). eexists. split; [reflexivity|].
    split; [unfold wf in *; simpl; rewrite prod_insert; lia|]. split; [reflexivity|]. simpl. intros j Hj.
    pose proof (in_bounds_length _ _ Hj) as Lj. rewrite insert_length in Lj.
    assert (Z : nth k j 0 = 0).
    { pose proof (in_bounds_nth _ _ k Hj) as Q. rewrite insert_length, nth_insert_eq in Q by exact Hk. lia. }
    assert (B1 : in_bounds (a_shape a) (remove_at k j)).
    { apply (in_bounds_remove k) in Hj. rewrite insert_remove in Hj by exact Hk. exact Hj. }
    assert (B2 : insert_at k 0 (remove_at k j) = j) by (rewrite <- Z at 1; apply insert_remove_nth; lia).
    split; [exact B1|]. split; [exact B2|].
    unfold aget. simpl. f_equal. rewrite <- B2 at 1. apply ravel_insert1; [exact Hk|]. apply in_bounds_length. exact B1.
  Qed.
  Lemma fold_expand_along a k : k < length (a_shape a) -> wf a ->
    exists r b, fold_axis zero a k e op = Some r /\ expand_dims r k = Some b /\ wf b /\
      a_shape b = set_at k 1 (a_shape a) /\ folds_along (set_at k 0) a b.
  Proof.
    intros Hk W. destruct (proj2 (fold_axis_defined zero a k e op) Hk) as [r Er].
    destruct (fold_axis_along a k r Er) as (Sr & Wr & Ar).
    assert (Lr : length (a_shape r) = length (a_shape a) - 1) by (rewrite Sr; apply remove_length; exact Hk).
    destruct (expand_dims_reads r k ltac:(lia) Wr) as (b & Eb & Wb & Sb & Rb).
    exists r, b. split; [exact Er|]. split; [exact Eb|]. split; [exact Wb|].
    split; [rewrite Sb, Sr; apply remove_insert_set; exact Hk|].
    apply (folds_along_rename (remove_at k) (set_at k 0) (remove_at k) a r b); auto.
    - intros j Hj. apply Rb. exact Hj.
    - intros j Hj. apply Rb. exact Hj.
    - intros i j Hi Hj. destruct (Rb j Hj) as (_ & B2 & _).
      assert (Li : k < length i) by (rewrite (in_bounds_length _ _ Hi); exact Hk).
      rewrite <- (remove_insert_set k 0 i Li). split.
      + intros ->. exact B2.
      + intros <-. symmetry. apply insert_remove. rewrite remove_length by exact Li. lia.
  Qed.
End Fold.
