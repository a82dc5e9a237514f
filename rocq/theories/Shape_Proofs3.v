(** Proofs about reshape, expand_dims, squeeze, transpose, add_n, access_elem. *)
From Coq Require Import List Arith ZArith Bool Lia Reals Lra RealField Permutation Sorted.
Import ListNotations.
From Verif Require Import Eval_Proofs Array_Model Array_Proofs Array_Sum Array_Fold Arith_Model Arith_Proofs Vjp_Spec Vjp_Proofs Arith_Final Reduce_Model Reduce_Spec Reduce_Proofs Shape_Model Shape_Spec Shape_Proofs Shape_Proofs2.

(** ** Reshape *)
Lemma fold_mul l : forall a, fold_left Z.mul l a = (a * fold_right Z.mul 1 l)%Z.
Proof. induction l as [|x l IH]; intros a; simpl; [lia|]. rewrite IH. lia. Qed.
Lemma forall2_map_of_nat l : Forall2 (fun d n => d = Z.of_nat n \/ d = (-1)%Z) (map Z.of_nat l) l.
Proof. induction l; simpl; constructor; auto. Qed.
Lemma plain_shape l : describes (map Z.of_nat l) l.
Proof.
  assert (N : ~ In (-1)%Z (map Z.of_nat l)) by (rewrite in_map_iff; intros (n & E & _); lia).
  split; [apply forall2_map_of_nat|]. split; [|intros H; contradiction]. apply (count_occ_not_In Z.eq_dec) in N. lia.
Qed.
(** Without a -1 the product of the entries is the number of elements; with one
    at length n it is minus the product of the others. *)
Lemma describes_prod dims out : describes dims out ->
  (~ In (-1)%Z dims /\ Forall2 (fun d n => d = Z.of_nat n) dims out) \/
  (exists p n, (0 < p)%Z /\ fold_right Z.mul 1%Z dims = (- p)%Z /\ Z.of_nat (prod out) = (p * Z.of_nat n)%Z /\
     Forall2 (fun d m => d = Z.of_nat m /\ d <> (-1)%Z \/ d = (-1)%Z /\ m = n) dims out).
Proof.
  intros (F & C & Z0).
  induction F as [|d n dims out H F IH]; [left; split; [intros []|constructor]|].
  destruct (Z.eq_dec d (-1)) as [->|Nd].
  - right. simpl in C. destruct (Z.eq_dec (-1) (-1)) as [_|]; [|congruence].
    assert (N : ~ In (-1)%Z dims) by (apply (count_occ_not_In Z.eq_dec); lia).
    assert (Nz : ~ In 0%Z dims) by (intros Q; apply Z0; simpl; auto).
    assert (F' : Forall2 (fun d n => d = Z.of_nat n /\ d <> (-1)%Z /\ d <> 0%Z) dims out).
    { clear - F N Nz. induction F as [|d m dims out H F IH]; constructor.
      - simpl in N, Nz. intuition congruence.
      - apply IH; simpl in *; tauto. }
    assert (P : fold_right Z.mul 1%Z dims = Z.of_nat (prod out) /\ (0 < Z.of_nat (prod out))%Z).
    { clear - F'. induction F' as [|d m dims out (H1 & H2 & H3) F IH]; [simpl; lia|]. change (prod (m :: out)) with (m * prod out). cbn [fold_right]. destruct IH as [-> IH]. rewrite Nat2Z.inj_mul. split; [congruence|]. apply Z.mul_pos_pos; lia. }
    destruct P as [P1 P2]. exists (Z.of_nat (prod out)), n. split; [exact P2|]. split; [cbn [fold_right]; rewrite P1; ring|]. split; [change (prod (n :: out)) with (n * prod out); rewrite Nat2Z.inj_mul; ring|].
    constructor; [right; auto|]. refine (forall2_impl _ _ _ _ _ F'). intros a b (H1 & H2 & _). auto.
  - destruct H as [H|H]; [|contradiction]. simpl in C. destruct (Z.eq_dec d (-1)) as [|_]; [contradiction|].
    destruct (IH C) as [[N F']|(p & m & Hp & P1 & P2 & F')].
    + intros Q1 Q2. apply Z0; simpl; auto.
    + left. split; [simpl; intuition|constructor; auto].
    + right. assert (Nz : d <> 0%Z).
      { intros ->. apply Z0; [right|left; reflexivity]. clear - F' Hp P1. destruct (in_dec Z.eq_dec (-1)%Z dims) as [|N]; [assumption|exfalso].
        assert (Q : (0 <= fold_right Z.mul 1 dims)%Z).
        { clear P1. induction F' as [|a b dims out H F IH]; simpl; [lia|]. apply Z.mul_nonneg_nonneg; [destruct H as [[-> _]|[-> _]]; [lia|simpl in N; tauto]|]. apply IH. simpl in N. tauto. }
        lia. }
      exists (d * p)%Z, m. split; [apply Z.mul_pos_pos; lia|]. split; [cbn [fold_right]; rewrite P1; ring|]. split; [change (prod (n :: out)) with (n * prod out); rewrite Nat2Z.inj_mul, P2, H; ring|].
      constructor; [left; auto|exact F'].
Qed.
Lemma reshape_dims_ok dims out n : describes dims out -> prod out = n -> reshape_dims n dims dims = Some out.
Proof.
  intros D P. destruct (describes_prod dims out D) as [[N F]|(p & m & Hp & P1 & P2 & F)].
  - assert (Q : forall l o, ~ In (-1)%Z l -> Forall2 (fun d n => d = Z.of_nat n) l o -> reshape_dims n dims l = Some o).
    { clear. intros l o N F. induction F as [|d m l o -> F IH]; simpl; [reflexivity|]. unfold reshape_dim.
      destruct (Z.eqb_spec (Z.of_nat m) (-1)); [lia|]. destruct (Z.ltb_spec (Z.of_nat m) 0); [lia|]. unfold bind at 1.
      rewrite IH by (simpl in N; tauto). unfold bind. rewrite Nat2Z.id. reflexivity. }
    apply Q; auto.
  - assert (Q : forall l o, Forall2 (fun d i => d = Z.of_nat i /\ d <> (-1)%Z \/ d = (-1)%Z /\ i = m) l o -> reshape_dims n dims l = Some o).
    { intros l o F'. induction F' as [|d i l o H F' IH]; simpl; [reflexivity|]. unfold reshape_dim. rewrite fold_mul, P1.
      destruct H as [[-> H]|[-> ->]].
      - destruct (Z.eqb_spec (Z.of_nat i) (-1)); [lia|]. destruct (Z.ltb_spec (Z.of_nat i) 0); [lia|]. unfold bind at 1.
        rewrite IH. unfold bind. rewrite Nat2Z.id. reflexivity.
      - simpl Z.eqb. cbv iota zeta. replace (- (1 * - p))%Z with p by lia. destruct (Z.ltb_spec 0 p); [|lia]. unfold bind at 1. rewrite IH. unfold bind.
        f_equal. f_equal. rewrite <- P, P2. rewrite Z.mul_comm, Z.div_mul by lia. apply Nat2Z.id. }
    apply Q. exact F.
Qed.
Lemma reshape_ok {A} dims out (x : arr A) : describes dims out -> wf x -> prod out = prod (a_shape x) -> reshape dims x = Some (Arr out (a_data x)).
Proof.
  intros D W P. unfold reshape. rewrite (reshape_dims_ok dims out _ D) by (rewrite W; exact P). unfold bind. apply into_shape_get. congruence.
Qed.

(** ** Sorting signed axes *)
Lemma sortZ_nat l : sortZ (map Z.of_nat l) = map Z.of_nat (sort l).
Proof.
  unfold sortZ, sort. induction l as [|x l IH]; simpl; [reflexivity|]. rewrite IH. clear IH. generalize (fold_right insert_sorted [] l) as s.
  induction s as [|y s IH]; simpl; [reflexivity|]. destruct (Z.leb_spec (Z.of_nat x) (Z.of_nat y)), (Nat.leb_spec x y); try lia; simpl; auto. rewrite IH. reflexivity.
Qed.
Lemma insert_sortedZ_perm x l : Permutation (x :: l) (insert_sortedZ x l).
Proof. induction l as [|y l IH]; simpl; [auto|]. destruct (x <=? y)%Z; [auto|]. rewrite perm_swap. constructor. exact IH. Qed.
Lemma sortZ_perm l : Permutation l (sortZ l).
Proof. unfold sortZ. induction l as [|x l IH]; simpl; [auto|]. rewrite <- insert_sortedZ_perm. constructor. exact IH. Qed.
Lemma insert_sortedZ_sorted x l : StronglySorted Z.le l -> StronglySorted Z.le (insert_sortedZ x l).
Proof.
  intros S. induction S as [|y l S IH F]; simpl; [repeat constructor|]. destruct (Z.leb_spec x y).
  - constructor; [constructor; auto|]. constructor; [assumption|]. eapply Forall_impl; [|exact F]. intros a Ha. simpl in Ha. lia.
  - constructor; [exact IH|]. apply (Permutation_Forall (insert_sortedZ_perm x l)). constructor; [lia|exact F].
Qed.
Lemma sortZ_sorted l : StronglySorted Z.le (sortZ l).
Proof. unfold sortZ. induction l as [|x l IH]; simpl; [constructor|]. apply insert_sortedZ_sorted. exact IH. Qed.

(** ** expand_dims *)
Lemma expand_shape_app n a b : forall sh, expand_shape n (a ++ b) sh = bind (expand_shape n a sh) (expand_shape n b).
Proof.
  induction a as [|i a IH]; intros sh; simpl; [reflexivity|]. destruct (_ <? 0)%Z; [reflexivity|]. destruct (_ <=? length sh); [apply IH|reflexivity].
Qed.
Lemma expand_desc n d : forall m, StronglySorted (fun a b => b < a) d -> Forall (fun k => k < m) d ->
  forall out, length out = m -> Forall (fun k => nth k out 0 = 1) d ->
    expand_shape n (map Z.of_nat (rev d)) (drop_axes d out) = Some out /\ prod (drop_axes d out) = prod out.
Proof.
  apply (desc_induction (fun d m => forall out, length out = m -> Forall (fun k => nth k out 0 = 1) d ->
    expand_shape n (map Z.of_nat (rev d)) (drop_axes d out) = Some out /\ prod (drop_axes d out) = prod out)).
  - intros m out _ _. rewrite drop_nil. split; reflexivity.
  - intros k d' m Hk Hd IH out Lo F. assert (K : k < length out) by lia. rewrite drop_cons by auto.
    pose proof (Forall_inv F) as F1. cbv beta in F1. apply Forall_inv_tail in F.
    destruct (IH (remove_at k out)) as [E P].
    + rewrite remove_length by exact K. lia.
    + apply Forall_forall. intros a Ha. rewrite nth_remove. rewrite (proj2 (Nat.ltb_lt _ _) (Hd a Ha)). rewrite Forall_forall in F. apply F. exact Ha.
    + assert (R : insert_at k 1 (remove_at k out) = out) by (rewrite <- F1; apply insert_remove_nth; exact K).
      split.
      * simpl rev. rewrite map_app, expand_shape_app, E. unfold bind. simpl. destruct (Z.ltb_spec (Z.of_nat k) 0); [lia|]. destruct (Z.ltb_spec (Z.of_nat k) 0); [lia|].
        rewrite Nat2Z.id. destruct (Nat.leb_spec k (length (remove_at k out))) as [|Q]; [rewrite R; reflexivity|rewrite remove_length in Q by exact K; lia].
      * rewrite P. rewrite <- R at 2. rewrite prod_insert. lia.
Qed.
Lemma expand_ok {A} ax (x : arr A) out : NoDup ax -> Forall (fun k => k < length out) ax -> unit_axes ax (a_shape x) out ->
  expand (map Z.of_nat ax) x = Some (Arr out (a_data x)) /\ prod out = prod (a_shape x).
Proof.
  intros ND B (L & D & F). destruct (desc_sort ax ND) as [S P].
  destruct (expand_desc (length (a_shape x)) (rev (sort ax)) (length out) S (Permutation_Forall P B) out eq_refl (Permutation_Forall P F)) as [E Q].
  rewrite <- (drop_perm _ _ out P), D in E, Q. rewrite rev_involutive in E.
  unfold expand. rewrite sortZ_nat, E. unfold bind. split; [apply into_shape_get; exact Q|congruence].
Qed.

(** ** squeeze *)
Lemma memb_pred k ax : Forall (fun a => 0 < a) ax -> memb (S k) ax = memb k (map pred ax).
Proof.
  intros F. apply eq_true_iff_eq. rewrite !memb_in, in_map_iff. rewrite Forall_forall in F. split.
  - intros H. exists (S k). auto.
  - intros (a & E & Ha). specialize (F a Ha). replace (S k) with a by lia. exact Ha.
Qed.
Lemma drop_from_shift ax l : forall s, Forall (fun a => 0 < a) ax -> drop_from (S s) ax l = drop_from s (map pred ax) l.
Proof.
  induction l as [|x l IH]; intros s F; [reflexivity|]. unfold drop_from in *. simpl. rewrite (memb_pred s ax F). destruct (negb _); simpl; rewrite IH by exact F; reflexivity.
Qed.
Lemma memb_false k ax : ~ In k ax -> memb k ax = false.
Proof. intros H. destruct (memb k ax) eqn:E; [apply memb_in in E; contradiction|reflexivity]. Qed.
Lemma drop_from_min k ax l : forall s, k < length l -> Forall (fun a => s + k < a) ax ->
  drop_from s (s + k :: ax) l = drop_from s (map pred ax) (remove_at k l).
Proof.
  revert k. induction l as [|x l IH]; intros k s H F; simpl in H; [lia|]. rewrite Forall_forall in F. destruct k as [|k].
  - rewrite Nat.add_0_r in *. unfold drop_from. simpl length. simpl seq. simpl combine. simpl filter. rewrite Nat.eqb_refl. simpl.
    change (drop_from (S s) (s :: ax) l = drop_from s (map pred ax) l). rewrite <- drop_from_shift by (apply Forall_forall; intros a Ha; apply F in Ha; lia).
    unfold drop_from. f_equal. apply filter_ext_in. intros [i v] Hi. simpl. apply in_combine_l, in_seq in Hi. destruct (Nat.eqb_spec i s); [lia|]. reflexivity.
  - replace (s + S k) with (S s + k) in * by lia.
    assert (Q : drop_from (S s) (S s + k :: ax) l = drop_from (S s) (map pred ax) (remove_at k l)) by (apply IH; [lia|apply Forall_forall; exact F]).
    assert (M1 : memb s (S s + k :: ax) = false) by (apply memb_false; simpl; intros [E|Ha]; [lia|apply F in Ha; lia]).
    assert (M2 : memb s (map pred ax) = false) by (apply memb_false; rewrite in_map_iff; intros (a & E & Ha); apply F in Ha; lia).
    unfold drop_from in *. simpl remove_at. simpl length. cbn [seq combine filter fst]. rewrite M1, M2. cbn [negb map snd]. f_equal. exact Q.
Qed.
Lemma drop_unit_ok {A} (zero : A) k (x : arr A) : wf x -> k < length (a_shape x) -> nth k (a_shape x) 0 = 1 ->
  drop_unit zero k x = Some (Arr (remove_at k (a_shape x)) (a_data x)).
Proof.
  intros W Hk E. unfold drop_unit. rewrite (nth_error_nth' _ 0 Hk), E. f_equal.
  assert (R : insert_at k 1 (remove_at k (a_shape x)) = a_shape x) by (rewrite <- E; apply insert_remove_nth; exact Hk).
  apply (arr_ext zero).
  - apply tab_wf.
  - unfold wf in *. simpl. rewrite W. rewrite <- R at 1. rewrite prod_insert. lia.
  - reflexivity.
  - simpl. intros i Hi. rewrite aget_tab by exact Hi. unfold aget. simpl. f_equal. rewrite <- R at 1. apply ravel_insert1.
    + rewrite remove_length by exact Hk. lia.
    + apply in_bounds_length. exact Hi.
Qed.
Lemma squeeze_asc {A} (zero : A) l : forall adj (x : arr A), wf x -> StronglySorted lt l ->
  Forall (fun a => adj <= a /\ a - adj < length (a_shape x) /\ nth (a - adj) (a_shape x) 0 = 1) l ->
  squeeze_loop zero adj (map Z.of_nat l) x = Some (Arr (drop_axes (map (fun a => a - adj) l) (a_shape x)) (a_data x)).
Proof.
  induction l as [|k l IH]; intros adj x W SS F.
  - simpl. rewrite drop_nil. destruct x; reflexivity.
  - apply StronglySorted_inv in SS. destruct SS as [SS Sk]. pose proof (Forall_inv F) as (K1 & K2 & K3). apply Forall_inv_tail in F.
    rewrite Forall_forall in Sk, F. simpl. destruct (Z.ltb_spec (Z.of_nat k) 0); [lia|].
    destruct (Z.ltb_spec (Z.of_nat k - Z.of_nat adj) 0); [lia|]. replace (Z.to_nat (Z.of_nat k - Z.of_nat adj)) with (k - adj) by lia.
    rewrite (drop_unit_ok zero _ x W K2 K3). unfold bind. rewrite IH.
    + simpl. f_equal. f_equal. symmetry.
      pose proof (drop_from_min (k - adj) (map (fun a => a - adj) l) (a_shape x) 0 K2) as Q. simpl Nat.add in Q. unfold drop_axes.
      unfold drop_from in Q. rewrite Q.
      * rewrite map_map. replace (map (fun a => a - S adj) l) with (map (fun a => pred (a - adj)) l); [reflexivity|]. apply map_ext. intros a. lia.
      * apply Forall_forall. intros b Hb. apply in_map_iff in Hb. destruct Hb as (a & <- & Ha). apply Sk in Ha. lia.
    + unfold wf in *. simpl. rewrite W. rewrite <- (insert_remove_nth (k - adj) 0 (a_shape x)) at 1 by exact K2. rewrite prod_insert, K3. lia.
    + exact SS.
    + apply Forall_forall. intros a Ha. destruct (F a Ha) as (F1 & F2 & F3). specialize (Sk a Ha). simpl.
      rewrite remove_length by exact K2. split; [lia|]. split; [lia|]. rewrite nth_remove. destruct (Nat.ltb_spec (a - S adj) (k - adj)); [lia|].
      replace (S (a - S adj)) with (a - adj) by lia. exact F3.
Qed.
Lemma sort_lt ax : NoDup ax -> StronglySorted lt (sort ax).
Proof.
  intros ND. destruct (desc_sort ax ND) as [S _]. apply sorted_rev in S. rewrite rev_involutive in S. exact S.
Qed.
Lemma squeeze_ok {A} (zero : A) ax (x : arr A) sh : wf x -> NoDup ax -> Forall (fun k => k < length (a_shape x)) ax -> unit_axes ax sh (a_shape x) ->
  squeeze zero (map Z.of_nat ax) x = Some (Arr sh (a_data x)) /\ prod sh = prod (a_shape x).
Proof.
  intros W ND B (L & D & F). split.
  - unfold squeeze. rewrite sortZ_nat. rewrite squeeze_asc; auto.
    + replace (map (fun a => a - 0) (sort ax)) with (sort ax) by (rewrite <- (map_id (sort ax)) at 1; apply map_ext; intros; lia).
      rewrite <- (drop_perm _ _ _ (sort_perm ax)), D. reflexivity.
    + apply sort_lt. exact ND.
    + apply (Permutation_Forall (sort_perm ax)). rewrite Forall_forall in *. intros a Ha. rewrite Nat.sub_0_r. split; [lia|]. auto.
  - destruct (desc_sort ax ND) as [S P].
    destruct (expand_desc 0 (rev (sort ax)) (length (a_shape x)) S (Permutation_Forall P B) _ eq_refl (Permutation_Forall P F)) as [_ Q].
    rewrite <- (drop_perm _ _ _ P), D in Q. exact Q.
Qed.

(** ** Transpose *)
Definition pull (p i : list nat) : list nat := map (fun k => nth k i 0) p.
Record inverses (n : nat) (p r : list nat) : Prop := {
  iv_lp : length p = n; iv_lr : length r = n;
  iv_p : forall k, k < n -> nth k p 0 < n /\ nth (nth k p 0) r 0 = k;
  iv_r : forall k, k < n -> nth k r 0 < n /\ nth (nth k r 0) p 0 = k }.
Lemma inverses_sym n p r : inverses n p r -> inverses n r p.
Proof. intros [A B C D]. split; auto. Qed.
Lemma pull_length p i : length (pull p i) = length p.
Proof. apply map_length. Qed.
Lemma pull_nth p i k : k < length p -> nth k (pull p i) 0 = nth (nth k p 0) i 0.
Proof. intros H. unfold pull. rewrite (nth_indep _ 0 ((fun k => nth k i 0) 0)) by (rewrite map_length; exact H). apply (map_nth (fun k => nth k i 0)). Qed.
Lemma pull_pull n p r i : inverses n p r -> length i = n -> pull r (pull p i) = i.
Proof.
  intros [Lp Lr Hp Hr] L. apply (nth_ext _ _ 0 0); [rewrite pull_length; congruence|]. rewrite pull_length, Lr. intros k Hk.
  destruct (Hr k Hk) as [H1 H2]. rewrite !pull_nth by lia. rewrite H2. reflexivity.
Qed.
Lemma pull_in_bounds n p r sh i : inverses n p r -> length sh = n -> in_bounds sh i -> in_bounds (pull p sh) (pull p i).
Proof.
  intros [Lp _ Hp _] L Hi. pose proof (in_bounds_length _ _ Hi) as Li. unfold pull.
  assert (H : forall k, In k p -> k < n).
  { intros k Hk. destruct (In_nth _ _ 0 Hk) as (j & Hj & <-). apply Hp. lia. }
  clear Hp Lp. induction p as [|k p IH]; simpl; constructor.
  - apply in_bounds_nth; [exact Hi|]. rewrite L. apply H. left. reflexivity.
  - apply IH. intros j Hj. apply H. right. exact Hj.
Qed.
Lemma pos_of_in k p : In k p -> pos_of k p < length p /\ nth (pos_of k p) p 0 = k.
Proof.
  induction p as [|x p IH]; intros H; [contradiction|]. simpl. destruct (Nat.eqb_spec x k); [subst; split; [lia|reflexivity]|].
  destruct H as [|H]; [contradiction|]. destruct (IH H). split; [lia|assumption].
Qed.
Lemma permute_ok {A} (zero : A) n p r (x : arr A) : inverses n p r -> length (a_shape x) = n ->
  permute zero p x = tab (pull p (a_shape x)) (fun j => aget zero x (pull r j)).
Proof.
  intros I L. unfold permute. apply tab_ext. intros j Hj. f_equal. rewrite L.
  apply (nth_ext _ _ 0 0); [rewrite map_length, seq_length, pull_length; symmetry; apply I|].
  rewrite map_length, seq_length. intros k Hk. rewrite nth_map_seq by exact Hk. rewrite pull_nth by (rewrite (iv_lr _ _ _ I); exact Hk). f_equal.
  destruct (iv_r _ _ _ I k Hk) as [H1 H2].
  assert (In k p) by (rewrite <- H2; apply nth_In; rewrite (iv_lp _ _ _ I); exact H1).
  destruct (pos_of_in k p H) as [Q1 Q2]. rewrite (iv_lp _ _ _ I) in Q1. destruct (iv_p _ _ _ I _ Q1) as [_ Q3]. congruence.
Qed.
Lemma permuted_ok {A} (zero : A) n p r (x : arr A) : inverses n p r -> length (a_shape x) = n -> permuted zero p x (permute zero p x).
Proof.
  intros I L. rewrite (permute_ok zero n p r x I L). split; [reflexivity|]. split; [apply tab_wf|]. intros i Hi.
  rewrite aget_tab by (apply (pull_in_bounds n p r); auto). f_equal. apply (pull_pull n); auto. rewrite (in_bounds_length _ _ Hi). exact L.
Qed.
Lemma permute_back {A} (zero : A) n p r (x : arr A) : inverses n p r -> length (a_shape x) = n -> wf x -> permute zero r (permute zero p x) = x.
Proof.
  intros I L W. rewrite (permute_ok zero n p r x I L).
  assert (Lq : length (pull p (a_shape x)) = n) by (rewrite pull_length; apply I).
  rewrite (permute_ok zero n r p _ (inverses_sym _ _ _ I)) by exact Lq. simpl a_shape.
  rewrite (pull_pull n p r _ I L). rewrite <- (tab_aget zero x W) at 2. apply tab_ext. intros i Hi.
  rewrite aget_tab by (apply (pull_in_bounds n p r); auto). f_equal. apply (pull_pull n p r); auto. rewrite (in_bounds_length _ _ Hi). exact L.
Qed.
Lemma permute_vjp n p r (x gy : arr R) F : inverses n p r -> length (a_shape x) = n -> wf x -> wf gy -> a_shape gy = pull p (a_shape x) ->
  (forall x', a_shape x' = a_shape x -> F x' = Some (permute 0%R p x')) ->
  vjp F x gy (permute 0%R r gy).
Proof.
  intros I L Wx Wg Sg HF. assert (Lg : length (a_shape gy) = n) by (rewrite Sg, pull_length; apply I).
  pose proof (inverses_sym _ _ _ I) as I'. rewrite (permute_ok 0%R n r p gy I' Lg).
  assert (Sx : pull r (a_shape gy) = a_shape x) by (rewrite Sg; apply (pull_pull n); auto).
  assert (M : forall j, in_bounds (a_shape gy) j -> in_bounds (a_shape x) (pull r j)) by (intros j Hj; rewrite <- Sx; apply (pull_in_bounds n r p); auto).
  assert (M' : forall j, in_bounds (a_shape x) j -> in_bounds (a_shape gy) (pull p j)) by (intros j Hj; rewrite Sg; apply (pull_in_bounds n p r); auto).
  apply (vjp_reads _ _ _ _ (pull r)); auto.
  - apply tab_wf.
  - intros x' [Sx' Lx']. rewrite HF by exact Sx'. eexists. split; [reflexivity|]. rewrite (permute_ok 0%R n p r x' I) by congruence.
    rewrite Sx', <- Sg. split; [apply tab_has_shape|]. intros i Hi. rewrite aget_tab by exact Hi. reflexivity.
  - apply (sums_along_bijection 0%R 1%R Rplus Rmult Rminus Ropp RT _ (pull p)); simpl; rewrite ?Sx; auto.
    + intros j Hj. apply (pull_pull n); auto. rewrite (in_bounds_length _ _ Hj). exact L.
    + intros i Hi. apply (pull_pull n); auto. rewrite (in_bounds_length _ _ Hi). exact Lg.
    + intros j Hj. unfold get. rewrite aget_tab by exact Hj. reflexivity.
Qed.
(** The computed inverse. *)
Lemma invert_fold p : forall s dims, NoDup p -> (forall d, In d p -> d < length dims) ->
  let r := fold_left (fun dims q => set_at (snd q) (fst q) dims) (combine (seq s (length p)) p) dims in
  length r = length dims /\ (forall i, i < length p -> nth (nth i p 0) r 0 = s + i) /\ (forall d, ~ In d p -> nth d r 0 = nth d dims 0).
Proof.
  induction p as [|x p IH]; intros s dims ND B; simpl.
  - split; [reflexivity|]. split; [intros i Hi; lia|auto].
  - inversion ND as [|? ? Nx ND']; subst. destruct (IH (S s) (set_at x s dims) ND') as (H1 & H2 & H3).
    + intros d Hd. rewrite set_length. apply B. right. exact Hd.
    + rewrite set_length in H1. split; [exact H1|]. split.
      * intros [|i] Hi.
        -- rewrite H3 by exact Nx. rewrite nth_set_eq by (apply B; left; reflexivity). lia.
        -- simpl in Hi. rewrite H2 by lia. lia.
      * intros d Hd. rewrite H3 by tauto. rewrite nth_set. destruct (Nat.eqb_spec d x); [exfalso; apply Hd; left; auto|reflexivity].
Qed.
Lemma is_perm_ok p : Permutation p (seq 0 (length p)) -> is_perm p = true.
Proof.
  intros P. unfold is_perm. apply forallb_forall. intros k Hk. apply existsb_exists. exists k. split; [|apply Nat.eqb_refl].
  apply (Permutation_in k (Permutation_sym P)). exact Hk.
Qed.
Lemma invert_ok p : Permutation p (seq 0 (length p)) -> exists r, invert_perm p = Some r /\ inverses (length p) p r /\ is_perm r = true.
Proof.
  intros P. assert (B : forall d, In d p -> d < length p) by (intros d Hd; apply (Permutation_in d P) in Hd; apply in_seq in Hd; lia).
  assert (ND : NoDup p) by (apply (Permutation_NoDup (Permutation_sym P)); apply seq_NoDup).
  unfold invert_perm. rewrite (is_perm_ok p P), (proj2 (forallb_forall (fun d => d <? length p) p)) by (intros d Hd; apply Nat.ltb_lt; auto). simpl andb. cbv iota.
  set (r := fold_left _ _ _). exists r. split; [reflexivity|].
  destruct (invert_fold p 0 (repeat 0 (length p)) ND ltac:(rewrite repeat_length; exact B)) as (H1 & H2 & _). fold r in H1, H2. rewrite repeat_length in H1.
  assert (I : inverses (length p) p r).
  { split; auto.
    - intros k Hk. split; [apply B; apply nth_In; exact Hk|]. apply H2. exact Hk.
    - intros k Hk. assert (Hin : In k p) by (apply (Permutation_in k (Permutation_sym P)); apply in_seq; lia).
      destruct (In_nth _ _ 0 Hin) as (j & Hj & E). specialize (H2 j Hj). rewrite E in H2. simpl in H2. rewrite H2. auto. }
  split; [exact I|]. unfold is_perm. rewrite H1. apply forallb_forall. intros k Hk. apply in_seq in Hk. apply existsb_exists. exists k. split; [|apply Nat.eqb_refl].
  destruct (iv_p _ _ _ I k ltac:(lia)) as [Q1 Q2]. rewrite <- Q2. apply nth_In. lia.
Qed.
Lemma plain_of_nat l : plain_indices (map Z.of_nat l) = Some l.
Proof. induction l as [|x l IH]; simpl; [reflexivity|]. destruct (Z.ltb_spec (Z.of_nat x) 0); [lia|]. rewrite IH. unfold bind. rewrite Nat2Z.id. reflexivity. Qed.
Lemma transpose_ok {A} (zero : A) p (x : arr A) : length (a_shape x) = length p -> Permutation p (seq 0 (length p)) ->
  exists r, inverses (length p) p r /\ transpose zero false (map Z.of_nat p) x = Some (permute zero p x) /\
    transpose zero true (map Z.of_nat p) x = Some (permute zero r x).
Proof.
  intros L P. destruct (invert_ok p P) as (r & E & I & Q). exists r. split; [exact I|]. unfold transpose. rewrite map_length, L, Nat.eqb_refl, plain_of_nat.
  unfold bind. rewrite (is_perm_ok p P), E, Q. auto.
Qed.

(** ** add_n *)
Section AddN.
  Local Open Scope R_scope.
  Definition total (xs : list (arr R)) (i : list nat) : R := fold_right Rplus 0 (map (fun x => rget x i) xs).
  Lemma zip_bc_same (a b : arr R) : a_shape b = a_shape a -> zip_bc 0 0 Rplus a b = Some (tab (a_shape a) (fun i => rget a i + rget b i)).
  Proof.
    intros S. unfold zip_bc. rewrite S, co_broadcast_self. f_equal. apply tab_ext. intros i Hi. rewrite bc_idx_self by exact Hi. reflexivity.
  Qed.
  Lemma zip_mut_same (a b : arr R) : a_shape b = a_shape a -> zip_mut 0 0 Rplus a b = Some (tab (a_shape a) (fun i => rget a i + rget b i)).
  Proof.
    intros S. unfold zip_mut. rewrite S, can_broadcast_refl. f_equal. apply tab_ext. intros i Hi. rewrite bc_idx_self by exact Hi. reflexivity.
  Qed.
  Lemma add_fold sh xs : Forall (fun x => a_shape x = sh) xs -> forall (f : list nat -> R),
    fold_left (fun acc x => bind acc (fun a => zip_mut 0 0 Rplus a x)) xs (Some (tab sh f)) = Some (tab sh (fun i => f i + total xs i)).
  Proof.
    intros F. induction F as [|x xs Sx F IH]; intros f; cbn [fold_left].
    - f_equal. apply tab_ext. intros i _. unfold total. simpl. ring.
    - unfold bind at 2. rewrite zip_mut_same by exact Sx. simpl a_shape.
      rewrite (tab_ext sh _ (fun i => f i + rget x i)); [|intros i Hi; rewrite aget_tab by exact Hi; reflexivity].
      rewrite IH. f_equal. apply tab_ext. intros i _. unfold total. simpl. ring.
  Qed.
  Lemma add_n_ok sh xs : xs <> [] -> Forall (fun x => wf x /\ a_shape x = sh) xs -> add_n 0 Rplus xs = Some (tab sh (total xs)).
  Proof.
    intros N F. destruct xs as [|x0 [|x1 xs]]; [congruence| |].
    - simpl. destruct (Forall_inv F) as [W S]. rewrite <- (tab_aget 0 x0 W) at 1. rewrite S. f_equal. apply tab_ext. intros i _. unfold total. simpl. ring.
    - unfold add_n. destruct (Forall_inv F) as [_ S0]. apply Forall_inv_tail in F. destruct (Forall_inv F) as [_ S1]. apply Forall_inv_tail in F.
      rewrite zip_bc_same by congruence. rewrite S0. rewrite (add_fold sh).
      + f_equal. apply tab_ext. intros i _. unfold total. simpl. ring.
      + eapply Forall_impl; [|exact F]. intros a [_ H]. exact H.
  Qed.
  Lemma total_set xs i : forall m x x', nth_error xs m = Some x -> total (set_at m x' xs) i = rget x' i + (total xs i - rget x i).
  Proof.
    induction xs as [|y xs IH]; intros [|m] x x' E; simpl in E; try discriminate.
    - injection E as ->. unfold total. simpl. ring.
    - specialize (IH m x x' E). unfold total in *. simpl. rewrite IH. ring.
  Qed.
  Lemma add_n_vjp sh xs m x gy : Forall (fun x => wf x /\ a_shape x = sh) xs -> nth_error xs m = Some x -> wf gy -> a_shape gy = sh ->
    vjp (fun x' => add_n 0 Rplus (set_at m x' xs)) x gy gy.
  Proof.
    intros F E Wg Sg. assert (Q : wf x /\ a_shape x = sh) by (rewrite Forall_forall in F; apply F; apply (nth_error_In _ _ E)). destruct Q as [Wx Sx].
    apply (vjp_elementwise _ _ _ _ (fun i => i) (fun i z => z + (total xs i - rget x i)) (fun _ => 1)); auto; try congruence.
    - intros i Hi. congruence.
    - intros x' Hx'. apply has_shape_wf in Hx'. destruct Hx' as [Sx' Wx']. rewrite (add_n_ok sh).
      + eexists. split; [reflexivity|]. rewrite Sg. split; [apply tab_has_shape|]. intros i Hi. rewrite aget_tab by exact Hi. apply total_set. exact E.
      + intros Q. apply (f_equal (@length _)) in Q. rewrite set_length in Q. destruct xs; [destruct m; discriminate|discriminate].
      + apply forall_set; [exact F|]. split; [exact Wx'|congruence].
    - intros i _. apply (derivable_ext (fun z => (total xs i - rget x i) + z)); [intros; ring|].
      replace 1 with (0 + 1) by ring. apply (derivable_pt_lim_plus (fun _ => total xs i - rget x i) (fun z => z)); [apply derivable_pt_lim_const|apply derivable_pt_lim_id].
    - replace (tab (a_shape gy) (fun i => rget gy i * 1)) with gy.
      + apply (sums_along_id 0 1 Rplus Rmult Rminus Ropp RT).
      + rewrite <- (tab_aget 0 gy Wg) at 1. apply tab_ext. intros i _. ring.
  Qed.
End AddN.

(** ** access_elem *)
Section Access.
  Local Open Scope R_scope.
  Lemma dot_one g n : forall k l, length l = n -> (k < n)%nat ->
    fold_right Rplus 0 (map2 Rmult (set_at k g (repeat 0 n)) l) = g * nth k l 0.
  Proof.
    assert (Z : forall l m, fold_right Rplus 0 (map2 Rmult (repeat 0 m) l) = 0).
    { induction l as [|y l IH]; intros [|m]; simpl; auto. rewrite IH. ring. }
    induction n as [|n IH]; intros k [|y l] L H; simpl in L; try lia. destruct k as [|k]; simpl.
    - rewrite Z. ring.
    - rewrite IH by lia. ring.
  Qed.
  Lemma access_vjp i (x : arr R) g k : wf x -> elem_pos (length (a_data x)) i = Some k ->
    exists gx, access_elem_grad 0 i x g = Some gx /\ vjp (access_elem 0 i) x (Arr [] [g]) gx.
  Proof.
    intros W E. unfold access_elem_grad. rewrite E. unfold bind. eexists. split; [reflexivity|].
    assert (Hk : (k < length (a_data x))%nat).
    { unfold elem_pos in E. destruct (_ && _)%bool eqn:B; [|discriminate]. injection E as <-. apply andb_true_iff in B. rewrite Z.leb_le, Z.ltb_lt in B. lia. }
    apply (vjp_affine _ _ _ _ (fun x' => Arr [] [nth k (a_data x') 0])); auto.
    - unfold wf. simpl. rewrite set_length, repeat_length. exact W.
    - intros x' [Sx' Lx']. unfold access_elem. rewrite Lx', <- W, E. split; [reflexivity|]. split; reflexivity.
    - intros v t [Sv Lv]. unfold dot. simpl. rewrite dot_one by (try congruence; rewrite Lv; symmetry; exact W).
      rewrite (map2_nth (fun a b => a + t * b) 0 0 0) by (rewrite ?Lv, ?W in *; auto). ring.
  Qed.
End Access.
