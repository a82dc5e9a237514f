From Coq Require Import List Arith Bool Lia Permutation Ring_theory Ring.
Import ListNotations.
From Verif Require Import Eval_Proofs Array_Model Array_Proofs Array_Sum Arith_Model Broadcast_Spec.

(** ** Shapes *)
Lemma prod_pos sh : prod sh <> 0 <-> Forall (fun d => d <> 0) sh.
Proof.
  induction sh as [|d sh IH]; simpl; [split; auto; lia|]. split.
  - intros H. constructor; [|apply IH]; intros E; rewrite E in H; lia.
  - intros H. inv H. apply IH in H3. intros E. apply Nat.eq_mul_0 in E. lia.
Qed.
Lemma prod_app a b : prod (a ++ b) = prod a * prod b.
Proof. induction a as [|x a IH]; simpl; [lia|]. rewrite IH. lia. Qed.

Lemma map2_nth {A B C} (f : A -> B -> C) da db dc : forall l l' k, k < length l -> k < length l' ->
  nth k (map2 f l l') dc = f (nth k l da) (nth k l' db).
Proof. induction l as [|x l IH]; intros [|y l'] k H H'; simpl in *; try lia. destruct k; [reflexivity|]. apply IH; lia. Qed.

Lemma from_end_nth s k d : k < length s -> from_end s k d = nth (length s - S k) s d.
Proof. intros H. unfold from_end. rewrite rev_nth by exact H. reflexivity. Qed.
Lemma from_end_out s k d : length s <= k -> from_end s k d = d.
Proof. intros H. unfold from_end. apply nth_overflow. rewrite rev_length. exact H. Qed.
Lemma skipn_nth {A} (l : list A) n k d : nth k (skipn n l) d = nth (n + k) l d.
Proof. revert l. induction n as [|n IH]; intros l; [reflexivity|]. destruct l as [|x l]; simpl; [destruct k; reflexivity|]. apply IH. Qed.

Lemma bc_idx_length s i : length s <= length i -> length (bc_idx s i) = length s.
Proof. intros H. unfold bc_idx. rewrite map2_length, skipn_length. lia. Qed.
Lemma bc_idx_refers s i : length s <= length i -> refers s i (bc_idx s i).
Proof.
  intros H. pose proof (bc_idx_length s i H) as L. split; [exact L|]. intros k Hk.
  rewrite !from_end_nth by lia. rewrite L. unfold bc_idx.
  rewrite (map2_nth _ 1 0) by (rewrite ?skipn_length; lia). rewrite skipn_nth.
  replace (length i - length s + (length s - S k)) with (length i - S k) by lia. reflexivity.
Qed.
Lemma refers_unique s i j j' : refers s i j -> refers s i j' -> j = j'.
Proof.
  intros [L1 H1] [L2 H2]. apply (nth_ext _ _ 0 0); [lia|]. intros n Hn.
  specialize (H1 (length s - S n) ltac:(lia)). specialize (H2 (length s - S n) ltac:(lia)).
  rewrite from_end_nth in H1 by lia. rewrite from_end_nth in H2 by lia.
  replace (length j - S (length s - S n)) with n in H1 by lia.
  replace (length j' - S (length s - S n)) with n in H2 by lia. congruence.
Qed.
Lemma refers_bc s i j : length s <= length i -> refers s i j -> j = bc_idx s i.
Proof. intros H R. apply (refers_unique s i); [exact R|apply bc_idx_refers; exact H]. Qed.

Lemma co_dims_spec a : forall b r, co_dims a b = Some r ->
  forall k, k < length r -> let x := nth k a 1 in let y := nth k b 1 in let z := nth k r 1 in
    (x = y /\ z = x) \/ (x = 1 /\ z = y) \/ (y = 1 /\ z = x).
Proof.
  induction a as [|x a IH]; intros [|y b] r H k Hk; simpl in H; try discriminate; [inv H; simpl in Hk; lia|].
  destruct (co_dims a b) as [r'|] eqn:E; [|discriminate].
  assert (exists z, r = z :: r' /\ ((x = y /\ z = x) \/ (x = 1 /\ z = y) \/ (y = 1 /\ z = x))) as (z & -> & Hz).
  { clear IH E Hk. destruct (x =? y) eqn:E1; [|destruct (x =? 1) eqn:E2; [|destruct (y =? 1) eqn:E3; [|discriminate H]]];
      injection H as H; eexists; (split; [symmetry; exact H|]).
    - left. apply Nat.eqb_eq in E1. auto.
    - right. left. apply Nat.eqb_eq in E2. auto.
    - right. right. apply Nat.eqb_eq in E3. auto. }
  destruct k as [|k]; simpl; [exact Hz|]. apply (IH b r' E). simpl in Hk. lia.
Qed.
Lemma co_dims_none a : forall b, length a = length b -> co_dims a b = None ->
  exists k, k < length a /\ nth k a 1 <> nth k b 1 /\ nth k a 1 <> 1 /\ nth k b 1 <> 1.
Proof.
  induction a as [|x a IH]; intros [|y b] L H; simpl in *; try discriminate; try lia.
  destruct (co_dims a b) as [r|] eqn:E.
  - exists 0. destruct (Nat.eqb_spec x y); [discriminate|]. destruct (Nat.eqb_spec x 1); [discriminate|].
    destruct (Nat.eqb_spec y 1); [discriminate|]. repeat split; auto; lia.
  - destruct (IH b ltac:(lia) E) as (k & Hk & H1). exists (S k). split; [lia|exact H1].
Qed.
Lemma co_broadcast_length a b r : co_broadcast a b = Some r -> length r = Nat.max (length a) (length b).
Proof.
  unfold co_broadcast. destruct (co_dims _ _) as [r'|] eqn:E; [|discriminate]. intros H. inv H.
  destruct (co_dims_length _ _ _ E) as [L1 L2]. rewrite !skipn_length in *. rewrite !app_length, !firstn_length, L1. lia.
Qed.
Lemma firstn_nth {A} n (l : list A) k d : k < n -> nth k (firstn n l) d = nth k l d.
Proof. revert l k. induction n as [|n IH]; intros [|x l] [|k] H; simpl; auto; try lia. apply IH. lia. Qed.
Lemma co_broadcast_spec_le a b r : length a <= length b -> co_broadcast a b = Some r -> broadcasts a b r.
Proof.
  intros HL H. split; [apply co_broadcast_length; exact H|]. intros k Hk. pose proof (co_broadcast_length _ _ _ H) as L.
  unfold co_broadcast in H. replace (length a - length b) with 0 in H by lia. simpl in H.
  destruct (co_dims a _) as [r'|] eqn:E; [|discriminate]. inv H.
  destruct (co_dims_length _ _ _ E) as [L1 L2]. rewrite skipn_length in L2.
  assert (Hb : length (firstn (length b - length a) b) = length b - length a) by (rewrite firstn_length; lia).
  cbv zeta. set (r := firstn (length b - length a) b ++ r') in *.
  rewrite (from_end_nth r) by exact Hk. rewrite (from_end_nth b) by lia.
  destruct (Nat.lt_ge_cases k (length a)) as [Hka|Hka].
  - rewrite (from_end_nth a) by exact Hka.
    pose proof (co_dims_spec _ _ _ E (length a - S k) ltac:(lia)) as S. cbv zeta in S. rewrite skipn_nth in S.
    replace (length b - length a + (length a - Datatypes.S k)) with (length b - Datatypes.S k) in S by lia.
    replace (nth (length r - Datatypes.S k) r 1) with (nth (length a - Datatypes.S k) r' 1); [exact S|].
    unfold r. rewrite app_nth2; rewrite Hb; [f_equal|]; rewrite app_length, Hb in *; lia.
  - rewrite (from_end_out a) by exact Hka. right. left. split; [reflexivity|].
    unfold r. rewrite app_nth1 by (rewrite Hb; fold r; lia). rewrite firstn_nth by (fold r; lia). f_equal. fold r. lia.
Qed.
Lemma broadcasts_sym a b r : broadcasts a b r -> broadcasts b a r.
Proof.
  intros [L H]. split; [lia|]. intros k Hk. cbv zeta. specialize (H k Hk). cbv zeta in H.
  destruct H as [[H1 H2]|[[H1 H2]|[H1 H2]]]; [left|right; right|right; left]; split; congruence.
Qed.
Lemma co_broadcast_spec a b r : co_broadcast a b = Some r -> broadcasts a b r.
Proof.
  intros H. destruct (Nat.le_ge_cases (length a) (length b)) as [L|L].
  - apply co_broadcast_spec_le; assumption.
  - apply broadcasts_sym. apply co_broadcast_spec_le; [exact L|]. rewrite co_broadcast_sym. exact H.
Qed.
Lemma broadcasts_unique a b r r' : broadcasts a b r -> broadcasts a b r' -> r = r'.
Proof.
  intros [L1 H1] [L2 H2]. apply (nth_ext _ _ 1 1); [lia|]. intros n Hn.
  specialize (H1 (length r - S n) ltac:(lia)). specialize (H2 (length r - S n) ltac:(lia)). cbv zeta in *.
  rewrite (from_end_nth r) in H1 by lia. rewrite (from_end_nth r') in H2 by lia.
  replace (length r - S (length r - S n)) with n in H1 by lia.
  replace (length r' - S (length r - S n)) with n in H2 by lia.
  destruct H1 as [[A1 B1]|[[A1 B1]|[A1 B1]]], H2 as [[A2 B2]|[[A2 B2]|[A2 B2]]]; congruence.
Qed.
Lemma co_broadcast_complete_le a b r : length a <= length b -> broadcasts a b r -> co_broadcast a b = Some r.
Proof.
  intros HL B. destruct (co_broadcast a b) as [r'|] eqn:E.
  - f_equal. apply (broadcasts_unique a b); [apply co_broadcast_spec; exact E|exact B].
  - exfalso. unfold co_broadcast in E. replace (length a - length b) with 0 in E by lia. simpl in E.
    destruct (co_dims a _) eqn:E2; [discriminate|]. apply co_dims_none in E2; [|rewrite skipn_length; lia].
    destruct E2 as (k & Hk & N1 & N2 & N3). rewrite skipn_nth in *. destruct B as [L H].
    specialize (H (length a - S k) ltac:(lia)). cbv zeta in H.
    rewrite (from_end_nth a) in H by lia. rewrite (from_end_nth b) in H by lia.
    replace (length a - S (length a - S k)) with k in H by lia.
    replace (length b - S (length a - S k)) with (length b - length a + k) in H by lia.
    destruct H as [[A1 B1]|[[A1 B1]|[A1 B1]]]; congruence.
Qed.
Lemma co_broadcast_iff a b r : co_broadcast a b = Some r <-> broadcasts a b r.
Proof.
  split; [apply co_broadcast_spec|]. intros B. destruct (Nat.le_ge_cases (length a) (length b)) as [L|L].
  - apply co_broadcast_complete_le; assumption.
  - rewrite co_broadcast_sym. apply co_broadcast_complete_le; [exact L|]. apply broadcasts_sym. exact B.
Qed.
Lemma co_broadcast_nil_l b : co_broadcast [] b = Some b.
Proof.
  unfold co_broadcast. simpl. rewrite Nat.sub_0_r, skipn_all, firstn_all. simpl. rewrite app_nil_r. reflexivity.
Qed.
Lemma co_broadcast_nil_r a : co_broadcast a [] = Some a.
Proof. rewrite co_broadcast_sym. apply co_broadcast_nil_l. Qed.
Lemma bc_idx_nil i : bc_idx [] i = [].
Proof. reflexivity. Qed.
Lemma scalar_nonzero sh r a b : (a = sh \/ b = sh) -> co_broadcast a b = Some r -> prod r <> 0 -> is_scalar_shape sh = shape_eqb sh [].
Proof.
  intros O E P. unfold is_scalar_shape. destruct (shape_eqb sh [0]) eqn:E0; [|apply orb_false_r].
  apply shape_eqb_ok in E0. subst sh. exfalso. apply P.
  assert (B : broadcasts [0] (if shape_eqb a [0] then b else a) r).
  { destruct (shape_eqb a [0]) eqn:Ea.
    - apply shape_eqb_ok in Ea. subst a. apply co_broadcast_spec. exact E.
    - destruct O as [-> | ->]; [rewrite (proj2 (shape_eqb_ok [0] [0]) eq_refl) in Ea; discriminate|].
      apply broadcasts_sym. apply co_broadcast_spec. exact E. }
  destruct B as [L H]. change (length [0]) with 1 in L. specialize (H 0 ltac:(lia)). cbv zeta in H.
  change (from_end [0] 0 1) with 0 in H.
  assert (Z : from_end r 0 1 = 0) by (destruct H as [[A1 B1]|[[A1 B1]|[A1 B1]]]; congruence).
  unfold from_end in Z. destruct (rev r) as [|z l] eqn:Er; simpl in Z; [discriminate|]. subst z.
  assert (In 0 r) by (apply in_rev; rewrite Er; simpl; auto).
  destruct (Nat.eq_dec (prod r) 0) as [->|N]; [reflexivity|]. apply prod_pos in N. rewrite Forall_forall in N. exfalso. apply (N 0 H0). reflexivity.
Qed.

Definition at_empty_ok {A} (zero : A) (at_empty : arr A -> option A) : Prop :=
  (forall a, wf a -> a_shape a = [] -> at_empty a = Some (aget zero a [])) /\
  (forall a, wf a -> a_shape a = [1] -> at_empty a = None \/ at_empty a = Some (aget zero a [0])).

Section Forward.
  Context {A : Type} (zero one : A) (add sub mul div : A -> A -> A) (neg powm2 : A -> A) (at_empty : arr A -> option A).
  Hypothesis AE : at_empty_ok zero at_empty.

  (** The elementwise result. *)
  Definition pointwise (op : A -> A -> A) (x0 x1 y : arr A) : Prop :=
    wf y /\ forall i, in_bounds (a_shape y) i ->
      aget zero y i = op (aget zero x0 (bc_idx (a_shape x0) i)) (aget zero x1 (bc_idx (a_shape x1) i)).

  Lemma zip_bc_pointwise op x0 x1 r : co_broadcast (a_shape x0) (a_shape x1) = Some r ->
    exists y, zip_bc zero zero op x0 x1 = Some y /\ a_shape y = r /\ pointwise op x0 x1 y.
  Proof.
    intros E. unfold zip_bc. rewrite E. eexists. split; [reflexivity|]. split; [reflexivity|]. split; [apply tab_wf|].
    intros i Hi. simpl in Hi. rewrite aget_tab by exact Hi. reflexivity.
  Qed.
  Lemma scalar_left op x0 x1 : wf x0 -> wf x1 -> a_shape x0 = [] ->
    pointwise op x0 x1 (amap (fun a => op (aget zero x0 []) a) x1).
  Proof.
    intros W0 W1 S0. split; [apply amap_wf; exact W1|]. intros i Hi. simpl in Hi.
    rewrite (aget_map zero) by auto. rewrite S0, bc_idx_nil, bc_idx_self by exact Hi. reflexivity.
  Qed.
  Lemma scalar_right op x0 x1 : wf x0 -> wf x1 -> a_shape x1 = [] ->
    pointwise op x0 x1 (amap (fun a => op a (aget zero x1 [])) x0).
  Proof.
    intros W0 W1 S0. split; [apply amap_wf; exact W0|]. intros i Hi. simpl in Hi.
    rewrite (aget_map zero) by auto. rewrite S0, bc_idx_nil, bc_idx_self by exact Hi. reflexivity.
  Qed.

  Lemma bin_forward_ok op x0 x1 r : (forall a b, op a b = op b a) -> wf x0 -> wf x1 ->
    co_broadcast (a_shape x0) (a_shape x1) = Some r -> prod r <> 0 ->
    exists y, bin_forward zero at_empty op x0 x1 = Some y /\ a_shape y = r /\ pointwise op x0 x1 y.
  Proof.
    intros C W0 W1 E P. unfold bin_forward.
    rewrite (scalar_nonzero (a_shape x0) r _ _ (or_introl eq_refl) E P).
    rewrite (scalar_nonzero (a_shape x1) r _ _ (or_intror eq_refl) E P).
    destruct (shape_eqb (a_shape x0) []) eqn:E0; destruct (shape_eqb (a_shape x1) []) eqn:E1; simpl;
      try (apply zip_bc_pointwise; exact E).
    - apply shape_eqb_ok in E0. rewrite (proj1 AE x0 W0 E0). eexists. split; [reflexivity|].
      rewrite E0, co_broadcast_nil_l in E. inv E. split; [reflexivity|].
      destruct (scalar_left op x0 x1 W0 W1 E0) as [W H]. split; [apply amap_wf; exact W1|].
      intros i Hi. rewrite <- H by exact Hi. rewrite !(aget_map zero) by auto. apply C.
    - apply shape_eqb_ok in E1. rewrite (proj1 AE x1 W1 E1). eexists. split; [reflexivity|].
      rewrite E1, co_broadcast_nil_r in E. inv E. split; [reflexivity|]. apply scalar_right; auto.
  Qed.
  Lemma sub_forward_ok x0 x1 r : wf x0 -> wf x1 ->
    co_broadcast (a_shape x0) (a_shape x1) = Some r ->
    exists y, sub_forward zero sub at_empty x0 x1 = Some y /\ a_shape y = r /\ pointwise sub x0 x1 y.
  Proof.
    intros W0 W1 E. unfold sub_forward. destruct (shape_eqb (a_shape x0) []) eqn:E0; [|apply zip_bc_pointwise; exact E].
    apply shape_eqb_ok in E0. rewrite (proj1 AE x0 W0 E0). eexists. split; [reflexivity|].
    rewrite E0, co_broadcast_nil_l in E. inv E. split; [reflexivity|]. apply scalar_left; auto.
  Qed.
  Lemma div_forward_ok x0 x1 r : (forall a b, mul a (div one b) = div a b) -> wf x0 -> wf x1 ->
    co_broadcast (a_shape x0) (a_shape x1) = Some r -> prod r <> 0 -> a_shape x1 <> [1] ->
    exists y, div_forward zero one mul div at_empty x0 x1 = Some y /\ a_shape y = r /\ pointwise div x0 x1 y.
  Proof.
    intros D W0 W1 E P N. unfold div_forward.
    change (shape_eqb (a_shape x0) [] || shape_eqb (a_shape x0) [0]) with (is_scalar_shape (a_shape x0)).
    rewrite (scalar_nonzero (a_shape x0) r _ _ (or_introl eq_refl) E P).
    destruct (shape_eqb (a_shape x0) []) eqn:E0.
    - apply shape_eqb_ok in E0. rewrite (proj1 AE x0 W0 E0). eexists. split; [reflexivity|].
      rewrite E0, co_broadcast_nil_l in E. inv E. split; [reflexivity|]. apply scalar_left; auto.
    - destruct (shape_eqb (a_shape x1) [1]) eqn:E1b; [apply shape_eqb_ok in E1b; contradiction|]. rewrite orb_false_r.
      destruct (shape_eqb (a_shape x1) []) eqn:E1; [|apply zip_bc_pointwise; exact E].
      apply shape_eqb_ok in E1. rewrite (proj1 AE x1 W1 E1). eexists. split; [reflexivity|].
      rewrite E1, co_broadcast_nil_r in E. inv E. split; [reflexivity|].
      destruct (scalar_right div x0 x1 W0 W1 E1) as [W H]. split; [apply amap_wf; exact W0|].
      intros i Hi. rewrite <- H by exact Hi. rewrite !(aget_map zero) by auto. apply D.
  Qed.
  (** A divisor of shape [1]: whatever ndarray does with the empty index, a
      returned result is the elementwise quotient, unless the shapes make it
      something else (rank above 1 keeps the dividend's shape). *)
  Lemma div_forward_one x0 x1 y : (forall a b, mul a (div one b) = div a b) -> wf x0 -> wf x1 ->
    a_shape x1 = [1] -> a_shape x0 <> [] -> prod (a_shape x0) <> 0 ->
    div_forward zero one mul div at_empty x0 x1 = Some y -> a_shape y = a_shape x0 /\ pointwise div x0 x1 y.
  Proof.
    intros D W0 W1 S1 N0 P H. unfold div_forward in H.
    change (shape_eqb (a_shape x0) [] || shape_eqb (a_shape x0) [0]) with (is_scalar_shape (a_shape x0)) in H.
    assert (E0 : is_scalar_shape (a_shape x0) = false).
    { unfold is_scalar_shape. destruct (shape_eqb (a_shape x0) []) eqn:Q; [apply shape_eqb_ok in Q; contradiction|].
      destruct (shape_eqb (a_shape x0) [0]) eqn:Q2; [apply shape_eqb_ok in Q2; rewrite Q2 in P; simpl in P; lia|reflexivity]. }
    rewrite E0 in H. rewrite S1 in H. simpl in H. destruct (proj2 AE x1 W1 S1) as [E|E]; rewrite E in H; [discriminate|]. inv H.
    split; [reflexivity|]. split; [apply amap_wf; exact W0|]. intros i Hi. simpl in Hi.
    rewrite (aget_map zero) by auto. rewrite D, bc_idx_self by exact Hi. f_equal. f_equal. rewrite S1.
    pose proof (in_bounds_length _ _ Hi) as L. destruct (a_shape x0) as [|d sh]; [contradiction|]. simpl in L.
    unfold bc_idx. rewrite L. simpl. rewrite Nat.sub_0_r.
    assert (K : length (skipn (length sh) i) = 1) by (rewrite skipn_length; lia).
    destruct (skipn (length sh) i) as [|z [|z' l]]; simpl in K; try lia. reflexivity.
  Qed.
  Lemma zip_bc_none (op : A -> A -> A) x0 x1 : co_broadcast (a_shape x0) (a_shape x1) = None -> zip_bc zero zero op x0 x1 = None.
  Proof. intros E. unfold zip_bc. rewrite E. reflexivity. Qed.
  (** Shapes that do not broadcast. *)
  Lemma forward_none op x0 x1 : wf x0 -> wf x1 -> co_broadcast (a_shape x0) (a_shape x1) = None -> a_shape x0 <> [0] -> a_shape x1 <> [0] ->
    bin_forward zero at_empty op x0 x1 = None /\ sub_forward zero sub at_empty x0 x1 = None /\
    (a_shape x1 <> [1] -> div_forward zero one mul div at_empty x0 x1 = None).
  Proof.
    intros W0 W1 E N0 N1.
    assert (Q : forall sh, sh <> [0] -> is_scalar_shape sh = shape_eqb sh []).
    { intros sh N. unfold is_scalar_shape. destruct (shape_eqb sh [0]) eqn:E2; [apply shape_eqb_ok in E2; contradiction|apply orb_false_r]. }
    unfold bin_forward, sub_forward, div_forward.
    change (shape_eqb (a_shape x0) [] || shape_eqb (a_shape x0) [0]) with (is_scalar_shape (a_shape x0)).
    rewrite !Q by assumption.
    destruct (shape_eqb (a_shape x0) []) eqn:E0; [apply shape_eqb_ok in E0; rewrite E0, co_broadcast_nil_l in E; discriminate|].
    destruct (shape_eqb (a_shape x1) []) eqn:E1; [apply shape_eqb_ok in E1; rewrite E1, co_broadcast_nil_r in E; discriminate|].
    simpl. rewrite !zip_bc_none by exact E. split; [reflexivity|]. split; [reflexivity|]. intros N.
    destruct (shape_eqb (a_shape x1) [1]) eqn:E2; [apply shape_eqb_ok in E2; contradiction|reflexivity].
  Qed.
End Forward.

(** ** MaybeReduceSum *)
Definition unit_out (O idx : list nat) : list nat := map2 (fun d i => if d =? 1 then 0 else i) O idx.

Section Reduce.
  Context {A : Type} (rO rI : A) (radd rmul rsub : A -> A -> A) (ropp : A -> A).
  Hypothesis RT : ring_theory rO rI radd rmul rsub ropp eq.
  Add Ring Aring : RT.
  Notation along := (sums_along rO radd).

  Lemma into_shape_get (a : arr A) sh : prod (a_shape a) = prod sh -> into_shape a sh = Some (Arr sh (a_data a)).
  Proof. intros H. unfold into_shape. rewrite H, Nat.eqb_refl. reflexivity. Qed.
  Lemma expand_dims_ok (a : arr A) k : k <= length (a_shape a) -> wf a ->
    exists b, expand_dims a k = Some b /\ wf b /\ a_shape b = insert_at k 1 (a_shape a) /\ along (insert_at k 0) a b.
  Proof.
    intros Hk W. unfold expand_dims. rewrite (proj2 (Nat.leb_le _ _) Hk).
    rewrite into_shape_get by (rewrite prod_insert; lia). eexists. split; [reflexivity|].
    split; [unfold wf in *; simpl; rewrite prod_insert; lia|]. split; [reflexivity|].
    assert (B : forall j, in_bounds (insert_at k 1 (a_shape a)) j -> in_bounds (a_shape a) (remove_at k j) /\ insert_at k 0 (remove_at k j) = j).
    { intros j Hj. pose proof (in_bounds_length _ _ Hj) as Lj. rewrite insert_length in Lj.
      assert (Z : nth k j 0 = 0).
      { pose proof (in_bounds_nth _ _ k Hj) as Q. rewrite insert_length, nth_insert_eq in Q by exact Hk. lia. }
      split.
      - apply (in_bounds_remove k) in Hj. rewrite insert_remove in Hj by exact Hk. exact Hj.
      - rewrite <- Z at 1. apply insert_remove_nth. lia. }
    apply (sums_along_bijection rO rI radd rmul rsub ropp RT _ (remove_at k)); simpl.
    - intros j Hj. apply B. exact Hj.
    - intros j Hj. apply B. exact Hj.
    - intros i Hi. apply insert_remove. rewrite (in_bounds_length _ _ Hi). exact Hk.
    - intros j Hj. destruct (B j Hj) as [B1 B2]. unfold get, aget. simpl. f_equal.
      rewrite <- B2 at 1. apply ravel_insert1; [exact Hk|]. apply in_bounds_length. exact B1.
  Qed.
  Lemma maps_remove k sh : maps_into (remove_at k) sh (remove_at k sh).
  Proof. intros i Hi. apply in_bounds_remove. exact Hi. Qed.
  Lemma maps_insert k sh : k <= length sh -> maps_into (insert_at k 0) sh (insert_at k 1 sh).
  Proof. intros Hk i Hi. apply in_bounds_insert; [exact Hk|]. auto. Qed.

  Lemma set_app {X} (l l' : list X) x y : set_at (length l) x (l ++ y :: l') = l ++ x :: l'.
  Proof. induction l as [|z l IH]; simpl; [reflexivity|]. rewrite IH. reflexivity. Qed.
  Lemma set_app' {X} n (l l' : list X) x y : length l = n -> set_at n x (l ++ y :: l') = l ++ x :: l'.
  Proof. intros <-. apply set_app. Qed.
  Lemma remove_insert_set {X} k (x : X) l : k < length l -> insert_at k x (remove_at k l) = set_at k x l.
  Proof. revert l. induction k as [|k IH]; intros [|y l] H; simpl in *; try lia; auto. f_equal. apply IH. lia. Qed.
  Lemma remove_length {X} k (l : list X) : k < length l -> length (remove_at k l) = length l - 1.
  Proof.
    revert l. induction k as [|k IH]; intros [|y l] H; simpl in *; try lia. rewrite IH by lia.
    destruct l; simpl in *; lia.
  Qed.

  Lemma fold_expand (a : arr A) k : k < length (a_shape a) -> wf a ->
    exists r b, fold_axis rO a k rO radd = Some r /\ expand_dims r k = Some b /\ wf b /\
      a_shape b = set_at k 1 (a_shape a) /\ along (set_at k 0) a b.
  Proof.
    intros Hk W. destruct (proj2 (fold_axis_defined rO a k rO radd) Hk) as [r Er].
    destruct (fold_axis_sum rO rI radd rmul rsub ropp RT a k r Er) as (Sr & Wr & Ar).
    assert (Lr : length (a_shape r) = length (a_shape a) - 1) by (rewrite Sr; apply remove_length; exact Hk).
    destruct (expand_dims_ok r k ltac:(lia) Wr) as (b & Eb & Wb & Sb & Ab).
    exists r, b. split; [exact Er|]. split; [exact Eb|]. split; [exact Wb|].
    split; [rewrite Sb, Sr; apply remove_insert_set; exact Hk|].
    apply (sums_along_ext rO rI radd rmul rsub ropp RT (fun i => insert_at k 0 (remove_at k i))).
    - intros i Hi. apply remove_insert_set. rewrite (in_bounds_length _ _ Hi). exact Hk.
    - apply (sums_along_compose rO rI radd rmul rsub ropp RT) with (b := r); auto.
      rewrite Sr. apply maps_remove.
  Qed.

  (** [idx] with the coordinates after the first [n] replaced according to [O]. *)
  Definition tail_out (n : nat) (O idx : list nat) : list nat := firstn n idx ++ unit_out O (skipn n idx).

  Definition pair_ok (p : nat * nat) : Prop := fst p = snd p \/ fst p = 1 /\ 1 < snd p.

  Lemma in_bounds_app_inv a b i : in_bounds (a ++ b) i ->
    in_bounds a (firstn (length a) i) /\ in_bounds b (skipn (length a) i).
  Proof.
    revert i. induction a as [|x a IH]; intros i H; simpl in *; [split; [constructor|exact H]|].
    inv H. destruct (IH l H4). split; [constructor; auto|auto].
  Qed.
  Lemma in_bounds_app a b i j : in_bounds a i -> in_bounds b j -> in_bounds (a ++ b) (i ++ j).
  Proof. intros H1 H2. induction H1; simpl; [exact H2|]. constructor; auto. Qed.

  Lemma reduce_loop_ok gy dims : forall pre folded,
    Forall pair_ok dims ->
    let cur := match folded with Some t => t | None => gy end in
    wf cur -> a_shape cur = pre ++ map snd dims ->
    exists res, reduce_loop rO radd gy dims (length pre) folded = Some res /\
      (res = None -> folded = None /\ map fst dims = map snd dims) /\
      let c := match res with Some t => t | None => gy end in
      wf c /\ a_shape c = pre ++ map fst dims /\ along (tail_out (length pre) (map fst dims)) cur c.
  Proof.
    induction dims as [|[o g] dims IH]; intros pre folded OK cur W S.
    - simpl. exists folded. split; [reflexivity|]. split; [auto|]. fold cur. split; [exact W|]. split; [exact S|].
      apply (sums_along_ext rO rI radd rmul rsub ropp RT (fun i => i)); [|apply (sums_along_id rO rI radd rmul rsub ropp RT)].
      intros i Hi. unfold tail_out, unit_out. simpl. rewrite app_nil_r.
      rewrite S in Hi. simpl in Hi. rewrite app_nil_r in Hi. rewrite <- (in_bounds_length _ _ Hi). symmetry. apply firstn_all.
    - inv OK. rename H1 into P. rename H2 into OK. simpl.
      destruct ((o =? 1) && (1 <? g)) eqn:E.
      + apply andb_prop in E. destruct E as [E1 E2]. apply Nat.eqb_eq in E1. apply Nat.ltb_lt in E2. subst o.
        fold cur. simpl in S.
        assert (Hk : length pre < length (a_shape cur)) by (rewrite S, app_length; simpl; lia).
        destruct (fold_expand cur (length pre) Hk W) as (r & b & Er & Eb & Wb & Sb & Ab).
        rewrite Er, Eb. rewrite S, set_app in Sb.
        destruct (IH (pre ++ [1]) (Some b) OK Wb) as (res & R1 & R2 & R3); [rewrite Sb, <- app_assoc; reflexivity|].
        rewrite app_length, Nat.add_comm in R1. simpl in R1. exists res. split; [exact R1|].
        split; [intros Q; destruct (R2 Q); discriminate|]. destruct R3 as (Wc & Sc & Ac). split; [exact Wc|].
        split; [rewrite Sc, <- app_assoc; reflexivity|].
        apply (sums_along_ext rO rI radd rmul rsub ropp RT (fun i => tail_out (length (pre ++ [1])) (map fst dims) (set_at (length pre) 0 i))).
        * intros i Hi. rewrite S in Hi. pose proof (in_bounds_length _ _ Hi) as Li.
          destruct (in_bounds_app_inv _ _ _ Hi) as [Q1 Q2]. inv Q2.
          pose proof (in_bounds_length _ _ Q1) as L1.
          rewrite <- (firstn_skipn (length pre) i) at 1. rewrite <- H.
          rewrite (set_app' _ _ _ _ _ L1). unfold tail_out. rewrite app_length. simpl.
          rewrite firstn_app, skipn_app. rewrite L1.
          replace (length pre + 1 - length pre) with 1 by lia.
          rewrite firstn_all2 by lia. rewrite skipn_all2 by lia. simpl. rewrite <- H. simpl. rewrite <- app_assoc. reflexivity.
        * apply (sums_along_compose rO rI radd rmul rsub ropp RT) with (b := b); auto.
          intros i Hi. rewrite S in Hi. destruct (in_bounds_app_inv _ _ _ Hi) as [Q1 Q2]. inv Q2.
          pose proof (in_bounds_length _ _ Q1) as L1. rewrite <- (firstn_skipn (length pre) i), <- H.
          rewrite (set_app' _ _ _ _ _ L1). rewrite Sb. apply in_bounds_app; [exact Q1|]. constructor; [lia|auto].
      + assert (Eog : o = g).
        { destruct P as [P|[P1 P2]]; simpl in *; [exact P|]. subst o. rewrite Nat.eqb_refl in E. simpl in E. apply Nat.ltb_ge in E. lia. }
        subst g. rewrite Nat.eqb_refl. simpl.
        destruct (IH (pre ++ [o]) folded OK W) as (res & R1 & R2 & R3); [fold cur; rewrite S, <- app_assoc; reflexivity|].
        fold cur in R3. rewrite app_length, Nat.add_comm in R1. simpl in R1. exists res. split; [exact R1|].
        split; [intros Q; destruct (R2 Q) as [Q1 Q2]; rewrite Q2; auto|].
        destruct R3 as (Wc & Sc & Ac). split; [exact Wc|]. split; [rewrite Sc, <- app_assoc; reflexivity|].
        apply (sums_along_ext rO rI radd rmul rsub ropp RT (tail_out (length (pre ++ [o])) (map fst dims))); [|exact Ac].
        intros i Hi. rewrite S in Hi. destruct (in_bounds_app_inv _ _ _ Hi) as [Q1 Q2]. inv Q2.
        pose proof (in_bounds_length _ _ Q1) as L1. unfold tail_out. rewrite <- H. simpl.
        assert (Ei : i = firstn (length pre) i ++ x :: l) by (rewrite H; symmetry; apply firstn_skipn).
        rewrite Ei at 1 2. rewrite app_length. simpl. rewrite firstn_app, skipn_app, L1.
        replace (length pre + 1 - length pre) with 1 by lia.
        rewrite firstn_all2 by lia. rewrite skipn_all2 by lia. simpl. rewrite <- app_assoc. simpl. f_equal. f_equal.
        unfold unit_out. cbn [map2]. f_equal. destruct (Nat.eqb_spec o 1); lia.
  Qed.

  (** Reduction to shape [orig] when it has the gradient's rank, or is rank 0. *)
  Definition reducible (orig gs : list nat) : Prop :=
    prod gs <> 0 /\ can_broadcast orig gs = true /\ (length orig = length gs \/ orig = []).

  Lemma dims_ok_pairs o : forall g, dims_ok o g = true -> prod g <> 0 -> Forall pair_ok (combine o g) /\ map fst (combine o g) = o /\ map snd (combine o g) = g.
  Proof.
    induction o as [|x o IH]; intros [|y g] H P; simpl in *; try discriminate; [auto|].
    apply andb_prop in H. destruct H as [H1 H2].
    assert (y <> 0 /\ prod g <> 0) as [Py Pg] by (split; intros E; rewrite E in P; lia).
    destruct (IH g H2 Pg) as (F & M1 & M2). split; [|rewrite M1, M2; auto]. constructor; [|exact F].
    unfold pair_ok. simpl. apply orb_prop in H1. destruct H1 as [H1|H1]; apply Nat.eqb_eq in H1; [auto|]. subst x.
    destruct (Nat.eq_dec y 1); [left; auto|right; lia].
  Qed.
  Lemma dims_ok_ones g : dims_ok (repeat 1 (length g)) g = true.
  Proof. induction g as [|x g IH]; simpl; [reflexivity|]. rewrite IH, orb_true_r. reflexivity. Qed.
  Lemma dims_ok_length o : forall g, dims_ok o g = true -> length o = length g.
  Proof. induction o as [|x o IH]; intros [|y g] H; simpl in *; try discriminate; auto. apply andb_prop in H. f_equal. apply IH. tauto. Qed.
  Lemma prod_ones n : prod (repeat 1 n) = 1.
  Proof. induction n as [|n IH]; simpl; [reflexivity|]. rewrite IH. reflexivity. Qed.
  Lemma ravel_zeros sh n : ravel sh (repeat 0 n) = 0.
  Proof. revert sh. induction n as [|n IH]; intros [|d sh]; simpl; auto. Qed.
  Lemma unit_out_ones i : unit_out (repeat 1 (length i)) i = repeat 0 (length i).
  Proof. induction i as [|x i IH]; [reflexivity|]. simpl. unfold unit_out in *. simpl. f_equal. exact IH. Qed.
  Lemma arr_eta (a : arr A) : Arr (a_shape a) (a_data a) = a.
  Proof. destruct a. reflexivity. Qed.

  Lemma scalar_to_nil (r : arr A) n : wf r -> a_shape r = repeat 1 n ->
    exists b, into_shape r [] = Some b /\ wf b /\ a_shape b = [] /\ along (fun _ => []) r b.
  Proof.
    intros W S. exists (Arr [] (a_data r)). split; [apply into_shape_get; rewrite S, prod_ones; reflexivity|].
    split; [unfold wf in *; simpl; rewrite W, S; apply prod_ones|]. split; [reflexivity|].
    assert (B : forall i, in_bounds (repeat 1 n) i -> i = repeat 0 n).
    { clear. induction n as [|n IH]; intros i H; inv H; [reflexivity|]. simpl. f_equal; [lia|]. apply IH. auto. }
    assert (Z : in_bounds (repeat 1 n) (repeat 0 n)).
    { clear. induction n; simpl; constructor; auto. }
    apply (sums_along_bijection rO rI radd rmul rsub ropp RT _ (fun _ => repeat 0 n)); simpl.
    - intros j Hj. rewrite S. exact Z.
    - intros j Hj. inv Hj. reflexivity.
    - intros i Hi. rewrite S in Hi. symmetry. apply B. exact Hi.
    - intros j Hj. inv Hj. unfold get, aget. simpl. rewrite ravel_zeros. reflexivity.
  Qed.

  Lemma maybe_reduce_ok orig gy : wf gy -> reducible orig (a_shape gy) ->
    exists r, maybe_reduce rO radd orig gy = Some r /\ wf r /\ a_shape r = orig /\ along (bc_idx orig) gy r.
  Proof.
    intros W (P & CB & RK). unfold maybe_reduce. destruct (shape_eqb orig (a_shape gy)) eqn:E0.
    - apply shape_eqb_ok in E0. exists gy. split; [reflexivity|]. split; [exact W|]. split; [auto|].
      apply (sums_along_ext rO rI radd rmul rsub ropp RT (fun i => i)); [|apply (sums_along_id rO rI radd rmul rsub ropp RT)].
      intros i Hi. symmetry. apply bc_idx_self. rewrite E0. exact Hi.
    - destruct RK as [RK|RK].
      + assert (DK : dims_ok orig (a_shape gy) = true).
        { unfold can_broadcast in CB. apply andb_prop in CB. destruct CB as [_ CB]. rewrite RK, Nat.sub_diag in CB. exact CB. }
        assert (NS : is_scalar_shape orig = false).
        { unfold is_scalar_shape. destruct (shape_eqb orig []) eqn:Q.
          - apply shape_eqb_ok in Q. subst orig. simpl in RK. destruct (a_shape gy); [discriminate|simpl in RK; discriminate].
          - destruct (shape_eqb orig [0]) eqn:Q2; [|reflexivity]. apply shape_eqb_ok in Q2. subst orig. exfalso.
            destruct (a_shape gy) as [|g [|]] eqn:Eg; simpl in RK; try lia. simpl in DK.
            destruct g; [simpl in P; lia|]. simpl in DK. discriminate. }
        rewrite NS, E0. destruct (dims_ok_pairs _ _ DK P) as (F & M1 & M2).
        destruct (reduce_loop_ok gy (combine orig (a_shape gy)) [] None F W) as (res & R1 & R2 & R3); [simpl; congruence|].
        simpl in R1. rewrite R1. rewrite M1, M2 in R2. rewrite M1 in R3. simpl in R3. destruct R3 as (Wc & Sc & Ac).
        destruct res as [r|]; [|destruct (R2 eq_refl) as [_ Q]; rewrite Q, (proj2 (shape_eqb_ok _ _) eq_refl) in E0; discriminate].
        exists r. rewrite into_shape_get by (rewrite Sc; reflexivity). rewrite <- Sc at 1. rewrite arr_eta.
        split; [reflexivity|]. split; [exact Wc|]. split; [exact Sc|].
        apply (sums_along_ext rO rI radd rmul rsub ropp RT (tail_out 0 orig)); [|exact Ac].
        intros i Hi. unfold tail_out, bc_idx, unit_out. simpl. rewrite (in_bounds_length _ _ Hi), RK, Nat.sub_diag. reflexivity.
      + subst orig. change (is_scalar_shape []) with true. cbv iota.
        destruct (shape_eqb (repeat 1 (length (a_shape gy))) (a_shape gy)) eqn:E1.
        * apply shape_eqb_ok in E1. destruct (scalar_to_nil gy (length (a_shape gy)) W (eq_sym E1)) as (b & Eb & Wb & Sb & Ab).
          exists b. split; [exact Eb|]. split; [exact Wb|]. split; [exact Sb|]. exact Ab.
        * destruct (dims_ok_pairs _ _ (dims_ok_ones (a_shape gy)) P) as (F & M1 & M2).
          destruct (reduce_loop_ok gy (combine (repeat 1 (length (a_shape gy))) (a_shape gy)) [] None F W) as (res & R1 & R2 & R3); [simpl; congruence|].
          simpl in R1. rewrite R1. rewrite M1, M2 in R2. rewrite M1 in R3. simpl in R3. destruct R3 as (Wc & Sc & Ac).
          destruct res as [r|]; [|destruct (R2 eq_refl) as [_ Q]; rewrite Q, (proj2 (shape_eqb_ok _ _) eq_refl) in E1; discriminate].
          destruct (scalar_to_nil r (length (a_shape gy)) Wc Sc) as (b & Eb & Wb & Sb & Ab).
          exists b. split; [exact Eb|]. split; [exact Wb|]. split; [exact Sb|].
          apply (sums_along_compose rO rI radd rmul rsub ropp RT (tail_out 0 (repeat 1 (length (a_shape gy)))) (fun _ => []) gy r b); auto.
          intros i Hi. rewrite Sc. unfold tail_out. simpl. rewrite <- (in_bounds_length _ _ Hi).
          rewrite unit_out_ones. clear. induction (length i); simpl; constructor; auto.
  Qed.
End Reduce.
