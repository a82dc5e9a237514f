(** Proofs about tile, gather, reshape, expand_dims, squeeze, transpose, add_n. *)
From Coq Require Import List Arith ZArith Bool Lia Reals Lra RealField Permutation.
Import ListNotations.
From Verif Require Import Eval_Proofs Array_Model Array_Proofs Array_Sum Array_Fold Arith_Model Arith_Proofs Vjp_Spec Vjp_Proofs Arith_Final Reduce_Model Reduce_Spec Reduce_Proofs Shape_Model Shape_Spec Shape_Proofs.

Lemma forall2_impl {X Y} (P Q : X -> Y -> Prop) l l' : (forall a b, P a b -> Q a b) -> Forall2 P l l' -> Forall2 Q l l'.
Proof. intros H F. induction F; constructor; auto. Qed.
Lemma nodup_map_in {X Y} (f : X -> Y) l : (forall a b, In a l -> In b l -> f a = f b -> a = b) -> NoDup l -> NoDup (map f l).
Proof.
  intros H N. induction N as [|x l Hx N IH]; simpl; constructor.
  - rewrite in_map_iff. intros (y & E & Hy). assert (y = x) by (apply H; simpl; auto). congruence.
  - apply IH. intros a b Ha Hb. apply H; simpl; auto.
Qed.
(** ** Tile *)
Lemma pick_repeat {A} (zero : A) k i x num : forall c, c < num * axis_len k x ->
  pick zero k (repeat x num) c i = aget zero x (set_at k (c mod axis_len k x) i).
Proof.
  induction num as [|num IH]; intros c H; [simpl in H; lia|]. simpl. change (nth k (a_shape x) 0) with (axis_len k x).
  destruct (Nat.ltb_spec c (axis_len k x)).
  - rewrite Nat.mod_small by assumption. reflexivity.
  - simpl in H. rewrite IH by lia. do 2 f_equal.
    assert (Nz : axis_len k x <> 0) by lia. rewrite <- (Nat.mod_add (c - axis_len k x) 1) by exact Nz. f_equal. lia.
Qed.
Lemma sum_repeat {A} k (x : arr A) num : list_sum (map (axis_len k) (repeat x num)) = num * axis_len k x.
Proof. induction num as [|num IH]; simpl; [reflexivity|]. rewrite IH. reflexivity. Qed.
Lemma tile_ok {A} (zero : A) axis k num x : wf x -> names_axis (length (a_shape x)) axis k -> 0 < num ->
  exists y, tile zero axis num x = Some y /\ wf y /\ a_shape y = set_at k (num * axis_len k x) (a_shape x) /\
    forall i, in_bounds (a_shape y) i -> aget zero y i = aget zero x (set_at k (nth k i 0 mod axis_len k x) i).
Proof.
  intros W NA Hn. pose proof NA as [Hk _]. unfold tile. rewrite (names_normalize _ _ _ NA). unfold bind.
  rewrite (concatenate_cat zero k (a_shape x)).
  - eexists. split; [reflexivity|]. unfold cat. rewrite sum_repeat. split; [apply tab_wf|]. split; [reflexivity|].
    simpl. intros i Hi. rewrite aget_tab by exact Hi. apply pick_repeat.
    pose proof (in_bounds_nth _ _ k Hi ltac:(rewrite set_length; exact Hk)) as B. rewrite nth_set_eq in B by exact Hk. exact B.
  - exact Hk.
  - destruct num; [lia|discriminate].
  - apply Forall_forall. intros z Hz. apply repeat_spec in Hz. subst z. split; [exact W|]. exists (axis_len k x). symmetry. apply set_nth_self.
Qed.
Lemma names_axis_axes n axis k : names_axis n axis k -> names_axes n [axis] [k].
Proof. intros [H1 H2]. split; [repeat constructor; simpl; tauto|]. apply Forall2_cons; [split; assumption|constructor]. Qed.
Lemma fill_one v k l : fill_axes v [k] l = set_at k v l.
Proof. rewrite fill_set, fill_nil. reflexivity. Qed.
Lemma tile_grad_ok axis k (gy : arr R) : wf gy -> a_shape gy <> [0] -> names_axis (length (a_shape gy)) axis k ->
  exists gx, tile_grad 0%R Rplus axis gy = Some gx /\ wf gx /\ a_shape gx = set_at k 1 (a_shape gy) /\ sums_along 0%R Rplus (set_at k 0) gy gx.
Proof.
  intros W N NA. destruct (reduce_ok 0%R 0%R Rplus (fun a b c => eq_sym (Rplus_assoc a b c)) Rplus_comm (Rplus_0_l 0%R) true [axis] [k] gy W N (names_axis_axes _ _ _ NA)) as (y & E & Wy & Sy & F & _).
  exists y. split; [exact E|]. split; [exact Wy|]. split; [rewrite Sy; apply fill_one|].
  apply (sums_along_ext 0%R 1%R Rplus Rmult Rminus Ropp RT (reduced_index true [k])); [intros i _; apply fill_one|]. apply F. discriminate.
Qed.

(** ** Changing the result's shape does not matter to a gradient *)
Lemma vjp_reshape_out F F' x gy out gx : vjp F x gy gx -> prod (a_shape gy) = prod out ->
  (forall x' y, F x' = Some y -> has_shape (a_shape gy) y -> F' x' = Some (Arr out (a_data y))) ->
  vjp F' x (Arr out (a_data gy)) gx.
Proof.
  intros [H1 H2] P HF. split; [exact H1|]. intros v Hv. destruct (H2 v Hv) as (f & Hf & D).
  exists (fun t => Arr out (a_data (f t))). split; [|exact D]. intros t. destruct (Hf t) as [E Hs]. split; [apply HF; auto|].
  destruct Hs as [_ L]. split; [reflexivity|]. simpl. rewrite L. exact P.
Qed.
Lemma vjp_id x gy : wf x -> wf gy -> a_shape gy = a_shape x -> vjp Some x gy gy.
Proof.
  intros Wx Wg S. apply (vjp_affine Some x gy gy (fun x => x)); auto.
  - intros x' Hx'. split; [reflexivity|]. rewrite S. exact Hx'.
  - intros v t Hv. assert (Hx : has_shape (a_shape x) x) by (apply has_shape_wf; auto). assert (Hg : has_shape (a_shape x) gy) by (apply has_shape_wf; auto).
    rewrite !(dot_sum (a_shape x)) by (auto; apply (step_has_shape (a_shape x)); auto).
    rewrite <- (sum_scale 0%R 1%R Rplus Rmult Rminus Ropp RT), <- (sum_add 0%R 1%R Rplus Rmult Rminus Ropp RT).
    apply sum_ext. intros i Hi. apply indices_in in Hi. rewrite (step_get (a_shape x)) by auto. ring.
Qed.
Lemma vjp_into_shape F x gy out : wf x -> has_shape out gy -> prod (a_shape x) = prod out ->
  (forall x', has_shape (a_shape x) x' -> F x' = Some (Arr out (a_data x'))) ->
  vjp F x gy (Arr (a_shape x) (a_data gy)).
Proof.
  intros Wx [Sg Lg] P HF. destruct gy as [sg dg]. simpl in *. subst sg.
  change dg with (a_data (Arr (a_shape x) dg)) at 1. apply (vjp_reshape_out Some); auto.
  - apply vjp_id; auto. unfold wf. simpl. congruence.
  - simpl. intros x' y E Hy. injection E as <-. apply HF. exact Hy.
Qed.

(** ** Gather *)
Lemma ravel_app s t a b : length a = length s -> ravel (s ++ t) (a ++ b) = ravel s a * prod t + ravel t b.
Proof.
  revert a. induction s as [|d s IH]; intros [|x a] H; simpl in *; try discriminate; [reflexivity|].
  rewrite IH by lia. rewrite prod_app. lia.
Qed.
Lemma set_firstn {X} k (a : X) l : k < length l -> set_at k a l = firstn k l ++ [a] ++ skipn (S k) l.
Proof. revert k; induction l as [|x l IH]; intros [|k] H; simpl in *; try lia; [reflexivity|]. rewrite IH by lia. reflexivity. Qed.
Section Select.
  Context {A : Type} (zero : A).
  Definition slice_at (k : nat) (x : arr A) (i : nat) : arr A := tab (set_at k 1 (a_shape x)) (fun j => aget zero x (set_at k i j)).
  Lemma collapses_ok k x : k < length (a_shape x) -> forall idx, Forall (fun i => i < axis_len k x) idx ->
    collapses zero k idx x = Some (map (slice_at k x) idx).
  Proof.
    intros Hk. induction idx as [|i idx IH]; intros F; simpl; [reflexivity|]. unfold collapse_axis.
    rewrite (nth_error_nth' _ 0 Hk). fold (axis_len k x). pose proof (Forall_inv F) as Hi. cbv beta in Hi. rewrite (proj2 (Nat.ltb_lt _ _) Hi).
    unfold bind at 1. rewrite IH by (apply (Forall_inv_tail F)). reflexivity.
  Qed.
  Lemma pick_slices k x j : k < length (a_shape x) -> forall idx c, c < length idx -> length j = length (a_shape x) ->
    in_bounds (set_at k 1 (a_shape x)) (set_at k 0 j) ->
    pick zero k (map (slice_at k x) idx) c j = aget zero x (set_at k (nth c idx 0) j).
  Proof.
    intros Hk. induction idx as [|i idx IH]; intros c Hc Lj B; simpl in Hc; [lia|]. simpl. rewrite nth_set_eq by exact Hk.
    destruct c as [|c].
    - simpl. unfold slice_at. rewrite aget_tab by exact B. rewrite set_set. reflexivity.
    - change (S c <? 1) with false. cbv iota. replace (S c - 1) with c by lia. rewrite IH by (auto; lia). reflexivity.
  Qed.
  Lemma sum_slices k x idx : k < length (a_shape x) -> list_sum (map (axis_len k) (map (slice_at k x) idx)) = length idx.
  Proof. intros Hk. induction idx as [|i idx IH]; simpl; [reflexivity|]. rewrite IH. unfold axis_len. simpl. rewrite nth_set_eq by exact Hk. reflexivity. Qed.
  Lemma select_ok k x idx : k < length (a_shape x) -> idx <> [] -> Forall (fun i => i < axis_len k x) idx ->
    exists y, select zero k idx x = Some y /\ wf y /\ a_shape y = set_at k (length idx) (a_shape x) /\
      forall i, in_bounds (a_shape y) i -> aget zero y i = aget zero x (set_at k (nth (nth k i 0) idx 0) i).
  Proof.
    intros Hk N F. unfold select. replace (match idx with [] => None | _ => bind (collapses zero k idx x) (concatenate zero k) end)
      with (bind (collapses zero k idx x) (concatenate zero k)) by (destruct idx; [congruence|reflexivity]).
    rewrite collapses_ok by auto. unfold bind. rewrite (concatenate_cat zero k (a_shape x)).
    - eexists. split; [reflexivity|]. unfold cat. rewrite sum_slices by exact Hk. split; [apply tab_wf|]. split; [reflexivity|].
      simpl. intros i Hi. rewrite aget_tab by exact Hi. pose proof (in_bounds_length _ _ Hi) as Li. rewrite set_length in Li.
      pose proof (in_bounds_nth _ _ k Hi ltac:(rewrite set_length; exact Hk)) as B. rewrite nth_set_eq in B by exact Hk.
      apply pick_slices; auto. apply (in_bounds_set_to k (a_shape x) i 0 (length idx)); auto.
    - exact Hk.
    - destruct idx; [congruence|discriminate].
    - apply Forall_forall. intros z Hz. apply in_map_iff in Hz. destruct Hz as (i & <- & _). split; [apply tab_wf|]. exists 1. reflexivity.
  Qed.
  Lemma names_index_ok norm n l pos : Forall2 (names_index norm n) l pos ->
    (if norm then normalize_axes n l else plain_indices l) = Some pos.
  Proof.
    destruct norm; intros F.
    - apply normalize_axes_ok. refine (forall2_impl _ _ _ _ _ F). unfold names_index. intros z i [H1 H2]. tauto.
    - induction F as [|z i l pos [H1 H2] F IH]; simpl; [reflexivity|]. destruct H2 as [->|[H2 _]]; [|discriminate].
      destruct (Z.ltb_spec (Z.of_nat i) 0); [lia|]. rewrite IH. unfold bind. rewrite Nat2Z.id. reflexivity.
  Qed.
  Lemma names_index_lt norm n l pos : Forall2 (names_index norm n) l pos -> Forall (fun i => i < n) pos /\ length pos = length l.
  Proof. induction 1 as [|z i l pos [H _] F [IH1 IH2]]; simpl; auto. Qed.
  Lemma gather_ok norm axis k ind x pos : wf x -> wf ind -> names_axis (length (a_shape x)) axis k -> a_data ind <> [] ->
    Forall2 (names_index norm (axis_len k x)) (a_data ind) pos ->
    exists s, select zero k pos x = Some s /\
      gather zero norm axis ind x = Some (Arr (firstn k (a_shape x) ++ a_shape ind ++ skipn (S k) (a_shape x)) (a_data s)) /\
      wf s /\ a_shape s = set_at k (length pos) (a_shape x) /\
      (forall i, in_bounds (a_shape s) i -> aget zero s i = aget zero x (set_at k (nth (nth k i 0) pos 0) i)) /\
      prod (a_shape s) = prod (firstn k (a_shape x) ++ a_shape ind ++ skipn (S k) (a_shape x)).
  Proof.
    intros W Wi NA N F. pose proof NA as [Hk _]. destruct (names_index_lt _ _ _ _ F) as [B L].
    destruct (select_ok k x pos Hk) as (s & Es & Ws & Ss & Gs); [intros ->; destruct (a_data ind); [congruence|discriminate]|exact B|].
    exists s. split; [exact Es|].
    assert (P : prod (a_shape s) = prod (firstn k (a_shape x) ++ a_shape ind ++ skipn (S k) (a_shape x))).
    { rewrite Ss, set_firstn by exact Hk. rewrite !prod_app. rewrite L, Wi. simpl. lia. }
    split; [|auto]. unfold gather. rewrite (names_normalize _ _ _ NA). unfold bind at 1. rewrite (nth_error_nth' _ 0 Hk). fold (axis_len k x).
    unfold bind at 1. cbv zeta. rewrite (names_index_ok _ _ _ _ F). unfold bind at 1. rewrite Es. unfold bind. apply into_shape_get. exact P.
  Qed.
  Lemma gathered_ok norm axis k ind x pos : wf x -> wf ind -> names_axis (length (a_shape x)) axis k -> a_data ind <> [] ->
    Forall2 (names_index norm (axis_len k x)) (a_data ind) pos ->
    exists y, gather zero norm axis ind x = Some y /\ gathered zero k (a_shape ind) pos x y.
  Proof.
    intros W Wi NA N F. destruct (gather_ok norm axis k ind x pos W Wi NA N F) as (s & Es & Eg & Ws & Ss & Gs & P). pose proof NA as [Hk _].
    destruct (names_index_lt _ _ _ _ F) as [B L].
    eexists. split; [exact Eg|]. split; [reflexivity|]. split; [exact (eq_trans Ws P)|].
    intros a b c Ha Hb Hc. pose proof (in_bounds_length _ _ Ha) as La. rewrite firstn_length, Nat.min_l in La by lia.
    pose proof (ravel_lt _ _ Hb) as Rb.
    assert (Hi : in_bounds (a_shape s) (a ++ [ravel (a_shape ind) b] ++ c)).
    { rewrite Ss, set_firstn by exact Hk. apply in_bounds_app; [exact Ha|]. apply in_bounds_app; [|exact Hc].
      constructor; [|constructor]. rewrite L, Wi. exact Rb. }
    transitivity (aget zero s (a ++ [ravel (a_shape ind) b] ++ c)).
    - unfold aget. simpl a_data. f_equal. rewrite Ss, set_firstn by exact Hk. simpl a_shape.
      rewrite !ravel_app by (rewrite ?firstn_length; try apply (in_bounds_length _ _ Hb); simpl; lia).
      rewrite !prod_app. simpl. rewrite L, Wi. lia.
    - rewrite Gs by exact Hi. f_equal. rewrite !app_nth2, La, Nat.sub_diag by lia. simpl. apply set_app'. exact La.
  Qed.
End Select.

(** The gradient loop adds, for each gathered position, its slice of [gy]. *)
Section GatherGrad.
  Local Open Scope R_scope.
  Notation rs0 := (sumf 0 Rplus).
  Lemma gather_loop_ok k n (gy : arr R) : forall l pos t gx, Forall2 (names_index true n) l pos -> ~ In (-1)%Z l -> wf gx ->
    exists g, gather_grad_loop 0 Rplus k n gy t l gx = Some g /\ wf g /\ a_shape g = a_shape gx /\
      forall j, in_bounds (a_shape gx) j ->
        rget g j = rget gx j + rs0 (filter (fun c => (nth (c - t) pos 0 =? nth k j 0)%nat) (seq t (length pos))) (fun c => rget gy (set_at k c j)).
  Proof.
    induction l as [|z l IH]; intros pos t gx F N W; inversion F as [|z' i l' pos' Hi F' E1 E2]; subst.
    - exists gx. simpl. split; [reflexivity|]. split; [exact W|]. split; [reflexivity|]. intros j _. unfold sumf. simpl. ring.
    - destruct Hi as [Hi Hz]. simpl gather_grad_loop.
      assert (R : resolve n z (Some (z + 1)%Z) = Some (i, S i)).
      { unfold resolve, bind. assert (Nz : z <> (-1)%Z) by (intros ->; apply N; left; reflexivity).
        rewrite (abs_index_ok n z i) by lia. rewrite (abs_index_ok n (z + 1) (S i)) by lia.
        replace (Nat.max i (S i)) with (S i) by lia. destruct (Nat.leb_spec (S i) n); [reflexivity|lia]. }
      rewrite R. unfold bind. simpl fst. simpl snd. rewrite (proj2 (Nat.ltb_lt i (S i)) ltac:(lia)).
      set (gx' := tab (a_shape gx) (fun j => if (nth k j 0 =? i)%nat then rget gx j + rget gy (set_at k t j) else rget gx j)).
      destruct (IH pos' (S t) gx' F' ltac:(intros H; apply N; right; exact H) (tab_wf _ _)) as (g & Eg & Wg & Sg & G).
      exists g. split; [exact Eg|]. split; [exact Wg|]. split; [exact Sg|]. intros j Hj. rewrite G by exact Hj.
      unfold gx'. rewrite aget_tab by exact Hj.
      assert (Q : filter (fun c => (nth (c - t) (i :: pos') 0 =? nth k j 0)%nat) (seq t (S (length pos'))) =
                  (if (i =? nth k j 0)%nat then [t] else []) ++ filter (fun c => (nth (c - S t) pos' 0 =? nth k j 0)%nat) (seq (S t) (length pos'))).
      { rewrite <- cons_seq. cbn [filter]. rewrite Nat.sub_diag. cbn [nth].
        rewrite (filter_ext_in (fun c => (nth (c - t) (i :: pos') 0 =? nth k j 0)%nat) (fun c => (nth (c - S t) pos' 0 =? nth k j 0)%nat)).
        - destruct (i =? nth k j 0)%nat; reflexivity.
        - intros c Hc. apply in_seq in Hc. replace (c - t)%nat with (S (c - S t)) by lia. reflexivity. }
      cbn [length]. rewrite Q. rewrite (Nat.eqb_sym i). destruct (nth k j 0 =? i)%nat; unfold sumf; simpl; ring.
  Qed.
  Lemma select_sums k sh (gy gx : arr R) pos : (k < length sh)%nat -> a_shape gx = sh -> a_shape gy = set_at k (length pos) sh ->
    (forall j, in_bounds sh j -> rget gx j = rs0 (filter (fun c => (nth c pos 0 =? nth k j 0)%nat) (seq 0 (length pos))) (fun c => rget gy (set_at k c j))) ->
    sums_along 0 Rplus (fun i => set_at k (nth (nth k i 0%nat) pos 0%nat) i) gy gx.
  Proof.
    intros Hk Sx Sg H j Hj. rewrite Sx in Hj. unfold get. rewrite H by exact Hj. rewrite <- (sum_map 0 Rplus (filter _ _) (fun c => set_at k c j) (rget gy)).
    pose proof (in_bounds_length _ _ Hj) as Lj. apply (sum_perm 0 1 Rplus Rmult Rminus Ropp RT). apply NoDup_Permutation.
    - apply nodup_map_in.
      + intros a b _ _ E. apply (f_equal (fun l => nth k l 0%nat)) in E. rewrite !nth_set_eq in E by lia. exact E.
      + apply NoDup_filter. apply seq_NoDup.
    - apply NoDup_filter. apply indices_nodup.
    - intros i. rewrite in_map_iff, filter_In, Sg, indices_in. split.
      + intros (c & <- & Hc). apply filter_In in Hc. destruct Hc as [Hc E]. apply in_seq in Hc. apply Nat.eqb_eq in E. split.
        * apply in_bounds_set; [exact Hj|lia].
        * apply shape_eqb_ok. rewrite nth_set_eq, set_set, E by lia. apply set_nth_self.
      + intros [Hi E]. apply shape_eqb_ok in E. pose proof (in_bounds_length _ _ Hi) as Li. rewrite set_length in Li.
        pose proof (in_bounds_nth _ _ k Hi ltac:(rewrite set_length; exact Hk)) as B. rewrite nth_set_eq in B by exact Hk.
        exists (nth k i 0%nat). split.
        * rewrite <- E, set_set. apply set_nth_self.
        * apply filter_In. split; [apply in_seq; lia|]. apply Nat.eqb_eq. rewrite <- E, nth_set_eq by lia. reflexivity.
  Qed.
  Lemma gather_vjp norm k (ind : arr Z) (x gy : arr R) pos : wf x -> wf ind -> (k < length (a_shape x))%nat -> a_data ind <> [] ->
    Forall2 (names_index norm (axis_len k x)) (a_data ind) pos -> ~ In (-1)%Z (a_data ind) ->
    wf gy -> a_shape gy = firstn k (a_shape x) ++ a_shape ind ++ skipn (S k) (a_shape x) ->
    exists gx, gather_grad 0 Rplus (Z.of_nat k) ind x gy = Some gx /\ vjp (gather 0 norm (Z.of_nat k) ind) x gy gx.
  Proof.
    intros Wx Wi Hk N F N1 Wg Sg. destruct (names_index_lt _ _ _ _ F) as [B L].
    assert (NA : forall x' : arr R, a_shape x' = a_shape x -> names_axis (length (a_shape x')) (Z.of_nat k) k) by (intros x' E; rewrite E; split; auto).
    unfold gather_grad. destruct (Z.ltb_spec (Z.of_nat k) 0); [lia|]. rewrite Nat2Z.id. rewrite (nth_error_nth' _ 0%nat Hk). fold (axis_len k x).
    unfold bind at 1. destruct (gather_ok 0 norm (Z.of_nat k) k ind x pos Wx Wi (NA x eq_refl) N F) as (s & _ & _ & _ & Ss & _ & P).
    assert (Sh : firstn k (a_shape x) ++ [length (a_data ind)] ++ skipn (S k) (a_shape x) = set_at k (length pos) (a_shape x)) by (rewrite set_firstn, L by exact Hk; reflexivity).
    rewrite Sh, into_shape_get by congruence. unfold bind.
    set (g' := Arr (set_at k (length pos) (a_shape x)) (a_data gy)).
    assert (F' : Forall2 (names_index true (axis_len k x)) (a_data ind) pos).
    { refine (forall2_impl _ _ _ _ _ F). unfold names_index. intros z i [H1 H2]. split; [exact H1|]. destruct H2 as [H2|[_ H2]]; auto. }
    assert (Wg' : wf g') by (unfold wf, g'; simpl; rewrite Wg, Sg, <- P, Ss; reflexivity).
    destruct (gather_loop_ok k (axis_len k x) g' (a_data ind) pos 0 (full (a_shape x) 0) F' N1 (tab_wf _ _)) as (gx & E & Wgx & Sgx & G).
    exists gx. split; [exact E|]. simpl in Sgx, G.
    assert (V : vjp (select 0 k pos) x g' gx).
    { apply (vjp_reads _ _ _ _ (fun i => set_at k (nth (nth k i 0%nat) pos 0%nat) i)); auto.
      - simpl. intros i Hi. pose proof (in_bounds_nth _ _ k Hi ltac:(rewrite set_length; exact Hk)) as Bi. rewrite nth_set_eq in Bi by exact Hk.
        rewrite <- (set_nth_self k 0%nat (a_shape x)). apply (in_bounds_set_to k (a_shape x) i _ (length pos)); [exact Hi|].
        rewrite Forall_forall in B. apply B. apply nth_In. exact Bi.
      - intros x' Hx'. apply has_shape_wf in Hx'. destruct Hx' as [Sx' Wx'].
        destruct (select_ok 0 k x' pos) as (y & Ey & Wy & Sy & Gy).
        + rewrite Sx'. exact Hk.
        + intros ->. destruct (a_data ind); [congruence|discriminate].
        + unfold axis_len. rewrite Sx'. exact B.
        + exists y. split; [exact Ey|]. rewrite Sx' in Sy. split; [apply has_shape_wf; auto|]. intros i Hi. apply Gy. rewrite Sy. exact Hi.
      - apply (select_sums k (a_shape x)); auto. intros j Hj. rewrite G by exact Hj. rewrite aget_full by exact Hj. rewrite Rplus_0_l.
        f_equal. apply filter_ext_in. intros c _. rewrite Nat.sub_0_r. reflexivity. }
    assert (Eg : gy = Arr (a_shape gy) (a_data g')) by (destruct gy; reflexivity). rewrite Eg.
    destruct V as [V1 V2]. split; [exact V1|]. intros v Hv. destruct (V2 v Hv) as (f & Hf & D). exists (fun t => Arr (a_shape gy) (a_data (f t))).
    split; [|exact D]. intros t. destruct (Hf t) as [Ef [Sf Lf]].
    assert (Hs : has_shape (a_shape x) (step x v t)) by (apply step_has_shape; [apply has_shape_wf; auto|exact Hv]).
    apply has_shape_wf in Hs. destruct Hs as [S1 W1].
    destruct (gather_ok 0 norm (Z.of_nat k) k ind (step x v t) pos W1 Wi (NA _ S1) N) as (s' & Es' & Eg' & _ & _ & _ & P').
    { unfold axis_len. rewrite S1. exact F. }
    rewrite Eg'. rewrite Es' in Ef. injection Ef as ->. rewrite S1, <- Sg. split; [reflexivity|]. split; [reflexivity|]. simpl. rewrite Lf. simpl. rewrite Sg, <- P, Ss. reflexivity.
  Qed.
End GatherGrad.
