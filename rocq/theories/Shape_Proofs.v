(** Proofs about the operations that move elements: slices. *)
From Coq Require Import List Arith ZArith Bool Lia Reals Lra RealField.
Import ListNotations.
From Verif Require Import Eval_Proofs Array_Model Array_Proofs Array_Sum Arith_Model Arith_Proofs Vjp_Spec Vjp_Proofs Arith_Final Reduce_Model Reduce_Spec Reduce_Proofs Shape_Model Shape_Spec.

(** ** Functions that copy part of their argument *)
Section Partial.
  Local Open Scope R_scope.
  Notation rs0 := (sumf 0 Rplus).
  Lemma vjp_partial F x gy gx (q : list nat -> option (list nat)) (c : list nat -> R) :
    wf x -> wf gy -> wf gx -> a_shape gx = a_shape x ->
    (forall i k, in_bounds (a_shape gy) i -> q i = Some k -> in_bounds (a_shape x) k) ->
    (forall x', has_shape (a_shape x) x' -> exists y, F x' = Some y /\ has_shape (a_shape gy) y /\
       forall i, in_bounds (a_shape gy) i -> rget y i = match q i with Some k => rget x' k | None => c i end) ->
    (forall k, in_bounds (a_shape x) k ->
       rget gx k = rs0 (filter (fun i => match q i with Some k' => shape_eqb k' k | None => false end) (indices (a_shape gy))) (rget gy)) ->
    vjp F x gy gx.
  Proof.
    intros Wx Wgy Wgx Sgx Q HF HG.
    assert (Hx : has_shape (a_shape x) x) by (apply has_shape_wf; auto).
    assert (Hgy : has_shape (a_shape gy) gy) by (apply has_shape_wf; auto).
    assert (Hgx : has_shape (a_shape x) gx) by (apply has_shape_wf; auto).
    set (L := fun x' => match F x' with Some y => y | None => x' end).
    assert (HL : forall x', has_shape (a_shape x) x' -> F x' = Some (L x') /\ has_shape (a_shape gy) (L x') /\
       dot gy (L x') = rs0 (indices (a_shape gy)) (fun i => rget gy i * match q i with Some k => rget x' k | None => c i end)).
    { intros x' Hx'. destruct (HF x' Hx') as (y & E & Hy & G). unfold L. rewrite E. split; [reflexivity|]. split; [exact Hy|].
      rewrite (dot_sum (a_shape gy)) by auto. apply sum_ext. intros i Hi. apply indices_in in Hi. rewrite G by exact Hi. reflexivity. }
    apply (vjp_affine F x gy gx L); auto.
    - intros x' Hx'. destruct (HL x' Hx') as (H1 & H2 & _). auto.
    - intros v t Hv. assert (Hs : has_shape (a_shape x) (step x v t)) by (apply (step_has_shape (a_shape x)); auto).
      destruct (HL _ Hs) as (_ & _ & ->). destruct (HL _ Hx) as (_ & _ & ->).
      rewrite (dot_sum (a_shape x)) by auto.
      assert (E : rs0 (indices (a_shape x)) (fun k => rget gx k * rget v k) =
                  rs0 (indices (a_shape gy)) (fun i => rget gy i * match q i with Some k => rget v k | None => 0 end)).
      { rewrite (sum_ext 0 Rplus (indices (a_shape x)) _ (fun k => rs0 (indices (a_shape gy))
          (fun i => if match q i with Some k' => shape_eqb k' k | None => false end then rget gy i * rget v k else 0))).
        - rewrite (sum_swap 0 1 Rplus Rmult Rminus Ropp RT). apply sum_ext. intros i Hi. apply indices_in in Hi.
          destruct (q i) as [k|] eqn:Ek.
          + apply (sum_one 0 1 Rplus Rmult Rminus Ropp RT (indices (a_shape x)) (fun k0 => shape_eqb k k0) (fun k0 => rget gy i * rget v k0) k).
            * apply indices_nodup.
            * apply indices_in. apply (Q i); auto.
            * apply shape_eqb_ok. reflexivity.
            * intros j _ E. apply shape_eqb_ok in E. congruence.
          + rewrite (sum_zero 0 1 Rplus Rmult Rminus Ropp RT); [ring|]. intros; reflexivity.
        - intros k Hk. apply indices_in in Hk. rewrite HG by exact Hk.
          rewrite <- (sum_scale_r 0 1 Rplus Rmult Rminus Ropp RT), (sum_filter 0 1 Rplus Rmult Rminus Ropp RT).
          apply sum_ext. intros i _. destruct (match q i with Some k' => shape_eqb k' k | None => false end); reflexivity. }
      rewrite E. rewrite <- (sum_scale 0 1 Rplus Rmult Rminus Ropp RT), <- (sum_add 0 1 Rplus Rmult Rminus Ropp RT).
      apply sum_ext. intros i Hi. apply indices_in in Hi. destruct (q i) as [k|] eqn:Ek; [|ring].
      rewrite (step_get (a_shape x)) by (auto; apply (Q i); auto). ring.
  Qed.
  (** Each element of the argument is copied at most once: to [r k]. *)
  Lemma vjp_copy F x gy gx (q r : list nat -> option (list nat)) (c : list nat -> R) :
    wf x -> wf gy -> wf gx -> a_shape gx = a_shape x ->
    (forall i k, in_bounds (a_shape gy) i -> q i = Some k -> in_bounds (a_shape x) k) ->
    (forall x', has_shape (a_shape x) x' -> exists y, F x' = Some y /\ has_shape (a_shape gy) y /\
       forall i, in_bounds (a_shape gy) i -> rget y i = match q i with Some k => rget x' k | None => c i end) ->
    (forall k i, in_bounds (a_shape x) k -> in_bounds (a_shape gy) i -> (q i = Some k <-> r k = Some i)) ->
    (forall k i, in_bounds (a_shape x) k -> r k = Some i -> in_bounds (a_shape gy) i) ->
    (forall k, in_bounds (a_shape x) k -> rget gx k = match r k with Some i => rget gy i | None => 0 end) ->
    vjp F x gy gx.
  Proof.
    intros Wx Wgy Wgx Sgx Q HF QR RB HG. apply (vjp_partial F x gy gx q c); auto. intros k Hk. rewrite HG by exact Hk.
    destruct (r k) as [i|] eqn:Er.
    - rewrite (sum_filter 0 1 Rplus Rmult Rminus Ropp RT). symmetry.
      apply (sum_one 0 1 Rplus Rmult Rminus Ropp RT (indices (a_shape gy)) (fun i => match q i with Some k' => shape_eqb k' k | None => false end) (rget gy) i).
      + apply indices_nodup.
      + apply indices_in. apply (RB k); auto.
      + rewrite (proj2 (QR k i Hk (RB k i Hk Er)) Er). apply shape_eqb_ok. reflexivity.
      + intros j Hj E. apply indices_in in Hj. destruct (q j) as [k'|] eqn:Eq; [|discriminate]. apply shape_eqb_ok in E. subst k'.
        apply (proj1 (QR k j Hk Hj)) in Eq. congruence.
    - rewrite (sum_filter 0 1 Rplus Rmult Rminus Ropp RT). rewrite (sum_zero 0 1 Rplus Rmult Rminus Ropp RT); [reflexivity|].
      intros i Hi. apply indices_in in Hi. destruct (q i) as [k'|] eqn:Eq; [|reflexivity].
      destruct (shape_eqb k' k) eqn:E; [|reflexivity]. apply shape_eqb_ok in E. subst k'. apply (proj1 (QR k i Hk Hi)) in Eq. congruence.
  Qed.
End Partial.

(** ** Slices *)
Definition range_ok (r : nat * nat) (n : nat) : Prop := fst r <= snd r /\ snd r <= n.
Definition lens (rs : list (nat * nat)) : list nat := map (fun r => snd r - fst r) rs.
Definition enter (rs : list (nat * nat)) (i : list nat) : list nat := map2 (fun r k => fst r + k) rs i.
Definition leave (rs : list (nat * nat)) (k : list nat) : list nat := map2 (fun r k => k - fst r) rs k.

Lemma resolve_ok n s e r : resolve n s e = Some r -> range_ok r n.
Proof.
  unfold resolve, bind. destruct (abs_index n s) as [lo|]; [|discriminate].
  destruct (match e with None => Some n | Some e => abs_index n e end) as [hi|]; [|discriminate].
  destruct (Nat.leb_spec (Nat.max lo hi) n); [|discriminate]. intros E. injection E as <-. unfold range_ok. simpl. lia.
Qed.
Lemma ranges_ok sh : forall sl rs, ranges sh sl = Some rs -> Forall2 range_ok rs sh.
Proof.
  induction sh as [|n sh IH]; intros [|[s e] sl] rs H; simpl in H; try discriminate.
  - injection H as <-. constructor.
  - unfold bind in H. destruct (resolve n s e) as [r|] eqn:E; [|discriminate]. destruct (ranges sh sl) as [rs'|] eqn:E2; [|discriminate].
    injection H as <-. constructor; [apply (resolve_ok _ _ _ _ E)|apply (IH sl); exact E2].
Qed.
Lemma enter_in rs sh i : Forall2 range_ok rs sh -> in_bounds (lens rs) i -> in_bounds sh (enter rs i).
Proof.
  intros F. revert i. induction F as [|r n rs sh [H1 H2] F IH]; intros i Hi; inv Hi; constructor; [lia|]. apply IH. auto.
Qed.
Lemma leave_in rs sh k : Forall2 range_ok rs sh -> in_bounds sh k -> inside rs k = true -> in_bounds (lens rs) (leave rs k).
Proof.
  intros F. revert k. induction F as [|r n rs sh [H1 H2] F IH]; intros k Hk E; inv Hk; [constructor|].
  unfold inside in E. simpl in E. apply andb_true_iff in E. destruct E as [E1 E2]. apply andb_true_iff in E1.
  rewrite Nat.leb_le, Nat.ltb_lt in E1. constructor; [lia|]. apply IH; auto.
Qed.
Lemma enter_leave rs sh k i : Forall2 range_ok rs sh -> in_bounds sh k -> in_bounds (lens rs) i ->
  (enter rs i = k <-> inside rs k = true /\ leave rs k = i).
Proof.
  intros F. revert k i. induction F as [|r n rs sh [H1 H2] F IH]; intros k i Hk Hi; inv Hk; inv Hi.
  - simpl. unfold inside. simpl. split; auto.
  - unfold inside. simpl. unfold inside in IH. split.
    + intros E. change (fst r + x0 :: enter rs l0 = x :: l) in E. injection E as E1 E2. apply IH in E2; auto. destruct E2 as [E2 E3]. rewrite E2.
      destruct (Nat.leb_spec (fst r) x); [|lia]. destruct (Nat.ltb_spec x (snd r)); [|lia]. split; [reflexivity|].
      change (x - fst r :: leave rs l = x0 :: l0). apply f_equal2; [lia|exact E3].
    + intros [E1 E2]. apply andb_true_iff in E1. destruct E1 as [E1 E3]. apply andb_true_iff in E1. rewrite Nat.leb_le, Nat.ltb_lt in E1.
      change (x - fst r :: leave rs l = x0 :: l0) in E2. injection E2 as E4 E5. change (fst r + x0 :: enter rs l0 = x :: l). apply f_equal2; [lia|]. apply IH; auto.
Qed.
Lemma read_ranges_ok {A} (zero : A) x rs : wf (read_ranges zero x rs) /\ a_shape (read_ranges zero x rs) = lens rs /\
  forall i, in_bounds (lens rs) i -> aget zero (read_ranges zero x rs) i = aget zero x (enter rs i).
Proof. split; [apply tab_wf|]. split; [reflexivity|]. intros i Hi. unfold read_ranges. rewrite aget_tab by exact Hi. reflexivity. Qed.
Lemma write_ranges_ok {A} (zero : A) x rs g : Forall2 range_ok rs (a_shape x) -> wf g -> a_shape g = lens rs ->
  exists y, write_ranges zero x rs g = Some y /\ wf y /\ a_shape y = a_shape x /\
    forall k, in_bounds (a_shape x) k -> aget zero y k = if inside rs k then aget zero g (leave rs k) else aget zero x k.
Proof.
  intros F W S. unfold write_ranges, broadcast, bind. change (map (fun r => snd r - fst r) rs) with (lens rs).
  rewrite S, can_broadcast_refl. eexists. split; [reflexivity|]. split; [apply tab_wf|]. split; [reflexivity|].
  intros k Hk. rewrite aget_tab by exact Hk. destruct (inside rs k) eqn:E; [|reflexivity].
  pose proof (leave_in rs _ k F Hk E) as B. change (map2 (fun r k0 => k0 - fst r) rs k) with (leave rs k).
  rewrite aget_tab by exact B. rewrite bc_idx_self by exact B. reflexivity.
Qed.
Lemma slice_vjp sl (x gy : arr R) rs : ranges (a_shape x) sl = Some rs -> wf x -> wf gy -> a_shape gy = lens rs ->
  exists gx, slice_grad 0%R sl x gy = Some gx /\ vjp (slice_forward 0%R sl) x gy gx.
Proof.
  intros E Wx Wg Sg. pose proof (ranges_ok _ _ _ E) as F. unfold slice_grad. rewrite E. unfold bind.
  destruct (write_ranges_ok 0%R (full (a_shape x) 0%R) rs gy F Wg Sg) as (gx & Eg & Wgx & Sgx & G).
  exists gx. split; [exact Eg|]. simpl in Sgx, G.
  apply (vjp_copy _ _ _ _ (fun i => Some (enter rs i)) (fun k => if inside rs k then Some (leave rs k) else None) (fun _ => 0%R)); auto.
  - intros i k Hi Q. injection Q as <-. rewrite Sg in Hi. apply enter_in; auto.
  - intros x' [Sx' _]. unfold slice_forward. rewrite Sx', E. unfold bind. eexists. split; [reflexivity|].
    destruct (read_ranges_ok 0%R x' rs) as (W & S & R). split; [apply has_shape_wf; split; [rewrite S; auto|exact W]|].
    intros i Hi. apply R. rewrite <- Sg. exact Hi.
  - intros k i Hk Hi. rewrite Sg in Hi. pose proof (enter_leave rs _ k i F Hk Hi) as Q. split.
    + intros E1. injection E1 as E1. apply Q in E1. destruct E1 as [-> ->]. reflexivity.
    + intros E1. f_equal. apply Q. destruct (inside rs k); [|discriminate]. injection E1 as E1. auto.
  - intros k i Hk Q. destruct (inside rs k) eqn:I; [|discriminate]. injection Q as <-. rewrite Sg. apply (leave_in rs (a_shape x)); auto.
  - intros k Hk. rewrite G by exact Hk. destruct (inside rs k); [reflexivity|]. apply aget_full. exact Hk.
Qed.

Lemma abs_index_ok n z m : ((0 <= z)%Z /\ Z.of_nat m = z \/ (z < 0)%Z /\ Z.of_nat m = (Z.of_nat n + z)%Z) -> abs_index n z = Some m.
Proof.
  intros H. unfold abs_index. destruct (Z.ltb_spec z 0).
  - destruct (Z.ltb_spec (Z.of_nat n + z) 0); [lia|]. f_equal. lia.
  - f_equal. lia.
Qed.
Lemma slice_range_ok sh ss es los his : slice_range sh ss es los his ->
  exists sl rs, user_slice ss es = Some sl /\ ranges sh sl = Some rs /\ map fst rs = los /\ lens rs = map2 Nat.sub his los.
Proof.
  induction 1 as [|n s e lo hi sh ss es los his (Hs & He & Hl & Hh) SR (sl & rs & E1 & E2 & E3 & E4)].
  - exists [], []. auto.
  - unfold user_slice in *. destruct (length ss =? length es) eqn:L; [|discriminate]. injection E1 as E1.
    simpl length. simpl Nat.eqb. rewrite L. eexists. exists ((lo, Nat.max lo hi) :: rs). split; [reflexivity|]. simpl map2. rewrite E1.
    split; [|split; [simpl; rewrite E3; reflexivity|simpl; rewrite E4; f_equal; lia]].
    simpl ranges. assert (R : resolve n s (if (e =? -1)%Z then None else Some (if (e <? -1)%Z then (e + 1)%Z else e)) = Some (lo, Nat.max lo hi)).
    { unfold resolve, bind. rewrite (abs_index_ok n s lo Hs).
      assert (E : match (if (e =? -1)%Z then None else Some (if (e <? -1)%Z then (e + 1)%Z else e)) with None => Some n | Some e => abs_index n e end = Some hi).
      { destruct (Z.eqb_spec e (-1)).
        - f_equal. lia.
        - apply abs_index_ok. destruct (Z.ltb_spec e (-1)); lia. }
      rewrite E. destruct (Nat.leb_spec (Nat.max lo hi) n); [reflexivity|lia]. }
    rewrite R. unfold bind. rewrite E2. reflexivity.
Qed.
Lemma enter_shift rs i : enter rs i = shift (map fst rs) i.
Proof. unfold enter, shift. revert i. induction rs as [|r rs IH]; intros [|k i]; simpl; auto. rewrite IH. reflexivity. Qed.
Lemma slice_ok {A} (zero : A) ss es los his x : slice_range (a_shape x) ss es los his ->
  exists y, slice zero ss es x = Some y /\ block_of zero x los (map2 Nat.sub his los) y.
Proof.
  intros SR. destruct (slice_range_ok _ _ _ _ _ SR) as (sl & rs & E1 & E2 & E3 & E4). unfold slice. rewrite E1. unfold bind, slice_forward. rewrite E2.
  unfold bind. eexists. split; [reflexivity|]. destruct (read_ranges_ok zero x rs) as (W & S & R).
  split; [rewrite S; exact E4|]. split; [rewrite <- E4, <- S; exact W|]. intros i Hi. rewrite R by (rewrite E4; exact Hi). rewrite enter_shift, E3. reflexivity.
Qed.

(** ** Split *)
Lemma ranges_map (sh : list nat) (f : nat -> Z * option Z) (g : nat -> nat * nat) : forall s,
  (forall i, i < length sh -> resolve (nth i sh 0) (fst (f (s + i))) (snd (f (s + i))) = Some (g (s + i))) ->
  ranges sh (map f (seq s (length sh))) = Some (map g (seq s (length sh))).
Proof.
  induction sh as [|n sh IH]; intros s H; simpl; [reflexivity|].
  pose proof (H 0 ltac:(simpl; lia)) as H0. rewrite Nat.add_0_r in H0. simpl in H0. destruct (f s) as [a b]. simpl in H0. rewrite H0.
  unfold bind at 1. rewrite IH; [reflexivity|]. intros i Hi. pose proof (H (S i) ltac:(simpl; lia)) as H1. simpl nth in H1. replace (s + S i) with (S s + i) in H1 by lia. exact H1.
Qed.
Definition axis_ranges (sh : list nat) (k lo hi : nat) : list (nat * nat) :=
  map (fun i => if i =? k then (lo, hi) else (0, nth i sh 0)) (seq 0 (length sh)).
Lemma axis_slices sh k lo hi : k < length sh -> lo <= hi -> hi <= nth k sh 0 ->
  ranges sh (map (fun i => if i =? k then (Z.of_nat lo, Some (Z.of_nat hi)) else (0%Z, None)) (seq 0 (length sh))) = Some (axis_ranges sh k lo hi).
Proof.
  intros Hk H1 H2. apply ranges_map. intros i Hi. simpl. destruct (Nat.eqb_spec i k) as [->|N]; simpl.
  - unfold resolve, bind. rewrite (abs_index_ok _ _ lo) by lia. rewrite (abs_index_ok _ _ hi) by lia.
    replace (Nat.max lo hi) with hi by lia. rewrite (proj2 (Nat.leb_le _ _) H2). reflexivity.
  - unfold resolve, bind. simpl. rewrite Nat.leb_refl. reflexivity.
Qed.
Lemma axis_ranges_fst sh k lo hi : map fst (axis_ranges sh k lo hi) = on_axis (length sh) k lo.
Proof. unfold axis_ranges, on_axis. rewrite map_map. apply map_ext. intros i. destruct (i =? k); reflexivity. Qed.
Lemma nth_map_seq {X} (f : nat -> X) n d k : k < n -> nth k (map f (seq 0 n)) d = f k.
Proof. intros H. rewrite (nth_indep _ d (f 0)) by (rewrite map_length, seq_length; exact H). rewrite map_nth, seq_nth by exact H. reflexivity. Qed.
Lemma axis_ranges_lens sh k lo hi : k < length sh -> lens (axis_ranges sh k lo hi) = set_at k (hi - lo) sh.
Proof.
  intros Hk. unfold lens, axis_ranges. rewrite map_map. apply (nth_ext _ _ 0 0); [rewrite map_length, seq_length, set_length; reflexivity|].
  rewrite map_length, seq_length. intros i Hi. rewrite nth_map_seq by exact Hi. rewrite nth_set.
  rewrite (proj2 (Nat.ltb_lt _ _) Hk), andb_true_r. destruct (i =? k); simpl; lia.
Qed.
Lemma names_normalize n axis k : names_axis n axis k -> normalize_axis axis n = Some k.
Proof.
  intros [Hk H]. unfold normalize_axis. destruct (Z.ltb_spec axis 0).
  - destruct (Z.ltb_spec (Z.of_nat n + axis) 0); [lia|]. f_equal. lia.
  - f_equal. lia.
Qed.
Lemma split_ok {A} (zero : A) axis k lo hi x : names_axis (length (a_shape x)) axis k -> lo <= hi -> hi <= nth k (a_shape x) 0 ->
  exists y, split_forward zero axis (Z.of_nat lo) (Z.of_nat hi) x = Some y /\
    block_of zero x (on_axis (length (a_shape x)) k lo) (set_at k (hi - lo) (a_shape x)) y.
Proof.
  intros NA H1 H2. unfold split_forward. rewrite (names_normalize _ _ _ NA). destruct NA as [Hk _]. unfold bind, split_slices.
  rewrite (proj2 (Nat.ltb_lt _ _) Hk). unfold slice_forward. rewrite axis_slices by auto. unfold bind. eexists. split; [reflexivity|].
  destruct (read_ranges_ok zero x (axis_ranges (a_shape x) k lo hi)) as (W & S & R).
  rewrite axis_ranges_lens in * by exact Hk. split; [exact S|]. split; [rewrite <- S; exact W|]. intros i Hi. rewrite R by exact Hi.
  rewrite enter_shift, axis_ranges_fst. reflexivity.
Qed.
Lemma split_vjp axis k lo hi (x gy : arr R) : names_axis (length (a_shape x)) axis k -> lo <= hi -> hi <= nth k (a_shape x) 0 ->
  wf x -> wf gy -> a_shape gy = set_at k (hi - lo) (a_shape x) ->
  exists gx, split_grad 0%R axis (Z.of_nat lo) (Z.of_nat hi) x gy = Some gx /\
    vjp (split_forward 0%R axis (Z.of_nat lo) (Z.of_nat hi)) x gy gx.
Proof.
  intros NA H1 H2 Wx Wg Sg. pose proof NA as [Hk _]. pose proof (names_normalize _ _ _ NA) as E.
  destruct (slice_vjp (map (fun i => if i =? k then (Z.of_nat lo, Some (Z.of_nat hi)) else (0%Z, None)) (seq 0 (length (a_shape x)))) x gy
    (axis_ranges (a_shape x) k lo hi)) as (gx & Eg & V); auto.
  - apply axis_slices; auto.
  - rewrite axis_ranges_lens by exact Hk. exact Sg.
  - exists gx. split.
    + unfold split_grad. rewrite E. unfold bind, split_slices. rewrite (proj2 (Nat.ltb_lt _ _) Hk). exact Eg.
    + destruct V as [V1 V2]. split; [exact V1|]. intros v Hv. destruct (V2 v Hv) as (f & Hf & D). exists f. split; [|exact D].
      intros t. specialize (Hf t). unfold split_forward. assert (Q : a_shape (step x v t) = a_shape x) by reflexivity.
      rewrite Q, E. unfold bind, split_slices. rewrite (proj2 (Nat.ltb_lt _ _) Hk). exact Hf.
Qed.

(** ** Concatenation *)
Lemma set_set {X} k (a b : X) l : set_at k a (set_at k b l) = set_at k a l.
Proof. revert k; induction l as [|x l IH]; intros [|k]; simpl; auto. rewrite IH. reflexivity. Qed.
Lemma set_nth_self {X} k (d : X) l : set_at k (nth k l d) l = l.
Proof. revert k; induction l as [|x l IH]; intros [|k]; simpl; auto. rewrite IH. reflexivity. Qed.
Lemma remove_set {X} k (a : X) l : remove_at k (set_at k a l) = remove_at k l.
Proof. revert k; induction l as [|x l IH]; intros [|k]; simpl; auto. rewrite IH. reflexivity. Qed.
Lemma nth_set_eq {X} k (a d : X) l : k < length l -> nth k (set_at k a l) d = a.
Proof. intros H. rewrite nth_set, Nat.eqb_refl, (proj2 (Nat.ltb_lt _ _) H). reflexivity. Qed.
Lemma shift_on_axis n k o i : length i = n -> k < n -> shift (on_axis n k o) i = set_at k (o + nth k i 0) i.
Proof.
  intros L Hk. assert (Lo : length (on_axis n k o) = n) by (unfold on_axis; rewrite map_length, seq_length; reflexivity).
  apply (nth_ext _ _ 0 0); [unfold shift; rewrite map2_length, set_length, Lo, L; lia|].
  unfold shift at 1. rewrite map2_length, Lo, L, Nat.min_id. intros j Hj. unfold shift. rewrite (map2_nth Nat.add 0 0 0) by (rewrite ?Lo, ?L; auto).
  rewrite nth_set. unfold on_axis. rewrite nth_map_seq by exact Hj. rewrite L, (proj2 (Nat.ltb_lt _ _) Hk), andb_true_r.
  destruct (Nat.eqb_spec j k) as [->|]; lia.
Qed.
Lemma in_bounds_set_to k sh i x a b : in_bounds (set_at k a sh) i -> x < b -> in_bounds (set_at k b sh) (set_at k x i).
Proof. intros H L. rewrite <- (set_set k b a sh). apply in_bounds_set; auto. Qed.
Lemma block_unique {A} (zero : A) x off sh y z : block_of zero x off sh y -> block_of zero x off sh z -> y = z.
Proof.
  intros (S1 & W1 & G1) (S2 & W2 & G2). apply (arr_ext zero).
  - unfold wf. rewrite S1. exact W1.
  - unfold wf. rewrite S2. exact W2.
  - congruence.
  - rewrite S1. intros i Hi. rewrite G1, G2 by exact Hi. reflexivity.
Qed.

Section Concat.
  Context {A : Type} (zero : A).
  Notation pick := (pick zero).
  Lemma pick_at k i : forall (xs : list (arr A)) m x c, nth_error xs m = Some x -> c < axis_len k x ->
    pick k xs (offset k m xs + c) i = aget zero x (set_at k c i).
  Proof.
    induction xs as [|x0 xs IH]; intros [|m] x c E L; simpl in E; try discriminate.
    - injection E as ->. unfold offset. simpl. unfold axis_len in L. rewrite (proj2 (Nat.ltb_lt _ _) L). reflexivity.
    - unfold offset. simpl. change (nth k (a_shape x0) 0) with (axis_len k x0).
      destruct (Nat.ltb_spec (axis_len k x0 + list_sum (map (axis_len k) (firstn m xs)) + c) (axis_len k x0)); [lia|].
      rewrite <- (IH m x c E L). f_equal. unfold offset. lia.
  Qed.
  Lemma pick_set k i x' : forall (xs : list (arr A)) m x c, nth_error xs m = Some x -> axis_len k x' = axis_len k x ->
    pick k (set_at m x' xs) c i =
    if (offset k m xs <=? c) && (c <? offset k m xs + axis_len k x) then aget zero x' (set_at k (c - offset k m xs) i) else pick k xs c i.
  Proof.
    induction xs as [|x0 xs IH]; intros [|m] x c E L; simpl in E; try discriminate.
    - injection E as ->. unfold offset. simpl. unfold axis_len in *. rewrite L, Nat.sub_0_r.
      destruct (c <? nth k (a_shape x) 0) eqn:C; reflexivity.
    - simpl. change (nth k (a_shape x0) 0) with (axis_len k x0).
      assert (O : offset k (S m) (x0 :: xs) = axis_len k x0 + offset k m xs) by reflexivity. rewrite O.
      destruct (Nat.ltb_spec c (axis_len k x0)).
      + destruct (Nat.leb_spec (axis_len k x0 + offset k m xs) c); [lia|]. reflexivity.
      + rewrite (IH m x (c - axis_len k x0) E L).
        assert (B : (axis_len k x0 + offset k m xs <=? c) && (c <? axis_len k x0 + offset k m xs + axis_len k x) =
                    (offset k m xs <=? c - axis_len k x0) && (c - axis_len k x0 <? offset k m xs + axis_len k x)).
        { f_equal; apply eq_true_iff_eq; rewrite ?Nat.leb_le, ?Nat.ltb_lt; lia. }
        rewrite B, Nat.sub_add_distr. destruct (_ && _); reflexivity.
  Qed.
  Lemma offset_le k (xs : list (arr A)) : forall m x, nth_error xs m = Some x ->
    offset k m xs + axis_len k x <= list_sum (map (axis_len k) xs).
  Proof.
    induction xs as [|x0 xs IH]; intros [|m] x E; simpl in E; try discriminate.
    - injection E as ->. unfold offset. simpl. lia.
    - specialize (IH m x E). unfold offset in *. simpl. lia.
  Qed.

  Definition cat (k : nat) (sh : list nat) (xs : list (arr A)) : arr A :=
    tab (set_at k (list_sum (map (axis_len k) xs)) sh) (fun i => pick k xs (nth k i 0) i).
  Definition piece (k : nat) (sh : list nat) (x : arr A) : Prop := wf x /\ exists d, a_shape x = set_at k d sh.
  Lemma concatenate_cat k sh xs : k < length sh -> xs <> [] -> Forall (piece k sh) xs ->
    concatenate zero k xs = Some (cat k sh xs).
  Proof.
    intros Hk N F. destruct xs as [|x0 xs]; [congruence|]. unfold concatenate.
    destruct (Forall_inv F) as (W0 & d0 & S0). rewrite S0, set_length, (proj2 (Nat.ltb_lt _ _) Hk).
    assert (B : forallb (fun x => (length (a_shape x) =? length sh) && shape_eqb (remove_at k (a_shape x)) (remove_at k (set_at k d0 sh))) (x0 :: xs) = true).
    { apply forallb_forall. intros x Hx. rewrite Forall_forall in F. destruct (F x Hx) as (_ & d & ->).
      rewrite set_length, Nat.eqb_refl, !remove_set. simpl. apply shape_eqb_ok. reflexivity. }
    rewrite B. unfold cat. rewrite set_set. reflexivity.
  Qed.
  Lemma cat_ok k sh xs : k < length sh -> Forall (piece k sh) xs -> concatenation zero k xs (cat k sh xs).
  Proof.
    intros Hk F. unfold concatenation. split; [apply nth_set_eq; exact Hk|]. split; [apply tab_wf|].
    intros m x E. simpl a_shape. rewrite Forall_forall in F. destruct (F x (nth_error_In _ _ E)) as (W & d & S).
    rewrite S, !remove_set, !set_length. split; [reflexivity|]. split; [reflexivity|].
    split; [exact S|]. split; [rewrite <- S; exact W|]. intros i Hi.
    pose proof (in_bounds_length _ _ Hi) as Li. rewrite set_length in Li. rewrite shift_on_axis by auto.
    pose proof (in_bounds_nth _ _ k Hi ltac:(rewrite set_length; exact Hk)) as B. rewrite nth_set_eq in B by exact Hk.
    assert (Ld : axis_len k x = d) by (unfold axis_len; rewrite S; apply nth_set_eq; exact Hk).
    unfold cat. rewrite aget_tab.
    - rewrite nth_set_eq by lia. rewrite (pick_at k _ xs m x) by (rewrite ?Ld; auto). rewrite set_set, set_nth_self. reflexivity.
    - apply (in_bounds_set_to k sh i _ d); [exact Hi|]. pose proof (offset_le k xs m x E). lia.
  Qed.
  Lemma stackable_pieces k (xs : list (arr A)) : stackable k xs <-> exists sh, k < length sh /\ Forall (piece k sh) xs.
  Proof. reflexivity. Qed.
  Lemma concatenate_ok k xs : xs <> [] -> stackable k xs -> exists y, concatenate zero k xs = Some y /\ concatenation zero k xs y.
  Proof.
    intros N (sh & Hk & F). exists (cat k sh xs). split; [apply concatenate_cat; auto|apply cat_ok; auto].
  Qed.
  (** Every position along the axis belongs to one of the parts. *)
  Lemma which_part sizes : forall c, c < list_sum sizes ->
    exists m c', m < length sizes /\ c = list_sum (firstn m sizes) + c' /\ c' < nth m sizes 0.
  Proof.
    induction sizes as [|s sizes IH]; simpl; intros c H; [lia|]. destruct (lt_dec c s).
    - exists 0, c. simpl. lia.
    - destruct (IH (c - s) ltac:(lia)) as (m & c' & H1 & H2 & H3). exists (S m), c'. simpl. lia.
  Qed.
  Lemma concatenation_unique k xs y z : xs <> [] -> k < length (a_shape y) ->
    concatenation zero k xs y -> concatenation zero k xs z -> y = z.
  Proof.
    intros N Hk (L1 & W1 & B1) (L2 & W2 & B2). destruct xs as [|x0 xs]; [congruence|]. set (l := x0 :: xs) in *.
    destruct (B1 0 x0 eq_refl) as (R1 & N1 & _). destruct (B2 0 x0 eq_refl) as (R2 & N2 & _).
    assert (S : a_shape y = a_shape z).
    { rewrite <- (insert_remove_nth k 0 (a_shape y)) by exact Hk. rewrite <- (insert_remove_nth k 0 (a_shape z)) by lia.
      rewrite <- R1, <- R2. f_equal. unfold axis_len in *. congruence. }
    apply (arr_ext zero); auto. intros i Hi. pose proof (in_bounds_nth _ _ k Hi Hk) as Bi. fold (axis_len k y) in Bi. rewrite L1 in Bi.
    destruct (which_part _ _ Bi) as (m & c & Hm & Ec & Hc). rewrite map_length in Hm.
    destruct (nth_error l m) as [x|] eqn:E; [|apply nth_error_None in E; lia].
    assert (Lx : nth m (map (axis_len k) l) 0 = axis_len k x).
    { rewrite (nth_indep _ 0 (axis_len k x)) by (rewrite map_length; exact Hm). rewrite map_nth. f_equal. apply nth_error_nth. exact E. }
    rewrite Lx in Hc. destruct (B1 m x E) as (R & Nx & _ & _ & G1). destruct (B2 m x E) as (_ & Nz & _ & _ & G2).
    rewrite firstn_map in Ec. fold (offset k m l) in Ec.
    assert (Bx : in_bounds (a_shape x) (set_at k c i)).
    { rewrite <- (set_nth_self k 0 (a_shape x)), <- (set_set k _ (nth k (a_shape y) 0) (a_shape x)). apply in_bounds_set; [|exact Hc].
      rewrite <- remove_insert_set by lia. rewrite R. rewrite insert_remove_nth by exact Hk. exact Hi. }
    specialize (G1 _ Bx). specialize (G2 _ Bx). pose proof (in_bounds_length _ _ Hi) as Li.
    rewrite <- S in G2. rewrite shift_on_axis in G1, G2 by (rewrite ?set_length; auto). rewrite nth_set_eq, set_set in G1, G2 by lia.
    rewrite <- Ec, set_nth_self in G1, G2. congruence.
  Qed.
End Concat.
Lemma forall_set {X} (P : X -> Prop) m a l : Forall P l -> P a -> Forall P (set_at m a l).
Proof. intros F Ha. revert m. induction F; intros [|m]; simpl; constructor; auto. Qed.
Lemma set_axis_len {A} k m (x x' : arr A) xs : nth_error xs m = Some x -> axis_len k x' = axis_len k x -> map (axis_len k) (set_at m x' xs) = map (axis_len k) xs.
Proof.
  revert m. induction xs as [|x0 xs IH]; intros [|m] E L; simpl in E; try discriminate; simpl.
  - injection E as ->. rewrite L. reflexivity.
  - rewrite (IH m E L). reflexivity.
Qed.
(** The right gradient of operand [m] is the block of [gy] it occupies. *)
Lemma concat_vjp k m (xs : list (arr R)) x gy gx y : stackable k xs -> nth_error xs m = Some x ->
  concatenate 0%R k xs = Some y -> wf gy -> a_shape gy = a_shape y ->
  block_of 0%R gy (on_axis (length (a_shape gy)) k (offset k m xs)) (a_shape x) gx ->
  vjp (fun x' => concatenate 0%R k (set_at m x' xs)) x gy gx.
Proof.
  intros (sh & Hk & F) E C Wg Sg (Sx & Wx & G).
  assert (N : xs <> []) by (intros ->; destruct m; discriminate).
  rewrite (concatenate_cat 0%R k sh xs Hk N F) in C. injection C as <-. simpl in Sg.
  rewrite Forall_forall in F. destruct (F x (nth_error_In _ _ E)) as (W & d & S).
  assert (Ld : axis_len k x = d) by (unfold axis_len; rewrite S; apply nth_set_eq; exact Hk).
  pose proof (offset_le k xs m x E) as Ho. set (off := offset k m xs) in *. set (tot := list_sum (map (axis_len k) xs)) in *.
  assert (Lg : length (a_shape gy) = length sh) by (rewrite Sg; apply set_length). rewrite Lg in G.
  apply (vjp_copy _ _ _ _
    (fun i => if (off <=? nth k i 0) && (nth k i 0 <? off + d) then Some (set_at k (nth k i 0 - off) i) else None)
    (fun j => Some (set_at k (off + nth k j 0) j))
    (fun i => aget 0%R (cat 0%R k sh xs) i)).
  - exact W.
  - exact Wg.
  - unfold wf. rewrite Sx. exact Wx.
  - exact Sx.
  - intros i j Hi Q. destruct ((off <=? nth k i 0) && (nth k i 0 <? off + d)) eqn:B; [|discriminate]. injection Q as <-.
    apply andb_true_iff in B. rewrite Nat.leb_le, Nat.ltb_lt in B. rewrite Sg in Hi. rewrite S. apply (in_bounds_set_to k sh i _ tot); [exact Hi|lia].
  - intros x' Hx'. apply has_shape_wf in Hx'. destruct Hx' as [Sx' Wx'].
    assert (L' : axis_len k x' = axis_len k x) by (unfold axis_len; rewrite Sx'; reflexivity).
    assert (P : piece k sh x') by (split; [exact Wx'|exists d; congruence]).
    exists (cat 0%R k sh (set_at m x' xs)). split.
    + apply concatenate_cat; auto.
      * intros Q. apply (f_equal (@length _)) in Q. rewrite set_length in Q. destruct xs; [congruence|discriminate].
      * apply forall_set; [apply Forall_forall; exact F|exact P].
    + unfold cat. rewrite (set_axis_len k m x x' xs E L'). fold tot. rewrite Sg. split; [apply tab_has_shape|].
      intros i Hi. rewrite aget_tab by exact Hi. rewrite (pick_set 0%R k i x' xs m x _ E L'). fold off. rewrite Ld.
      destruct ((off <=? nth k i 0) && (nth k i 0 <? off + d)); [reflexivity|]. rewrite aget_tab by exact Hi. reflexivity.
  - intros j i Hj Hi. rewrite S in Hj. rewrite Sg in Hi.
    pose proof (in_bounds_length _ _ Hi) as Li. pose proof (in_bounds_length _ _ Hj) as Lj. rewrite set_length in Li, Lj.
    pose proof (in_bounds_nth _ _ k Hj ltac:(rewrite set_length; exact Hk)) as Bj. rewrite nth_set_eq in Bj by exact Hk.
    split; intros Q.
    + destruct ((off <=? nth k i 0) && (nth k i 0 <? off + d)) eqn:B; [|discriminate]. injection Q as <-.
      apply andb_true_iff in B. rewrite Nat.leb_le, Nat.ltb_lt in B. f_equal. rewrite nth_set_eq, set_set by lia.
      replace (off + (nth k i 0 - off)) with (nth k i 0) by lia. apply set_nth_self.
    + injection Q as <-. rewrite nth_set_eq, set_set by lia. destruct (Nat.leb_spec off (off + nth k j 0)); [|lia].
      destruct (Nat.ltb_spec (off + nth k j 0) (off + d)); [|lia]. simpl. f_equal. replace (off + nth k j 0 - off) with (nth k j 0) by lia. apply set_nth_self.
  - intros j i Hj Q. injection Q as <-. rewrite S in Hj. pose proof (in_bounds_nth _ _ k Hj ltac:(rewrite set_length; exact Hk)) as Bj.
    rewrite nth_set_eq in Bj by exact Hk. rewrite Sg. apply (in_bounds_set_to k sh j _ d); [exact Hj|lia].
  - intros j Hj. rewrite G by exact Hj. f_equal. apply shift_on_axis; [|exact Hk]. pose proof (in_bounds_length _ _ Hj) as L. rewrite S, set_length in L. exact L.
Qed.
(** What ConcatGrad computes. *)
Lemma concat_grad_ok {A} (zero : A) k m (xs : list (arr A)) x y gy : stackable k xs -> nth_error xs m = Some x ->
  concatenate zero k xs = Some y -> wf gy -> a_shape gy = a_shape y ->
  exists gx, concat_grad zero (Z.of_nat k) m xs gy = Some gx /\
    block_of zero gy (on_axis (length (a_shape gy)) k (offset k (m - 1) xs))
      (set_at k (axis_len k x - offset k (m - 1) xs) (a_shape gy)) gx.
Proof.
  intros (sh & Hk & F) E C Wg Sg.
  assert (N : xs <> []) by (intros ->; destruct m; discriminate).
  rewrite (concatenate_cat zero k sh xs Hk N F) in C. injection C as <-. simpl in Sg.
  unfold concat_grad. destruct (Z.ltb_spec (Z.of_nat k) 0); [lia|]. rewrite Nat2Z.id.
  assert (Ln : forall z, In z xs -> nth_error (a_shape z) k = Some (axis_len k z)).
  { intros z Hz. rewrite Forall_forall in F. destruct (F z Hz) as (_ & d & Sz). apply nth_error_nth'. rewrite Sz, set_length. exact Hk. }
  assert (L : fold_left (fun acc z => bind acc (fun a => bind (nth_error (a_shape z) k) (fun n => Some (a + n)))) (firstn (m - 1) xs) (Some 0) = Some (offset k (m - 1) xs)).
  { unfold offset. assert (H0 : forall z, In z (firstn (m - 1) xs) -> In z xs) by (intros z Hz; rewrite <- (firstn_skipn (m - 1) xs); apply in_or_app; auto).
    revert H0. generalize (firstn (m - 1) xs) as l. assert (Q : forall l a, (forall z, In z l -> In z xs) ->
      fold_left (fun acc z => bind acc (fun a => bind (nth_error (a_shape z) k) (fun n => Some (a + n)))) l (Some a) = Some (a + list_sum (map (axis_len k) l))).
    { induction l as [|z l IH]; intros a Hl; simpl; [f_equal; lia|]. rewrite (Ln z) by (apply Hl; left; auto). simpl. rewrite IH by (intros; apply Hl; right; auto). f_equal. lia. }
    intros l Hl. apply (Q l 0 Hl). }
  rewrite L. unfold bind at 1. rewrite E. unfold bind at 2. rewrite (Ln x (nth_error_In _ _ E)). unfold bind at 1.
  set (s := offset k (m - 1) xs). assert (Lg : length (a_shape gy) = length sh) by (rewrite Sg; apply set_length).
  assert (Tot : nth k (a_shape gy) 0 = list_sum (map (axis_len k) xs)) by (rewrite Sg; apply nth_set_eq; exact Hk).
  pose proof (offset_le k xs m x E) as Ho.
  assert (Hs : s <= offset k m xs).
  { unfold s, offset. clear. revert m. induction xs as [|z xs IH]; intros [|m]; simpl; rewrite ?firstn_nil; auto. rewrite Nat.sub_0_r. destruct m as [|m]; simpl; [lia|]. specialize (IH (S m)). simpl in IH. rewrite Nat.sub_0_r in IH. lia. }
  assert (R : ranges (a_shape gy) (map (fun i => if i =? k then (Z.of_nat s, Some (Z.of_nat (axis_len k x))) else (0%Z, None)) (seq 0 (length (a_shape gy)))) =
              Some (axis_ranges (a_shape gy) k s (Nat.max s (axis_len k x)))).
  { apply ranges_map. intros i Hi. simpl. destruct (Nat.eqb_spec i k) as [->|Nk]; simpl.
    - unfold resolve, bind. rewrite (abs_index_ok _ _ s) by lia. rewrite (abs_index_ok _ _ (axis_len k x)) by lia.
      rewrite Tot. destruct (Nat.leb_spec (Nat.max s (axis_len k x)) (list_sum (map (axis_len k) xs))); [reflexivity|lia].
    - unfold resolve, bind. simpl. rewrite Nat.leb_refl. reflexivity. }
  unfold slice_forward. rewrite R. unfold bind. eexists. split; [reflexivity|].
  destruct (read_ranges_ok zero gy (axis_ranges (a_shape gy) k s (Nat.max s (axis_len k x)))) as (W & S & G).
  rewrite axis_ranges_lens in * by lia. replace (Nat.max s (axis_len k x) - s) with (axis_len k x - s) in * by lia.
  split; [exact S|]. split; [rewrite <- S; exact W|]. intros i Hi. rewrite G by exact Hi. rewrite enter_shift, axis_ranges_fst. reflexivity.
Qed.
(** Splitting a concatenation gives back the operands. *)
Lemma split_concat {A} (zero : A) axis k xs m x (y : arr A) : names_axis (length (a_shape y)) axis k -> concatenation zero k xs y ->
  nth_error xs m = Some x -> split_part zero (map (axis_len k) xs) axis m y = Some x.
Proof.
  intros NA (L & W & B) E. destruct (B m x E) as (R & Nx & S & Wx & G). pose proof NA as [Hk _].
  pose proof (offset_le k xs m x E) as Ho. unfold split_part. rewrite firstn_map. fold (offset k m xs).
  assert (Lx : nth m (map (axis_len k) xs) 0 = axis_len k x).
  { rewrite (nth_indep _ 0 (axis_len k x)) by (rewrite map_length; apply nth_error_Some; congruence). rewrite map_nth. f_equal. apply nth_error_nth. exact E. }
  rewrite Lx. destruct (split_ok zero axis k (offset k m xs) (offset k m xs + axis_len k x) y NA) as (p & Ep & Bp).
  - lia.
  - unfold axis_len at 1 in L. lia.
  - rewrite Ep. f_equal. assert (Sx : set_at k (offset k m xs + axis_len k x - offset k m xs) (a_shape y) = a_shape x).
    { replace (offset k m xs + axis_len k x - offset k m xs) with (axis_len k x) by lia. rewrite <- remove_insert_set by exact Hk.
      rewrite <- R. apply insert_remove_nth. lia. }
    rewrite Sx in Bp. apply (block_unique zero y _ _ p x Bp). split; [reflexivity|]. split; [exact Wx|exact G].
Qed.
(** Concatenating all parts of a split gives back the array. *)
Lemma concat_split {A} (zero : A) axis k sizes (y : arr A) ps : names_axis (length (a_shape y)) axis k -> wf y ->
  list_sum sizes = axis_len k y -> sizes <> [] -> length ps = length sizes ->
  (forall m, m < length sizes -> split_part zero sizes axis m y = nth_error ps m) ->
  concatenate zero k ps = Some y.
Proof.
  intros NA Wy Hs N Lp H. pose proof NA as [Hk _].
  assert (Hle : forall l m, m < length l -> list_sum (firstn m l) + nth m l 0 <= list_sum l).
  { induction l as [|a l IH]; intros [|m] Hm; simpl in *; try lia. specialize (IH m ltac:(lia)). lia. }
  assert (P : forall m p, nth_error ps m = Some p -> block_of zero y (on_axis (length (a_shape y)) k (list_sum (firstn m sizes))) (set_at k (nth m sizes 0) (a_shape y)) p).
  { intros m p E. assert (Hm : m < length sizes) by (rewrite <- Lp; apply nth_error_Some; congruence). rewrite <- (H m Hm) in E.
    unfold split_part in E. destruct (split_ok zero axis k (list_sum (firstn m sizes)) (list_sum (firstn m sizes) + nth m sizes 0) y NA) as (q & Eq & Bq); [lia| |].
    - specialize (Hle sizes m Hm). unfold axis_len in Hs. lia.
    - rewrite Eq in E. injection E as <-. replace (list_sum (firstn m sizes) + nth m sizes 0 - list_sum (firstn m sizes)) with (nth m sizes 0) in Bq by lia. exact Bq. }
  assert (Ml : map (axis_len k) ps = sizes).
  { apply (nth_ext _ _ 0 0); [rewrite map_length; exact Lp|]. rewrite map_length. intros m Hm.
    destruct (nth_error ps m) as [p|] eqn:E; [|apply nth_error_None in E; lia]. destruct (P m p E) as (S & _).
    rewrite (nth_indep _ 0 (axis_len k p)) by (rewrite map_length; exact Hm). rewrite map_nth, (nth_error_nth _ _ _ E).
    unfold axis_len. rewrite S. apply nth_set_eq. exact Hk. }
  assert (Np : ps <> []) by (intros ->; destruct sizes; [congruence|discriminate]).
  assert (F : Forall (piece k (a_shape y)) ps).
  { apply Forall_forall. intros p Hp. apply In_nth_error in Hp. destruct Hp as [m E]. destruct (P m p E) as (S & W & _).
    split; [unfold wf; rewrite S; exact W|exists (nth m sizes 0); exact S]. }
  rewrite (concatenate_cat zero k (a_shape y) ps Hk Np F). f_equal.
  apply (concatenation_unique zero k ps); auto.
  - unfold cat. simpl. rewrite set_length. exact Hk.
  - apply cat_ok; auto.
  - split; [congruence|]. split; [exact Wy|]. intros m p E. destruct (P m p E) as (S & W & G).
    rewrite S, remove_set, set_length. split; [reflexivity|]. split; [reflexivity|]. unfold offset. rewrite <- firstn_map, Ml.
    split; [exact S|]. split; [exact W|]. exact G.
Qed.
