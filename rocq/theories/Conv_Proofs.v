(** The convolution kernels compute the convolution; no access leaves its buffer. *)
From Coq Require Import List Arith ZArith Bool Lia Reals Lra RealField.
Import ListNotations.
From Verif Require Import Eval_Proofs Array_Model Array_Proofs Array_Sum Vjp_Spec Vjp_Proofs Dot_Spec Dot_Proofs Kernel_Model Kernel_Proofs Conv_Model Conv_Loops Conv_Spec.

Notation rexec := (exec 0%R Rplus Rmult).
Notation rvalue := (value 0%R Rplus Rmult).

(** ** Sums over indices *)
Lemma rsum_ravel sh (f : nat -> R) : rsum (seq 0 (prod sh)) f = rsum (indices sh) (fun i => f (ravel sh i)).
Proof. rewrite <- ravel_indices. apply sum_map. Qed.
Lemma rsum_cons d sh (f : list nat -> R) : rsum (indices (d :: sh)) f = rsum (seq 0 d) (fun i => rsum (indices sh) (fun t => f (i :: t))).
Proof.
  simpl indices. rewrite (sum_flat_map 0%R 1%R Rplus Rmult Rminus Ropp RT). apply sum_ext. intros i _. apply sum_map.
Qed.
Lemma rsum_app sh sh' (f : list nat -> R) : rsum (indices (sh ++ sh')) f = rsum (indices sh) (fun t => rsum (indices sh') (fun u => f (t ++ u))).
Proof.
  revert f. induction sh as [|d sh IH]; intros f.
  - simpl. rewrite Rplus_0_r. reflexivity.
  - simpl app. rewrite !rsum_cons. apply sum_ext. intros i _. rewrite IH. reflexivity.
Qed.
Lemma ravel_app sh sh' i j : length i = length sh -> ravel (sh ++ sh') (i ++ j) = ravel sh i * prod sh' + ravel sh' j.
Proof.
  revert i. induction sh as [|d sh IH]; intros [|a i] L; simpl in *; try lia. rewrite IH by lia.
  assert (P : prod (sh ++ sh') = prod sh * prod sh').
  { clear. induction sh as [|x sh IH]; [simpl; lia|]. change (prod ((x :: sh) ++ sh')) with (x * prod (sh ++ sh')). rewrite IH. change (prod (x :: sh)) with (x * prod sh). lia. }
  rewrite P. lia.
Qed.
Lemma prod_app sh sh' : prod (sh ++ sh') = prod sh * prod sh'.
Proof. induction sh as [|x sh IH]; [simpl; lia|]. change (prod ((x :: sh) ++ sh')) with (x * prod (sh ++ sh')). rewrite IH. change (prod (x :: sh)) with (x * prod sh). lia. Qed.
Lemma in_bounds_app sh sh' i j : in_bounds sh i -> in_bounds sh' j -> in_bounds (sh ++ sh') (i ++ j).
Proof. intros H H'. induction H; simpl; [exact H'|]. constructor; auto. Qed.

(** ** The external product *)
Lemma products_sum (m : mem) {I} (ls : list I) a b f g s :
  (forall l, In l ls -> load m (a l) = Some (f l)) -> (forall l, In l ls -> load m (b l) = Some (g l)) ->
  products Rplus Rmult m (map (fun l => (a l, b l)) ls) s = Some (s + rsum ls (fun l => f l * g l))%R.
Proof.
  revert s. induction ls as [|l ls IH]; intros s Ha Hb; simpl.
  - f_equal. ring.
  - rewrite (Ha l), (Hb l) by (simpl; auto). rewrite IH by (intros; (apply Ha || apply Hb); simpl; auto). f_equal. ring.
Qed.
Definition gemm_ins (m k n : nat) (a : addr) (rsa csa : Z) (b : addr) (rsb csb : Z) (beta : bool) (c : addr) (ij : list nat) : instr :=
  let i := nth 0 ij 0 in let j := nth 1 ij 0 in
  Gemm (fst c, snd c + z (ravel [m; n] ij))%Z beta
    (map (fun l => ((fst a, snd a + z i * rsa + z l * csa)%Z, (fst b, snd b + z l * rsb + z j * csb)%Z)) (seq 0 k)).
Lemma gemm_closed m k n a rsa csa b rsb csb beta c :
  gemm_call m k n a rsa csa b rsb csb beta c (z n) 1%Z = map (gemm_ins m k n a rsa csa b rsb csb beta c) (indices [m; n]).
Proof.
  unfold gemm_call. rewrite <- flat_map_single, flat_indices. apply flat_map_ext_in. intros i Hi.
  rewrite flat_indices. rewrite <- flat_map_single. apply flat_map_ext_in. intros j Hj. simpl flat_map. unfold gemm_ins. cbn [nth].
  f_equal. f_equal. f_equal. simpl ravel. lia.
Qed.

(** ** Stores into one buffer at increasing positions *)
Lemma nodup_map_inj {I X} (f : I -> X) l : NoDup l -> (forall i j, In i l -> In j l -> f i = f j -> i = j) -> NoDup (map f l).
Proof.
  induction 1 as [|i l Hi ND IH]; intros H; simpl; constructor.
  - intros Q. apply in_map_iff in Q. destruct Q as (j & E & Hj). apply Hi. rewrite (H i j); simpl; auto.
  - apply IH. intros; apply H; simpl; auto.
Qed.

(** A list of instructions, one for each index of [sh], that store at the
    positions of the indices in buffer [B] and read other buffers (or what they
    overwrite). *)
Lemma exec_fill (B : nat) sh (ins : list nat -> instr) (v : list nat -> R) (m : mem) :
  (forall i, in_bounds sh i -> dest (ins i) = (B, z (ravel sh i))) ->
  (forall i a, in_bounds sh i -> In a (reads (ins i)) -> fst a <> B \/ a = dest (ins i)) ->
  (forall i, in_bounds sh i -> rvalue m (ins i) = Some (v i)) ->
  (forall k, k < prod sh -> load m (B, z k) <> None) ->
  exists m', rexec m (map ins (indices sh)) = Some m' /\
    (forall i, in_bounds sh i -> load m' (B, z (ravel sh i)) = Some (v i)) /\
    (forall a, fst a <> B -> load m' a = load m a) /\
    load m' (B, z (prod sh)) = load m (B, z (prod sh)).
Proof.
  intros HD HR HV HL.
  destruct (exec_once 0%R Rplus Rmult (map ins (indices sh)) m) as (m' & E & L1 & L2).
  - rewrite map_map. apply nodup_map_inj; [apply indices_nodup|]. intros i j Hi Hj. apply indices_in in Hi. apply indices_in in Hj.
    rewrite (HD i Hi), (HD j Hj). intros Q. injection Q as Q. apply Nat2Z.inj in Q. apply (ravel_inj sh); auto.
  - intros a b Ha Hb ND. apply in_map_iff in Ha. destruct Ha as (i & <- & Hi). apply in_map_iff in Hb. destruct Hb as (j & <- & Hj).
    apply indices_in in Hi. apply indices_in in Hj. intros Q. apply (HR j _ Hj) in Q. destruct Q as [Q|Q]; [apply Q; rewrite (HD i Hi); reflexivity|exact (ND Q)].
  - intros a Ha. apply in_map_iff in Ha. destruct Ha as (i & <- & Hi). apply indices_in in Hi. rewrite (HD i Hi), (HV i Hi).
    split; [apply HL; apply ravel_lt; exact Hi|discriminate].
  - exists m'. split; [exact E|]. split; [|split].
    + intros i Hi. rewrite <- (HD i Hi), <- (HV i Hi). apply L1. apply in_map. apply indices_in. exact Hi.
    + intros a Ha. apply L2. intros Q. apply in_map_iff in Q. destruct Q as (b & <- & Hb). apply in_map_iff in Hb. destruct Hb as (i & <- & Hi).
      apply indices_in in Hi. rewrite (HD i Hi) in Ha. apply Ha. reflexivity.
    + apply L2. intros Q. apply in_map_iff in Q. destruct Q as (b & E' & Hb). apply in_map_iff in Hb. destruct Hb as (i & <- & Hi).
      apply indices_in in Hi. rewrite (HD i Hi) in E'. injection E' as E'. apply Nat2Z.inj in E'. pose proof (ravel_lt sh i Hi). lia.
Qed.

(** ** Sizes *)
Lemma u_out_size_ok x p s d k y : u_out_size x p s d k = KOk y <-> 0 < s /\ 0 < k /\ 0 < y /\ placements x p s d k y.
Proof.
  unfold u_out_size, usub, udiv, kbind, placements. split.
  - destruct (Nat.leb_spec 1 k); [|discriminate]. destruct (Nat.leb_spec (d * (k - 1) + 1) (x + 2 * p)); [|discriminate].
    destruct (Nat.eqb_spec s 0); [discriminate|].
    set (r := x + 2 * p - (d * (k - 1) + 1)) in *. assert (Er : x + 2 * p = r + (d * (k - 1) + 1)) by lia.
    intros E. injection E as E. symmetry in E. subst y. split; [lia|]. split; [lia|]. split; [lia|]. intros i. rewrite Er.
    pose proof (Nat.div_mod r s n) as Q. pose proof (Nat.mod_upper_bound r s n) as U. clearbody r.
    generalize dependent (r / s). generalize dependent (r mod s). intros rm U q Q. split; intros H1.
    + assert (i * s <= q * s) by (apply Nat.mul_le_mono_r; lia). lia.
    + destruct (Nat.lt_ge_cases i (q + 1)); [assumption|]. assert ((q + 1) * s <= i * s) by (apply Nat.mul_le_mono_r; assumption). lia.
  - intros (Hs & Hk & Hy & P). destruct (Nat.leb_spec 1 k); [|lia].
    assert (P0 : 0 * s + d * (k - 1) < x + 2 * p) by (apply P; exact Hy).
    destruct (Nat.leb_spec (d * (k - 1) + 1) (x + 2 * p)); [|lia]. destruct (Nat.eqb_spec s 0); [lia|]. f_equal.
    set (r := x + 2 * p - (d * (k - 1) + 1)) in *.
    assert (U : y - 1 < y) by lia. apply P in U. assert (V : ~ y < y) by lia. rewrite P in V.
    assert (E : y - 1 = r / s); [|lia]. apply Nat.div_unique with (r := r - (y - 1) * s); [|lia].
    assert (y * s = (y - 1) * s + s) by (destruct y; [lia|]; simpl; rewrite Nat.sub_0_r; lia). lia.
Qed.
Lemma out_size_z x p s d k y : u_out_size x p s d k = KOk y -> out_size (z x) (z p) (z s) (z d) (z k) = z y.
Proof.
  unfold u_out_size, usub, udiv, kbind. destruct (Nat.leb_spec 1 k); [|discriminate].
  destruct (Nat.leb_spec (d * (k - 1) + 1) (x + 2 * p)); [|discriminate]. destruct (Nat.eqb_spec s 0); [discriminate|]. intros E. injection E as E.
  unfold out_size. replace (z x + 2 * z p - (z d * (z k - 1) + 1))%Z with (z (x + 2 * p - (d * (k - 1) + 1))).
  2: { rewrite Nat2Z.inj_sub by lia. rewrite !Nat2Z.inj_add, !Nat2Z.inj_mul, Nat2Z.inj_sub by lia. reflexivity. }
  rewrite <- E.
  rewrite Z.quot_div_nonneg by lia. rewrite <- Nat2Z.inj_div, Nat2Z.inj_add. reflexivity.
Qed.
Lemma tap_bound x p s d k y : placements x p s d k y -> (z (x + 2 * p + s) < 2 ^ 31)%Z -> forall i t, i < y -> t < k -> (tap p s d i t < 2 ^ 31)%Z.
Proof.
  intros P F i t Hi Ht. apply P in Hi. unfold tap. assert (t * d <= d * (k - 1)) by (rewrite (Nat.mul_comm d); apply Nat.mul_le_mono_r; lia). lia.
Qed.

(** ** What batch item [b] of a parallel loop touches *)
(** Its own region of the columns and of the result, and read-only the inputs. *)
Definition own (cs os b : nat) (a : addr) : Prop :=
  (fst a = COLS /\ (z (b * cs) <= snd a < z (b * cs + cs))%Z) \/ (fst a = OUT /\ (z (b * os) <= snd a < z (b * os + os))%Z).
Definition shared (a : addr) : Prop := fst a = IN \/ fst a = FILTER.
Definition stays_in (cs os b : nat) (i : instr) : Prop :=
  own cs os b (dest i) /\ forall a, In a (reads i) -> shared a \/ own cs os b a.
Lemma own_disjoint cs os b b' a : own cs os b a -> own cs os b' a -> b = b'.
Proof.
  assert (X : forall n c k k', (z (k * n) <= c < z (k * n + n))%Z -> (z (k' * n) <= c < z (k' * n + n))%Z -> k <= k').
  { intros n c k k' H1 H2. destruct (Nat.le_gt_cases k k') as [|G]; [assumption|]. exfalso.
    assert (k' * n + n <= k * n) by (replace (k' * n + n) with (S k' * n) by lia; apply Nat.mul_le_mono_r; lia). lia. }
  intros [[F H]|[F H]] [[F' H']|[F' H']]; try (rewrite F in F'; discriminate); apply Nat.le_antisymm; eapply X; eassumption.
Qed.
Lemma shared_not_own cs os b a : shared a -> own cs os b a -> False.
Proof. intros [F|F] [[F' _]|[F' _]]; rewrite F in F'; discriminate. Qed.
Lemma stays_independent cs os b b' i j : b <> b' -> stays_in cs os b i -> stays_in cs os b' j -> independent i j.
Proof.
  intros N [Di Ri] [Dj Rj]. split; [|split].
  - intros Q. rewrite Q in Di. apply N. apply (own_disjoint cs os b b' (dest j)); assumption.
  - intros Q. destruct (Rj _ Q) as [S|O]; [apply (shared_not_own cs os b (dest i)); assumption|]. apply N. apply (own_disjoint cs os b b' (dest i)); assumption.
  - intros Q. destruct (Ri _ Q) as [S|O]; [apply (shared_not_own cs os b' (dest j)); assumption|]. apply N. apply (own_disjoint cs os b b' (dest j)); assumption.
Qed.
Lemma items_stay_independent cs os (item : nat -> list instr) n : (forall b i, In i (item b) -> stays_in cs os b i) ->
  items_independent (map item (seq 0 n)).
Proof.
  intros H p q l l' i j N Hp Hq Hi Hj.
  assert (X : forall p l, nth_error (map item (seq 0 n)) p = Some l -> l = item p).
  { clear. intros p l E. assert (L : p < length (map item (seq 0 n))) by (apply nth_error_Some; congruence). rewrite map_length, seq_length in L.
    rewrite nth_error_map in E. rewrite (nth_error_nth' _ 0) in E by (rewrite seq_length; exact L). rewrite seq_nth in E by exact L. simpl in E. inv E. reflexivity. }
  apply X in Hp. apply X in Hq. subst. apply (stays_independent cs os p q); auto.
Qed.

Lemma source_bounds xh xw p s d idx xch kh kw yh yw o : in_bounds [xch; kh; kw; yh; yw] idx -> source xh xw p s d idx = Some o ->
  (0 <= o < z (xch * (xh * xw)))%Z /\
  exists c ki kj i j, idx = [c; ki; kj; i; j] /\ (0 <= tap p s d i ki < z xh)%Z /\ (0 <= tap p s d j kj < z xw)%Z /\
    o = z (ravel [xch; xh; xw] [c; Z.to_nat (tap p s d i ki); Z.to_nat (tap p s d j kj)]).
Proof.
  intros B. assert (L : length idx = 5) by (rewrite (in_bounds_length _ _ B); reflexivity).
  destruct idx as [|c [|ki [|kj [|i [|j [|? ?]]]]]]; try discriminate L. simpl source.
  destruct (inb (tap p s d i ki) (z xh)) eqn:E1; [|discriminate]. destruct (inb (tap p s d j kj) (z xw)) eqn:E2; [|discriminate].
  apply inb_ok in E1. apply inb_ok in E2. simpl andb. cbv iota. intros Q. injection Q as Q.
  assert (Hc : c < xch) by (inversion B; assumption).
  assert (Eo : o = z (ravel [xch; xh; xw] [c; Z.to_nat (tap p s d i ki); Z.to_nat (tap p s d j kj)])).
  { rewrite <- Q. simpl ravel. rewrite !Nat.mul_1_r, !Nat.add_0_r, !Nat2Z.inj_add, !Nat2Z.inj_mul, !Z2Nat.id by lia. reflexivity. }
  split.
  - rewrite Eo. split; [lia|]. apply Nat2Z.inj_lt. pose proof (ravel_lt [xch; xh; xw] [c; Z.to_nat (tap p s d i ki); Z.to_nat (tap p s d j kj)]) as R.
    simpl prod in R. rewrite Nat.mul_1_r in R. apply R. repeat constructor; lia.
  - exists c, ki, kj, i, j. auto.
Qed.
