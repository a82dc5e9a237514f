From Coq Require Import List Arith ZArith Bool Lia Reals Lra RealField Permutation.
Import ListNotations.
From Verif Require Import Eval_Proofs Array_Model Array_Proofs Array_Sum Arith_Model Arith_Proofs Vjp_Spec Vjp_Proofs Arith_Final Reduce_Model Reduce_Proofs Shape_Model Shape_Spec Shape_Proofs Shape_Proofs2 Shape_Proofs3 Dot_Model Dot_Spec.
Local Open Scope R_scope.

(** ** Sums *)
Lemma sum_below_ext n f g : (forall l, (l < n)%nat -> f l = g l) -> sum_below n f = sum_below n g.
Proof. induction n as [|n IH]; intros H; simpl; [reflexivity|]. rewrite IH, H; auto. Qed.
Lemma sum_below_rsum n f : sum_below n f = rsum (seq 0 n) f.
Proof.
  induction n as [|n IH]; [reflexivity|]. rewrite seq_S, (sum_app 0 1 Rplus Rmult Rminus Ropp RT). simpl. rewrite IH. ring.
Qed.
Lemma gemm_sum k a b i j : gemm 0 Rplus Rmult k a b i j = sum_below k (fun l => a i l * b l j).
Proof.
  rewrite sum_below_rsum. unfold gemm. rewrite (sum_fold_left 0 1 Rplus Rmult Rminus Ropp RT). ring.
Qed.
(** A sum over the indices of a matrix. *)
Lemma sum_matrix m n (f : list nat -> R) : rsum (indices [m; n]) f = rsum (seq 0 m) (fun i => rsum (seq 0 n) (fun j => f [i; j])).
Proof.
  change (indices [m; n]) with (flat_map (fun i => map (cons i) (indices [n])) (seq 0 m)).
  rewrite (sum_flat_map 0 1 Rplus Rmult Rminus Ropp RT). apply sum_ext. intros i _. rewrite sum_map.
  change (indices [n]) with (flat_map (fun j => map (cons j) [[]]) (seq 0 n)). rewrite (sum_flat_map 0 1 Rplus Rmult Rminus Ropp RT).
  apply sum_ext. intros j _. simpl. ring.
Qed.
Lemma in_bounds_pair m n i j : in_bounds [m; n] [i; j] <-> (i < m)%nat /\ (j < n)%nat.
Proof.
  unfold in_bounds. split.
  - intros H. inversion H; subst. inversion H5; subst. auto.
  - intros [H1 H2]. constructor; [exact H1|]. constructor; [exact H2|constructor].
Qed.
Lemma pair_bounds m n i : in_bounds [m; n] i -> exists r c, i = [r; c] /\ (r < m)%nat /\ (c < n)%nat.
Proof.
  intros H. unfold in_bounds in H. inversion H as [|r a l l' H1 H2]; subst. inversion H2 as [|c b l0 l0' H3 H4]; subst. inversion H4; subst. eauto.
Qed.

(** ** vjp of linear maps *)
Lemma vjp_adjoint F x gy gx (L : arr R -> arr R) :
  wf x -> wf gx -> a_shape gx = a_shape x ->
  (forall x', has_shape (a_shape x) x' -> F x' = Some (L x') /\ has_shape (a_shape gy) (L x')) ->
  (forall x', has_shape (a_shape x) x' -> dot gy (L x') = dot gx x') -> vjp F x gy gx.
Proof.
  intros Wx Wgx Sgx HF D.
  assert (Hx : has_shape (a_shape x) x) by (apply has_shape_wf; auto).
  assert (Hgx : has_shape (a_shape x) gx) by (apply has_shape_wf; auto).
  apply (vjp_affine F x gy gx L); auto. intros v t Hv. rewrite !D by (try apply (step_has_shape (a_shape x)); auto).
  rewrite !(dot_sum (a_shape x)) by (auto; apply (step_has_shape (a_shape x)); auto).
  rewrite <- (sum_scale 0 1 Rplus Rmult Rminus Ropp RT), <- (sum_add 0 1 Rplus Rmult Rminus Ropp RT).
  apply sum_ext. intros i Hi. apply indices_in in Hi. rewrite (step_get (a_shape x)) by auto. ring.
Qed.

(** ** matmul *)
Definition rows (t : bool) (a : arr R) : nat := nth (if t then 1 else 0) (a_shape a) 0%nat.
Definition cols (t : bool) (a : arr R) : nat := nth (if t then 0 else 1) (a_shape a) 0%nat.
Definition mshape (t : bool) (m k : nat) : list nat := if t then [k; m] else [m; k].
Definition mat (ta tb : bool) (m k n : nat) (a b : arr R) : arr R :=
  tab [m; n] (fun i => sum_below k (fun l => mget 0 ta a (nth 0 i 0%nat) l * mget 0 tb b l (nth 1 i 0%nat))).

Lemma matmul_mat ta tb m k n a b : a_shape a = mshape ta m k -> a_shape b = mshape tb k n ->
  matmul 0 Rplus Rmult ta tb a b = Ok (mat ta tb m k n a b).
Proof.
  intros Sa Sb. unfold matmul. rewrite Sa, Sb. unfold mshape. destruct ta, tb; simpl; rewrite Nat.eqb_refl; f_equal; apply tab_ext; intros i Hi; apply gemm_sum.
Qed.
Lemma mat_shape ta tb m k n a b : has_shape [m; n] (mat ta tb m k n a b).
Proof. apply tab_has_shape. Qed.
Lemma mat_get ta tb m k n a b i j : (i < m)%nat -> (j < n)%nat ->
  rget (mat ta tb m k n a b) [i; j] = sum_below k (fun l => mget 0 ta a i l * mget 0 tb b l j).
Proof. intros Hi Hj. unfold mat. rewrite aget_tab by (apply in_bounds_pair; auto). reflexivity. Qed.
Lemma mat_product ta tb m k n a b : product_of m k n (mget 0 ta a) (mget 0 tb b) (mat ta tb m k n a b).
Proof.
  split; [reflexivity|]. split; [rewrite (proj2 (mat_shape ta tb m k n a b)); simpl; lia|]. apply mat_get.
Qed.
Lemma swap_mget t (a : arr R) i l : mget 0 (negb t) a i l = mget 0 t a l i.
Proof. destruct t; reflexivity. Qed.

(** The trilinear form behind both gradients. *)
Definition tri (m k n : nat) (a b g : nat -> nat -> R) : R :=
  rsum (seq 0 m) (fun i => rsum (seq 0 n) (fun j => rsum (seq 0 k) (fun l => g i j * a i l * b l j))).
Ltac rs := first [rewrite <- (sum_scale 0 1 Rplus Rmult Rminus Ropp RT) | rewrite <- (sum_scale_r 0 1 Rplus Rmult Rminus Ropp RT)].
Lemma dot_mat ta tb m k n a b gy : has_shape [m; n] gy -> dot gy (mat ta tb m k n a b) = tri m k n (mget 0 ta a) (mget 0 tb b) (mget 0 false gy).
Proof.
  intros Hg. rewrite (dot_sum [m; n]) by (auto; apply mat_shape). rewrite sum_matrix. unfold tri.
  apply sum_ext. intros i Hi. apply in_seq in Hi. apply sum_ext. intros j Hj. apply in_seq in Hj.
  rewrite mat_get by lia. rewrite sum_below_rsum. rs. apply sum_ext. intros l _. unfold mget. ring.
Qed.
Lemma dot_a ta tb m k n a b gy : has_shape (mshape ta m k) a -> 
  dot (if ta then mat tb true k n m b gy else mat false (negb tb) m n k gy b) a = tri m k n (mget 0 ta a) (mget 0 tb b) (mget 0 false gy).
Proof.
  intros Ha. unfold tri. destruct ta; simpl in Ha.
  - rewrite (dot_sum [k; m]) by (auto; apply mat_shape). rewrite sum_matrix.
    rewrite (sum_swap 0 1 Rplus Rmult Rminus Ropp RT). apply sum_ext. intros i Hi. apply in_seq in Hi.
    rewrite (sum_swap 0 1 Rplus Rmult Rminus Ropp RT (seq 0 n)). apply sum_ext. intros l Hl. apply in_seq in Hl.
    rewrite mat_get by lia. rewrite sum_below_rsum. rs. apply sum_ext. intros j _. unfold mget. ring.
  - rewrite (dot_sum [m; k]) by (auto; apply mat_shape). rewrite sum_matrix. apply sum_ext. intros i Hi. apply in_seq in Hi.
    rewrite (sum_swap 0 1 Rplus Rmult Rminus Ropp RT (seq 0 n)). apply sum_ext. intros l Hl. apply in_seq in Hl.
    rewrite mat_get by lia. rewrite sum_below_rsum. rs. apply sum_ext. intros j _. rewrite swap_mget. unfold mget. ring.
Qed.
Lemma dot_b ta tb m k n a b gy : has_shape (mshape tb k n) b ->
  dot (if tb then mat true ta n m k gy a else mat (negb ta) false k m n a gy) b = tri m k n (mget 0 ta a) (mget 0 tb b) (mget 0 false gy).
Proof.
  intros Hb. unfold tri. 
  transitivity (rsum (seq 0 k) (fun l => rsum (seq 0 n) (fun j => rsum (seq 0 m) (fun i => mget 0 false gy i j * mget 0 ta a i l * mget 0 tb b l j)))).
  - destruct tb; simpl in Hb.
    + rewrite (dot_sum [n; k]) by (auto; apply mat_shape). rewrite sum_matrix. rewrite (sum_swap 0 1 Rplus Rmult Rminus Ropp RT).
      apply sum_ext. intros l Hl. apply in_seq in Hl. apply sum_ext. intros j Hj. apply in_seq in Hj.
      rewrite mat_get by lia. rewrite sum_below_rsum. rs. apply sum_ext. intros i _. unfold mget. ring.
    + rewrite (dot_sum [k; n]) by (auto; apply mat_shape). rewrite sum_matrix.
      apply sum_ext. intros l Hl. apply in_seq in Hl. apply sum_ext. intros j Hj. apply in_seq in Hj.
      rewrite mat_get by lia. rewrite sum_below_rsum. rs. apply sum_ext. intros i _. rewrite swap_mget. unfold mget. ring.
  - rewrite (sum_swap 0 1 Rplus Rmult Rminus Ropp RT (seq 0 k)).
    rewrite (sum_swap 0 1 Rplus Rmult Rminus Ropp RT (seq 0 m)). apply sum_ext. intros j _.
    rewrite (sum_swap 0 1 Rplus Rmult Rminus Ropp RT (seq 0 k)). reflexivity.
Qed.
(** The right gradients for every combination of flags. *)
Lemma matmul_vjp_a ta tb m k n a b gy : has_shape (mshape ta m k) a -> has_shape (mshape tb k n) b -> has_shape [m; n] gy ->
  vjp (fun a => ok (matmul 0 Rplus Rmult ta tb a b)) a gy (if ta then mat tb true k n m b gy else mat false (negb tb) m n k gy b).
Proof.
  intros Ha Hb Hg. pose proof Ha as [Sa La].
  assert (G : has_shape (mshape ta m k) (if ta then mat tb true k n m b gy else mat false (negb tb) m n k gy b)) by (destruct ta; apply mat_shape).
  apply (vjp_adjoint _ _ _ _ (fun a => mat ta tb m k n a b)).
  - unfold wf. congruence.
  - apply has_shape_wf in G. tauto.
  - destruct G as [G _]. congruence.
  - intros x' [Sx' _]. destruct Hb as [Sb _]. rewrite (matmul_mat ta tb m k n) by congruence. split; [reflexivity|]. rewrite (proj1 Hg). apply mat_shape.
  - intros x' Hx'. rewrite Sa in Hx'. rewrite dot_mat, dot_a by auto. reflexivity.
Qed.
Lemma matmul_vjp_b ta tb m k n a b gy : has_shape (mshape ta m k) a -> has_shape (mshape tb k n) b -> has_shape [m; n] gy ->
  vjp (fun b => ok (matmul 0 Rplus Rmult ta tb a b)) b gy (if tb then mat true ta n m k gy a else mat (negb ta) false k m n a gy).
Proof.
  intros Ha Hb Hg. pose proof Hb as [Sb Lb].
  assert (G : has_shape (mshape tb k n) (if tb then mat true ta n m k gy a else mat (negb ta) false k m n a gy)) by (destruct tb; apply mat_shape).
  apply (vjp_adjoint _ _ _ _ (fun b => mat ta tb m k n a b)).
  - unfold wf. congruence.
  - apply has_shape_wf in G. tauto.
  - destruct G as [G _]. congruence.
  - intros x' [Sx' _]. destruct Ha as [Sa _]. rewrite (matmul_mat ta tb m k n) by congruence. split; [reflexivity|]. rewrite (proj1 Hg). apply mat_shape.
  - intros x' Hx'. rewrite Sb in Hx'. rewrite dot_mat, dot_b by auto. reflexivity.
Qed.

(** ** tensordot *)
Lemma others_free n axes : others n axes = free_axes n axes.
Proof.
  unfold others, free_axes. apply filter_ext. intros k. destruct (in_dec Nat.eq_dec k axes) as [H|H].
  - symmetry. apply negb_false_iff. apply existsb_exists. exists k. split; [exact H|apply Nat.eqb_refl].
  - symmetry. apply negb_true_iff. apply not_true_is_false. intros Q. apply existsb_exists in Q. destruct Q as (j & Hj & E). apply Nat.eqb_eq in E. subst j. contradiction.
Qed.
Lemma others_in n axes k : In k (others n axes) <-> (k < n)%nat /\ ~ In k axes.
Proof.
  unfold others. rewrite filter_In, in_seq. destruct (in_dec Nat.eq_dec k axes); split; intros [H1 H2]; split; auto; try lia; try discriminate; contradiction.
Qed.
Lemma nodup_append {X} (l k : list X) : NoDup l -> NoDup k -> (forall a, In a l -> ~ In a k) -> NoDup (l ++ k).
Proof.
  intros Hl Hk D. induction Hl as [|x l N Hl IH]; simpl; [exact Hk|]. constructor.
  - rewrite in_app_iff. intros [H|H]; [contradiction|]. apply (D x); simpl; auto.
  - apply IH. intros a Ha. apply D. simpl. auto.
Qed.
Lemma others_perm n axes : NoDup axes -> List.Forall (fun k => (k < n)%nat) axes -> Permutation (others n axes ++ axes) (seq 0 n).
Proof.
  intros ND F. rewrite Forall_forall in F. apply NoDup_Permutation.
  - apply nodup_append; auto; [apply NoDup_filter, seq_NoDup|]. intros k H. apply others_in in H. tauto.
  - apply seq_NoDup.
  - intros k. rewrite in_app_iff, others_in, in_seq. split; [intros [[H _]|H]; [lia|specialize (F k H); lia]|].
    intros H. destruct (in_dec Nat.eq_dec k axes); [auto|left; split; [lia|auto]].
Qed.

Lemma normalize_names n axes ks : Forall2 (names_axis n) axes ks -> normalize_axes n axes = Some ks.
Proof.
  induction 1 as [|z k axes ks [Hk Hz] F IH]; [reflexivity|]. simpl.
  assert (E : (if (z <? 0)%Z then (Z.of_nat n + z)%Z else z) = Z.of_nat k) by (destruct (Z.ltb_spec z 0); lia).
  rewrite E, IH. destruct (Z.ltb_spec (Z.of_nat k) 0); [lia|]. rewrite Nat2Z.id. reflexivity.
Qed.
Lemma prod_at p q sh : prod (at_axes (p ++ q) sh) = (prod (at_axes p sh) * prod (at_axes q sh))%nat.
Proof. unfold at_axes. rewrite map_app. apply prod_app. Qed.
(** transpose, then reshape to a matrix whose rows and columns stand for the
    axes [p] and [q]. *)
Lemma as_matrix (a : arr R) p q : wf a -> Permutation (p ++ q) (seq 0 (length (a_shape a))) ->
  exists t, transpose 0 false (map Z.of_nat (p ++ q)) a = Some t /\
    exists r, reshape (map Z.of_nat [prod (at_axes p (a_shape a)); prod (at_axes q (a_shape a))]) t = Some r /\
    a_shape r = [prod (at_axes p (a_shape a)); prod (at_axes q (a_shape a))] /\ wf r /\
    forall i, in_bounds (a_shape a) i ->
      aget 0 r [ravel (at_axes p (a_shape a)) (at_axes p i); ravel (at_axes q (a_shape a)) (at_axes q i)] = aget 0 a i.
Proof.
  intros W P. assert (L : length (a_shape a) = length (p ++ q)) by (rewrite (Permutation_length P), seq_length; reflexivity).
  rewrite L in P. destruct (transpose_ok 0 (p ++ q) a L P) as (rr & I & E & _). exists (permute 0 (p ++ q) a). split; [exact E|].
  pose proof (permuted_ok 0 _ _ _ a I L) as (S & Wt & G). set (t := permute 0 (p ++ q) a) in *.
  change (map (fun k => nth k (a_shape a) 0%nat) (p ++ q)) with (at_axes (p ++ q) (a_shape a)) in S.
  eexists. split.
  - apply (reshape_ok _ _ _ (plain_shape _)); [exact Wt|]. rewrite S, prod_at. simpl. lia.
  - split; [reflexivity|]. split.
    + unfold wf. cbn [a_data a_shape]. rewrite Wt, S, prod_at. cbn [prod fold_right]. lia.
    + intros i Hi. rewrite <- (G i Hi). unfold aget. cbn [a_data a_shape]. rewrite S. f_equal. cbn [ravel prod fold_right].
      assert (Q : map (fun k => nth k i 0%nat) (p ++ q) = at_axes p i ++ at_axes q i) by apply map_app. rewrite Q.
      replace (at_axes (p ++ q) (a_shape a)) with (at_axes p (a_shape a) ++ at_axes q (a_shape a)) by (symmetry; apply map_app).
      rewrite ravel_app.
      * lia.
      * unfold at_axes. rewrite !map_length. reflexivity.
Qed.
Lemma fold_rsum {I} (l : list I) f : fold_right Rplus 0 (map f l) = rsum l f.
Proof. induction l as [|x l IH]; simpl; [reflexivity|]. rewrite IH. reflexivity. Qed.
Theorem tensordot_ok a b za zb xa xb : wf a -> wf b ->
  Forall2 (names_axis (length (a_shape a))) za xa -> Forall2 (names_axis (length (a_shape b))) zb xb ->
  NoDup xa -> NoDup xb -> at_axes xa (a_shape a) = at_axes xb (a_shape b) ->
  exists y, tensordot 0 Rplus Rmult a b za zb = Some y /\ contraction a b xa xb y.
Proof.
  intros Wa Wb Fa Fb Na Nb K.
  assert (B : forall n z x, Forall2 (names_axis n) z x -> List.Forall (fun k => (k < n)%nat) x).
  { clear. intros n z x F. induction F as [|u k z x [H _] F IH]; constructor; auto. }
  pose proof (B _ _ _ Fa) as Ba. pose proof (B _ _ _ Fb) as Bb. clear B.
  assert (FB : forall n x, List.Forall (fun k => (k < n)%nat) x -> forallb (fun k => (k <? n)%nat) x = true).
  { intros n x F. apply forallb_forall. rewrite Forall_forall in F. intros k Hk. apply Nat.ltb_lt. auto. }
  set (fa := others (length (a_shape a)) xa). set (fb := others (length (a_shape b)) xb).
  destruct (as_matrix a fa xa Wa (others_perm _ _ Na Ba)) as (ta & Ta & ra & Ra & Sa & Wra & Ga).
  assert (Pb : Permutation (xb ++ fb) (seq 0 (length (a_shape b)))) by (etransitivity; [apply Permutation_app_comm|apply others_perm; auto]).
  destruct (as_matrix b xb fb Wb Pb) as (tb & Tb & rb & Rb & Sb & Wrb & Gb).
  set (m := prod (at_axes fa (a_shape a))) in *. set (k := prod (at_axes xa (a_shape a))) in *. set (n := prod (at_axes fb (a_shape b))) in *.
  rewrite <- K in Sb, Gb, Rb. fold k in Sb, Gb, Rb.
  pose proof (matmul_mat false false m k n ra rb Sa Sb) as M.
  set (y0 := mat false false m k n ra rb) in *.
  exists (Arr (at_axes fa (a_shape a) ++ at_axes fb (a_shape b)) (a_data y0)). split.
  - unfold tensordot. rewrite (normalize_names _ _ _ Fa), (normalize_names _ _ _ Fb). unfold bind, tensordot_pre.
    rewrite (FB _ _ Ba), (FB _ _ Bb). rewrite <- !others_free. fold fa. fold fb.
    change (dims_at (a_shape a) fa) with (at_axes fa (a_shape a)). change (dims_at (a_shape a) xa) with (at_axes xa (a_shape a)).
    change (dims_at (a_shape b) fb) with (at_axes fb (a_shape b)). change (dims_at (a_shape b) xb) with (at_axes xb (a_shape b)).
    rewrite <- K. fold m. fold k. fold n. rewrite Ta, Ra, Tb, Rb, M. simpl ok. cbv beta iota.
    apply (reshape_ok _ _ _ (plain_shape _)).
    + apply has_shape_wf with (sh := [m; n]). apply mat_shape.
    + rewrite prod_app. fold m. fold n. change (a_shape y0) with [m; n]. simpl. lia.
  - split; [reflexivity|]. split.
    + cbn [a_data a_shape]. rewrite prod_app. fold m. fold n. assert (H := proj2 (mat_shape false false m k n ra rb)). fold y0 in H. rewrite H. cbn [prod fold_right]. lia.
    + intros i j pa pb Hi Hj Ha Hb. fold fa in Ha, Hi. fold fb in Hb, Hj.
      assert (E : aget 0 (Arr (at_axes fa (a_shape a) ++ at_axes fb (a_shape b)) (a_data y0)) (i ++ j) = aget 0 y0 [ravel (at_axes fa (a_shape a)) i; ravel (at_axes fb (a_shape b)) j]).
      { unfold aget. cbn [a_shape a_data]. rewrite ravel_app by (rewrite (in_bounds_length _ _ Hi); reflexivity). fold n. change (a_shape y0) with [m; n]. f_equal. cbn [ravel prod fold_right]. lia. }
      rewrite E. unfold y0. rewrite mat_get by (apply ravel_lt; assumption). rewrite sum_below_rsum. unfold k. rewrite <- ravel_indices, sum_map.
      rewrite fold_rsum. apply sum_ext. intros l Hl. apply indices_in in Hl.
      destruct (Ha l Hl) as (Ia & Q1 & Q2). destruct (Hb l Hl) as (Ib & Q3 & Q4). unfold mget.
      rewrite <- (Ga _ Ia), <- (Gb _ Ib), Q1, Q2, Q3, Q4. rewrite K. reflexivity.
Qed.
