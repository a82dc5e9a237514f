From Coq Require Import List Arith ZArith Bool Lia Reals Lra RealField Permutation.
Import ListNotations.
From Verif Require Import Eval_Proofs Array_Model Array_Proofs Array_Sum Arith_Model Arith_Proofs Vjp_Spec Vjp_Proofs Arith_Final Reduce_Model Reduce_Proofs Shape_Model Shape_Spec Shape_Proofs Shape_Proofs2 Shape_Proofs3 Dot_Model Dot_Spec Dot_Proofs Batch_Model.

(** ** Layout *)
Lemma row_major_ravel sh : forall i, stride_sum (row_major sh) i = ravel sh i.
Proof. induction sh as [|d sh IH]; intros [|x i]; simpl; auto. rewrite IH. lia. Qed.
Lemma row_major_app s t : row_major (s ++ t) = map (fun x => x * prod t) (row_major s) ++ row_major t.
Proof. induction s as [|d s IH]; simpl; [reflexivity|]. rewrite IH, prod_app. reflexivity. Qed.
Lemma row_major_length sh : length (row_major sh) = length sh.
Proof. induction sh; simpl; auto. Qed.
Lemma std_row_major sh : prod sh <> 0 -> std_strides sh = row_major sh.
Proof. intros H. unfold std_strides. destruct (Nat.eqb_spec (prod sh) 0); [contradiction|reflexivity]. Qed.
Lemma swap_last_app {X} (l : list X) a b : swap_last (l ++ [a; b]) = l ++ [b; a].
Proof.
  induction l as [|x l IH]; [reflexivity|]. simpl. rewrite IH. destruct l as [|y [|z l]]; reflexivity.
Qed.
Lemma row_major_pos sh : prod sh <> 0 -> Forall (fun x => 1 <= x) (row_major sh).
Proof.
  induction sh as [|d sh IH]; intros H; simpl; constructor.
  - change (prod (d :: sh)) with (d * prod sh) in H. destruct (prod sh); lia.
  - apply IH. change (prod (d :: sh)) with (d * prod sh) in H. lia.
Qed.
Lemma least_ge l c : l <> [] -> Forall (fun x => c <= x) l -> exists mn, least l = Some mn /\ c <= mn.
Proof.
  intros N F. destruct l as [|x l]; [contradiction|]. simpl. eexists. split; [reflexivity|]. inversion F as [|? ? Hx F']; subst. clear F N.
  revert x Hx. induction F' as [|y l Hy F IH]; intros x Hx; simpl; [exact Hx|]. apply IH. lia.
Qed.
Lemma firstn_here {X} (l m : list X) n : length l = n -> firstn n (l ++ m) = l.
Proof. intros <-. rewrite firstn_app, firstn_all, Nat.sub_diag. simpl. apply app_nil_r. Qed.
Lemma nth_pair {X} (l : list X) a b d : nth (length l + 2 - 2) (l ++ [a; b]) d = a /\ nth (length l + 2 - 1) (l ++ [a; b]) d = b.
Proof.
  split.
  - replace (length l + 2 - 2) with (length l + 0) by lia. rewrite app_nth2_plus. reflexivity.
  - replace (length l + 2 - 1) with (length l + 1) by lia. rewrite app_nth2_plus. reflexivity.
Qed.
(** A standard operand with matrices of [p] rows and [q] columns never needs a
    copy, swapped or not. *)
Lemma no_copy batch p q a b : batch <> [] -> prod batch <> 0 -> p <> 0 -> q <> 0 -> a <= p * q -> b <= p * q ->
  requires_copy (map (fun x => x * (p * q)) (row_major batch) ++ [a; b]) = Some false.
Proof.
  intros N Nb Np Nq Ha Hb. unfold requires_copy. rewrite app_length, map_length, row_major_length. change (length [a; b]) with 2.
  set (l := map _ _). assert (Ll : length l = length batch) by (unfold l; rewrite map_length; apply row_major_length).
  rewrite <- Ll. destruct (nth_pair l a b 0) as [-> ->].
  rewrite firstn_here by lia.
  destruct (least_ge l (p * q)) as (mn & E & G).
  - intros E. apply N. apply length_zero_iff_nil. rewrite <- Ll, E. reflexivity.
  - unfold l. apply Forall_map. eapply Forall_impl; [|apply row_major_pos; exact Nb]. intros x Hx. cbv beta in *. nia.
  - rewrite E. f_equal. apply orb_false_iff. rewrite !Nat.ltb_ge. lia.
Qed.

Section Kernel.
  Context {A : Type} (zero : A) (add mul : A -> A -> A).
  Notation gm := (gemm zero add mul).
  Definition vshape (t : bool) (batch : list nat) (p q : nat) : list nat := batch ++ (if t then [q; p] else [p; q]).
  (** Entry (p,q) of batch [b], transposed or not. *)
  Definition bget (t : bool) (v : view A) (b : list nat) (i l : nat) : A := vget zero v (b ++ (if t then [l; i] else [i; l])).

  Lemma standard_swapped t batch p q (v : view A) : prod batch <> 0 -> p <> 0 -> q <> 0 -> standard v -> v_shape v = vshape t batch p q ->
    let w := if t then vswap v else v in
    v_shape w = batch ++ [p; q] /\ v_mem w = v_mem v /\ v_off w = v_off v /\
    v_strides w = map (fun x => x * (p * q)) (row_major batch) ++ (if t then [1; p] else [q; 1]).
  Proof.
    intros Nb Np Nq St Sh. unfold standard in St. rewrite Sh in St.
    assert (E : v_strides v = map (fun x => x * (p * q)) (row_major batch) ++ (if t then [p; 1] else [q; 1])).
    { rewrite St, std_row_major.
      - unfold vshape. rewrite row_major_app. f_equal.
        + apply map_ext. intros x. destruct t; cbn [prod fold_right]; lia.
        + destruct t; simpl; f_equal; lia.
      - unfold vshape. rewrite prod_app. destruct t; cbn [prod fold_right]; nia. }
    destruct t; simpl; rewrite ?E, ?Sh; unfold vshape; rewrite ?swap_last_app; auto.
  Qed.
  Lemma entry t batch p q (v : view A) b i l : prod batch <> 0 -> p <> 0 -> q <> 0 -> standard v -> v_shape v = vshape t batch p q -> length b = length batch ->
    bget t v b i l = nth (v_off v + ravel batch b * (p * q) + (if t then i * 1 + l * p else i * q + l * 1)) (v_mem v) zero.
  Proof.
    intros Nb Np Nq St Sh Lb. unfold bget, vget. unfold standard in St. rewrite St, Sh, std_row_major.
    - rewrite row_major_ravel. unfold vshape. rewrite ravel_app by exact Lb. f_equal. destruct t; cbn [ravel prod fold_right]; lia.
    - unfold vshape. rewrite prod_app. destruct t; cbn [prod fold_right]; nia.
  Qed.

  Theorem batch_ok ta tb batch m k k2 n (x0 x1 : view A) : batch <> [] -> prod batch <> 0 -> m <> 0 -> k <> 0 -> n <> 0 -> k2 <> 0 ->
    standard x0 -> standard x1 -> v_shape x0 = vshape ta batch m k -> v_shape x1 = vshape tb batch k2 n ->
    exists y, batch_matmul zero add mul ta tb x0 x1 = Ok y /\ a_shape y = batch ++ [m; n] /\ wf y /\
      (k <= k2 -> forall b i j, in_bounds batch b -> i < m -> j < n ->
        aget zero y (b ++ [i; j]) = gm k (bget ta x0 b) (bget tb x1 b) i j).
  Proof.
    intros Nbt Nb Nm Nk Nn Nk2 St0 St1 Sh0 Sh1.
    destruct (standard_swapped ta batch m k x0 Nb Nm Nk St0 Sh0) as (A1 & A2 & A3 & A4).
    destruct (standard_swapped tb batch k2 n x1 Nb Nk2 Nn St1 Sh1) as (B1 & B2 & B3 & B4).
    unfold batch_matmul. assert (L0 : length (v_shape x0) = length batch + 2) by (rewrite Sh0; unfold vshape; rewrite app_length; destruct ta; reflexivity).
    assert (L1 : length (v_shape x1) = length batch + 2) by (rewrite Sh1; unfold vshape; rewrite app_length; destruct tb; reflexivity).
    rewrite L0, L1. destruct (Nat.ltb_spec (length batch + 2) 2) as [|_]; [lia|]. simpl orb. cbv iota zeta.
    set (w0 := if ta then vswap x0 else x0) in *. set (w1 := if tb then vswap x1 else x1) in *.
    rewrite A1, B1, Nat.eqb_refl. rewrite !firstn_here by lia.
    replace (shape_eqb batch batch) with true by (symmetry; apply shape_eqb_ok; reflexivity). simpl andb. cbv iota.
    unfold batch_kernel. rewrite A4, B4.
    assert (C0 : requires_copy (map (fun x => x * (m * k)) (row_major batch) ++ (if ta then [1; m] else [k; 1])) = Some false) by (destruct ta; apply no_copy; auto; nia).
    assert (C1 : requires_copy (map (fun x => x * (k2 * n)) (row_major batch) ++ (if tb then [1; k2] else [n; 1])) = Some false) by (destruct tb; apply no_copy; auto; nia).
    rewrite C0, C1. cbv zeta iota. rewrite A1, B1, A2, A3, B2, B3.
    set (S0 := map (fun x => x * (m * k)) (row_major batch) ++ (if ta then [1; m] else [k; 1])).
    set (S1 := map (fun x => x * (k2 * n)) (row_major batch) ++ (if tb then [1; k2] else [n; 1])).
    assert (LS0 : length S0 = length batch + 2) by (unfold S0; rewrite app_length, map_length, row_major_length; destruct ta; reflexivity). rewrite LS0.
    destruct (nth_pair batch m k 0) as [-> ->]. destruct (nth_pair batch k2 n 0) as [_ ->].
    assert (P0 : nth (length batch + 2 - 2) S0 0 = (if ta then 1 else k) /\ nth (length batch + 2 - 1) S0 0 = (if ta then m else 1)).
    { unfold S0. assert (Ll : length (map (fun x => x * (m * k)) (row_major batch)) = length batch) by (rewrite map_length; apply row_major_length). rewrite <- Ll. destruct ta; apply nth_pair. }
    assert (P1 : nth (length batch + 2 - 2) S1 0 = (if tb then 1 else n) /\ nth (length batch + 2 - 1) S1 0 = (if tb then k2 else 1)).
    { unfold S1. assert (Ll : length (map (fun x => x * (k2 * n)) (row_major batch)) = length batch) by (rewrite map_length; apply row_major_length). rewrite <- Ll. destruct tb; apply nth_pair. }
    destruct P0 as [-> ->], P1 as [-> ->]. rewrite !firstn_here by lia. rewrite !prod_app.
    assert (Q : forall u v, prod batch * prod [u; v] / prod batch = u * v).
    { intros u v. rewrite Nat.mul_comm, Nat.div_mul by exact Nb. cbn [prod fold_right]. lia. }
    rewrite !Q.
    destruct (Nat.eqb_spec (prod batch) 0); [contradiction|]. destruct (Nat.eqb_spec (m * k) 0); [nia|]. destruct (Nat.eqb_spec (k2 * n) 0); [nia|]. destruct (Nat.eqb_spec (m * n) 0); [nia|].
    simpl orb. cbv iota. eexists. split; [reflexivity|]. split; [reflexivity|]. split; [apply tab_wf|].
    intros Hk b i j Hb Hi Hj. rewrite aget_tab.
    - assert (Lb : length b = length batch) by apply (in_bounds_length _ _ Hb).
      rewrite firstn_here by lia. rewrite <- Lb. destruct (nth_pair b i j 0) as [-> ->].
      unfold gemm. assert (G : forall l acc, (forall x, In x l -> x < k) ->
        fold_left (fun s l => add s (mul (nth (v_off x0 + ravel batch b * (m * k) + (i * (if ta then 1 else k) + l * (if ta then m else 1))) (v_mem x0) zero)
                                         (nth (v_off x1 + ravel batch b * (k2 * n) + (l * (if tb then 1 else n) + j * (if tb then k2 else 1))) (v_mem x1) zero))) l acc
        = fold_left (fun s l => add s (mul (bget ta x0 b i l) (bget tb x1 b l j))) l acc).
      { induction l as [|x l IH]; intros acc Hl; [reflexivity|]. cbn [fold_left]. rewrite IH by (intros; apply Hl; simpl; auto).
        rewrite (entry ta batch m k x0) by auto. rewrite (entry tb batch k2 n x1) by auto. destruct ta, tb; reflexivity. }
      apply G. intros x Hx. apply in_seq in Hx. lia.
    - apply Forall2_app; [exact Hb|]. constructor; [exact Hi|]. constructor; [exact Hj|constructor].
  Qed.
End Kernel.

(** ** Gradients *)
Local Open Scope R_scope.
Lemma indices_app s t : indices (s ++ t) = flat_map (fun b => map (app b) (indices t)) (indices s).
Proof.
  induction s as [|d s IH]; simpl; [rewrite app_nil_r; symmetry; apply map_id|].
  generalize (seq 0 d). induction l as [|x l IHl]; simpl; [reflexivity|]. rewrite flat_map_app, <- IHl. f_equal.
  rewrite IH. clear. induction (indices s) as [|b l IH]; simpl; [reflexivity|]. rewrite map_app, IH, map_map. reflexivity.
Qed.
Lemma sum_batches batch sh f : rsum (indices (batch ++ sh)) f = rsum (indices batch) (fun b => rsum (indices sh) (fun i => f (b ++ i))).
Proof.
  rewrite indices_app, (sum_flat_map 0 1 Rplus Rmult Rminus Ropp RT). apply sum_ext. intros b _. apply sum_map.
Qed.
(** An array as an operand: its elements in standard layout. *)
Definition of_arr (a : arr R) : view R := View (a_data a) 0 (a_shape a) (std_strides (a_shape a)).
Lemma of_arr_get a i : prod (a_shape a) <> 0%nat -> vget 0 (of_arr a) i = aget 0 a i.
Proof. intros N. unfold vget, of_arr, aget. simpl. rewrite std_row_major by exact N. rewrite row_major_ravel. reflexivity. Qed.

Definition bmat (ta tb : bool) (batch : list nat) (m k n : nat) (a b : arr R) : arr R :=
  tab (batch ++ [m; n]) (fun i => let c := firstn (length batch) i in
    sum_below k (fun l => aget 0 a (c ++ (if ta then [l; nth (length batch) i 0] else [nth (length batch) i 0; l])%nat) *
                          aget 0 b (c ++ (if tb then [nth (length batch + 1) i 0; l] else [l; nth (length batch + 1) i 0])%nat))).
Definition slab (t : bool) (a : arr R) (b : list nat) (i l : nat) : R := aget 0 a (b ++ (if t then [l; i] else [i; l])).
Lemma bmat_get ta tb batch m k n a b c i j : in_bounds batch c -> (i < m)%nat -> (j < n)%nat ->
  aget 0 (bmat ta tb batch m k n a b) (c ++ [i; j]) = sum_below k (fun l => slab ta a c i l * slab tb b c l j).
Proof.
  intros Hc Hi Hj. assert (L := in_bounds_length _ _ Hc). unfold bmat. rewrite aget_tab.
  - cbv zeta. rewrite firstn_here by exact L. rewrite <- L. destruct (nth_pair c i j 0%nat) as [E1 E2].
    replace (length c + 2 - 2)%nat with (length c) in E1 by lia. replace (length c + 2 - 1)%nat with (length c + 1)%nat in E2 by lia. rewrite E1, E2. reflexivity.
  - apply Forall2_app; [exact Hc|]. constructor; [exact Hi|]. constructor; [exact Hj|constructor].
Qed.
Lemma batch_bmat ta tb batch m k n a b : batch <> [] -> prod batch <> 0%nat -> m <> 0%nat -> k <> 0%nat -> n <> 0%nat ->
  a_shape a = vshape ta batch m k -> a_shape b = vshape tb batch k n ->
  batch_matmul 0 Rplus Rmult ta tb (of_arr a) (of_arr b) = Ok (bmat ta tb batch m k n a b).
Proof.
  intros N Nb Nm Nk Nn Sa Sb.
  destruct (batch_ok 0 Rplus Rmult ta tb batch m k k n (of_arr a) (of_arr b) N Nb Nm Nk Nn Nk eq_refl eq_refl Sa Sb) as (y & E & Sy & W & G).
  rewrite E. f_equal. apply (arr_ext 0); auto; [apply tab_wf|]. rewrite Sy. intros idx Hi.
  assert (exists c i j, idx = c ++ [i; j] /\ in_bounds batch c /\ (i < m)%nat /\ (j < n)%nat) as (c & i & j & -> & Hc & Hii & Hj).
  { unfold in_bounds in Hi. apply Forall2_app_inv_r in Hi. destruct Hi as (c & r & Hc & Hr & ->). apply pair_bounds in Hr. destruct Hr as (i & j & -> & H1 & H2). exists c, i, j. auto. }
  rewrite G by auto. rewrite bmat_get by auto. rewrite gemm_sum. apply sum_below_ext. intros l _. unfold bget, slab.
  rewrite !of_arr_get; [reflexivity| |]; rewrite ?Sa, ?Sb; unfold vshape; rewrite prod_app; destruct ta, tb; cbn [prod fold_right]; nia.
Qed.
Lemma bmat_shape ta tb batch m k n a b : has_shape (batch ++ [m; n]) (bmat ta tb batch m k n a b).
Proof. apply tab_has_shape. Qed.
Definition btri (batch : list nat) (m k n : nat) (a b g : list nat -> nat -> nat -> R) : R :=
  rsum (indices batch) (fun c => tri m k n (a c) (b c) (g c)).
Lemma dot_slabs batch m n (x y : arr R) : has_shape (batch ++ [m; n]) x -> has_shape (batch ++ [m; n]) y ->
  dot x y = rsum (indices batch) (fun c => rsum (seq 0 m) (fun i => rsum (seq 0 n) (fun j => slab false x c i j * slab false y c i j))).
Proof.
  intros Hx Hy. rewrite (dot_sum (batch ++ [m; n])) by auto. rewrite sum_batches. apply sum_ext. intros c _. rewrite sum_matrix. reflexivity.
Qed.
Lemma slab_bmat ta tb batch m k n a b c i j : in_bounds batch c -> (i < m)%nat -> (j < n)%nat ->
  slab false (bmat ta tb batch m k n a b) c i j = rsum (seq 0 k) (fun l => slab ta a c i l * slab tb b c l j).
Proof. intros. unfold slab at 1. rewrite bmat_get by auto. apply sum_below_rsum. Qed.
Ltac into c Hc i Hi j Hj := apply sum_ext; intros c Hc; apply indices_in in Hc.
Lemma dot_bmat batch m k n a b gy : has_shape (batch ++ [m; n]) gy ->
  dot gy (bmat false false batch m k n a b) = btri batch m k n (slab false a) (slab false b) (slab false gy).
Proof.
  intros Hg. rewrite (dot_slabs batch m n) by (auto; apply bmat_shape). apply sum_ext. intros c Hc. apply indices_in in Hc.
  apply sum_ext. intros i Hi. apply in_seq in Hi. apply sum_ext. intros j Hj. apply in_seq in Hj.
  rewrite slab_bmat by (auto; lia). rs. apply sum_ext. intros l _. ring.
Qed.
Lemma batch_vjp_a batch m k n a b gy : batch <> [] -> prod batch <> 0%nat -> m <> 0%nat -> k <> 0%nat -> n <> 0%nat ->
  has_shape (batch ++ [m; k]) a -> has_shape (batch ++ [k; n]) b -> has_shape (batch ++ [m; n]) gy ->
  exists gx, batch_grad_a 0 Rplus Rmult false false (of_arr a) (of_arr b) (of_arr gy) = Ok gx /\
    vjp (fun a => ok (batch_matmul 0 Rplus Rmult false false (of_arr a) (of_arr b))) a gy gx.
Proof.
  intros N Nb Nm Nk Nn Ha Hb Hg. pose proof Ha as [Sa La]. pose proof Hb as [Sb Lb]. pose proof Hg as [Sg Lg].
  exists (bmat false true batch m n k gy b). split; [apply batch_bmat; auto|].
  pose proof (bmat_shape false true batch m n k gy b) as G.
  apply (vjp_adjoint _ _ _ _ (fun a => bmat false false batch m k n a b)).
  - unfold wf. congruence.
  - apply has_shape_wf in G. apply G.
  - destruct G. congruence.
  - intros x' [Sx' _]. rewrite (batch_bmat false false batch m k n) by (unfold vshape; auto; congruence). split; [reflexivity|]. rewrite Sg. apply bmat_shape.
  - intros x' Hx'. rewrite Sa in Hx'. rewrite dot_bmat by auto. rewrite (dot_slabs batch m k) by auto. unfold btri, tri.
    apply sum_ext. intros c Hc. apply indices_in in Hc. apply sum_ext. intros i Hi. apply in_seq in Hi.
    rewrite (sum_swap 0 1 Rplus Rmult Rminus Ropp RT (seq 0 n)). apply sum_ext. intros l Hl. apply in_seq in Hl.
    rewrite slab_bmat by (auto; lia). rs. apply sum_ext. intros j _. unfold slab. ring.
Qed.
Lemma batch_vjp_b batch m k n a b gy : batch <> [] -> prod batch <> 0%nat -> m <> 0%nat -> k <> 0%nat -> n <> 0%nat ->
  has_shape (batch ++ [m; k]) a -> has_shape (batch ++ [k; n]) b -> has_shape (batch ++ [m; n]) gy ->
  exists gx, batch_grad_b 0 Rplus Rmult false false (of_arr a) (of_arr b) (of_arr gy) = Ok gx /\
    vjp (fun b => ok (batch_matmul 0 Rplus Rmult false false (of_arr a) (of_arr b))) b gy gx.
Proof.
  intros N Nb Nm Nk Nn Ha Hb Hg. pose proof Ha as [Sa La]. pose proof Hb as [Sb Lb]. pose proof Hg as [Sg Lg].
  exists (bmat true false batch k m n a gy). split; [apply batch_bmat; auto|].
  pose proof (bmat_shape true false batch k m n a gy) as G.
  apply (vjp_adjoint _ _ _ _ (fun b => bmat false false batch m k n a b)).
  - unfold wf. congruence.
  - apply has_shape_wf in G. apply G.
  - destruct G. congruence.
  - intros x' [Sx' _]. rewrite (batch_bmat false false batch m k n) by (unfold vshape; auto; congruence). split; [reflexivity|]. rewrite Sg. apply bmat_shape.
  - intros x' Hx'. rewrite Sb in Hx'. rewrite dot_bmat by auto. rewrite (dot_slabs batch k n) by auto. unfold btri, tri.
    apply sum_ext. intros c Hc. apply indices_in in Hc.
    transitivity (rsum (seq 0 k) (fun l => rsum (seq 0 n) (fun j => rsum (seq 0 m) (fun i => slab false gy c i j * slab false a c i l * slab false x' c l j)))).
    + rewrite (sum_swap 0 1 Rplus Rmult Rminus Ropp RT (seq 0 m)). rewrite (sum_swap 0 1 Rplus Rmult Rminus Ropp RT (seq 0 k)). apply sum_ext. intros j _.
      apply (sum_swap 0 1 Rplus Rmult Rminus Ropp RT).
    + apply sum_ext. intros l Hl. apply in_seq in Hl. apply sum_ext. intros j Hj. apply in_seq in Hj.
      rewrite slab_bmat by (auto; lia). rs. apply sum_ext. intros i _. unfold slab. ring.
Qed.
