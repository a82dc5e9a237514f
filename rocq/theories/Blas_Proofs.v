From Coq Require Import List Arith ZArith Bool Lia Reals Lra.
Import ListNotations.
From Verif Require Import Eval_Proofs Array_Model Array_Proofs Arith_Proofs Reduce_Proofs Shape_Proofs Shape_Proofs2 Dot_Model Dot_Spec Dot_Proofs Batch_Model Batch_Proofs Blas_Model Blas_Spec.

Lemma wrap32_id z : (-2147483648 <= z <= 2147483647)%Z -> wrap32 z = z.
Proof. intros H. unfold wrap32. rewrite Z.mod_small by lia. lia. Qed.

Section Blas.
  Context {A : Type} (zero : A) (add mul : A -> A -> A).
  Notation gm := (gemm zero add mul).

  Lemma gemm_ext k a b a' b' i j : (forall l, l < k -> a i l = a' i l) -> (forall l, l < k -> b l j = b' l j) -> gm k a b i j = gm k a' b' i j.
  Proof.
    intros Ha Hb. unfold gemm. assert (G : forall l s, (forall x, In x l -> x < k) ->
      fold_left (fun s l => add s (mul (a i l) (b l j))) l s = fold_left (fun s l => add s (mul (a' i l) (b' l j))) l s).
    { induction l as [|x l IH]; intros s Hl; [reflexivity|]. cbn [fold_left]. rewrite Ha, Hb by (apply Hl; simpl; auto). apply IH. intros y Hy. apply Hl. simpl. auto. }
    apply G. intros x Hx. apply in_seq in Hx. lia.
  Qed.
  Lemma gemm_swap k a b i j : (forall x y, mul x y = mul y x) -> gm k (fun i l => b l i) (fun l j => a j l) j i = gm k a b i j.
  Proof.
    intros C. unfold gemm. assert (G : forall l s, fold_left (fun s l => add s (mul (b l j) (a i l))) l s = fold_left (fun s l => add s (mul (a i l) (b l j))) l s).
    { induction l as [|x l IH]; intros s; [reflexivity|]. cbn [fold_left]. rewrite (C (b x j)). apply IH. }
    apply G.
  Qed.

  (** ** Memory *)
  Definition addr (base rs cs : Z) (ij : nat * nat) : Z := (base + Z.of_nat (fst ij) * rs + Z.of_nat (snd ij) * cs)%Z.
  Definition put (acc : bool) (base rs cs : Z) (f : nat -> nat -> A) (mem : Z -> A) (ij : nat * nat) : Z -> A :=
    write mem (addr base rs cs ij) (if acc then add (mem (addr base rs cs ij)) (f (fst ij) (snd ij)) else f (fst ij) (snd ij)).
  Lemma put_other acc base rs cs f p : forall l mem, (forall ij, In ij l -> addr base rs cs ij <> p) -> fold_left (put acc base rs cs f) l mem p = mem p.
  Proof.
    induction l as [|ij l IH]; intros mem H; [reflexivity|]. cbn [fold_left]. rewrite IH by (intros; apply H; simpl; auto).
    unfold put, write. destruct (Z.eqb_spec p (addr base rs cs ij)) as [E|]; [|reflexivity]. exfalso. apply (H ij); simpl; auto.
  Qed.
  Lemma put_here acc base rs cs f ij : forall l mem, NoDup l -> (forall u v, In u l -> In v l -> addr base rs cs u = addr base rs cs v -> u = v) -> In ij l ->
    fold_left (put acc base rs cs f) l mem (addr base rs cs ij) = (if acc then add (mem (addr base rs cs ij)) (f (fst ij) (snd ij)) else f (fst ij) (snd ij)).
  Proof.
    induction l as [|x l IH]; intros mem N Inj H; [destruct H|]. inversion N as [|? ? Nx N']; subst. cbn [fold_left]. destruct H as [-> | H].
    - rewrite put_other.
      + unfold put, write. rewrite Z.eqb_refl. reflexivity.
      + intros u Hu E. apply Nx. rewrite <- (Inj u ij); simpl; auto.
    - rewrite IH; auto.
      + unfold put, write. destruct (Z.eqb_spec (addr base rs cs ij) (addr base rs cs x)) as [E|]; [|reflexivity].
        exfalso. apply Nx. rewrite <- (Inj ij x); simpl; auto.
      + intros u v Hu Hv. apply Inj; simpl; auto.
  Qed.
  Lemma NoDup_prod {X Y} (l : list X) (k : list Y) : NoDup l -> NoDup k -> NoDup (list_prod l k).
  Proof.
    intros Nl Nk. induction Nl as [|x l Hx Nl IH]; simpl; [constructor|]. apply nodup_append; auto.
    - apply FinFun.Injective_map_NoDup; [|exact Nk]. intros u v E. congruence.
    - intros [u v] H1 H2. apply in_map_iff in H1. destruct H1 as (w & E & _). injection E as <- <-. apply in_prod_iff in H2. tauto.
  Qed.
  Lemma in_grid m n i j : In (i, j) (list_prod (seq 0 m) (seq 0 n)) <-> i < m /\ j < n.
  Proof. rewrite in_prod_iff, !in_seq. lia. Qed.
  Lemma apart_swap rs cs m n : apart rs cs m n -> apart cs rs n m.
  Proof. intros H i j i' j' Hi Hj Hi' Hj' E. destruct (H j i j' i'); auto; lia. Qed.
  Lemma store_fold acc mem base rs cs m n f : store add acc mem base rs cs m n f = fold_left (put acc base rs cs f) (list_prod (seq 0 m) (seq 0 n)) mem.
  Proof. reflexivity. Qed.
  Lemma store_read acc mem base rs cs m n f i j : apart rs cs m n -> i < m -> j < n ->
    store add acc mem base rs cs m n f (base + Z.of_nat i * rs + Z.of_nat j * cs)%Z =
    (if acc then add (mem (base + Z.of_nat i * rs + Z.of_nat j * cs)%Z) (f i j) else f i j).
  Proof.
    intros S Hi Hj. rewrite store_fold. apply (put_here acc base rs cs f (i, j)).
    - apply NoDup_prod; apply seq_NoDup.
    - intros [u1 u2] [v1 v2] Hu Hv E. apply in_grid in Hu, Hv. unfold addr in E. simpl in E. destruct (S u1 u2 v1 v2); try tauto; [lia|congruence].
    - apply in_grid. auto.
  Qed.
  Lemma store_other acc mem base rs cs m n f p : (forall i j, i < m -> j < n -> (base + Z.of_nat i * rs + Z.of_nat j * cs)%Z <> p) ->
    store add acc mem base rs cs m n f p = mem p.
  Proof. intros H. rewrite store_fold. apply put_other. intros [i j] Hij. apply in_grid in Hij. apply H; tauto. Qed.
  Lemma store_ext acc base rs cs m n f g : (forall i j, i < m -> j < n -> f i j = g i j) -> forall mem,
    store add acc mem base rs cs m n f = store add acc mem base rs cs m n g.
  Proof.
    intros H mem. rewrite !store_fold. assert (G : forall l mem, (forall ij, In ij l -> fst ij < m /\ snd ij < n) -> fold_left (put acc base rs cs f) l mem = fold_left (put acc base rs cs g) l mem).
    { induction l as [|ij l IH]; intros mem' Hl; [reflexivity|]. cbn [fold_left].
      rewrite IH by (intros; apply Hl; simpl; auto). f_equal. unfold put. rewrite H by (apply Hl; simpl; auto). reflexivity. }
    apply G. intros [i j] Hij. apply in_grid in Hij. exact Hij.
  Qed.
  Lemma apart_rows ld m n : m <= 1 \/ (Z.of_nat n <= ld)%Z -> apart ld 1 m n.
  Proof.
    intros H i j i' j' Hi Hj Hi' Hj' E. destruct H as [H|H].
    - assert (i = 0 /\ i' = 0) by lia. lia.
    - assert (i = i') by (destruct (Nat.lt_trichotomy i i') as [|[|]]; nia). subst. split; [reflexivity|lia].
  Qed.

  (** A call of cblas is a call of matrixmultiply. *)
  Lemma cblas_mm (ta tb : bool) (m n k : nat) am ap lda bm bp ldb acc cm cp ldc :
    ((if ta then Z.of_nat m else Z.of_nat k) <= lda -> (if tb then Z.of_nat k else Z.of_nat n) <= ldb -> Z.of_nat n <= ldc -> 1 <= lda -> 1 <= ldb -> 1 <= ldc ->
    cblas_gemm zero add mul ta tb (Z.of_nat m) (Z.of_nat n) (Z.of_nat k) am ap lda bm bp ldb acc cm cp ldc =
    Some (mm_gemm zero add mul m k n am ap (if ta then 1 else lda) (if ta then lda else 1) bm bp (if tb then 1 else ldb) (if tb then ldb else 1) acc cm cp ldc 1))%Z.
  Proof.
    intros H1 H2 H3 L1 L2 L3. unfold cblas_gemm.
    match goal with |- (if ?c then _ else _) = _ => assert (E : c = true) end.
    { repeat (apply andb_true_intro; split); try (apply Z.leb_le; destruct ta, tb; lia). }
    rewrite E. rewrite !Nat2Z.id. unfold mm_gemm. f_equal. apply store_ext. intros i j Hi Hj. apply gemm_ext; intros l Hl; destruct ta, tb; f_equal; lia.
  Qed.

  (** ** Matrices *)
  (** What ndarray's views are like: entries at distinct addresses, or repeated along an axis. *)
  Definition layout (v : mview (A := A)) : Prop := usual_layout (m_rs v) (m_cs v) (m_rows v) (m_cols v).
  Lemma layout_rev (v : mview (A := A)) : layout v -> layout (mrev v).
  Proof. unfold layout, usual_layout, mrev. simpl. intros [H|[H|H]]; auto. right. right. apply apart_swap. exact H. Qed.
  Lemma melem_rev (v : mview (A := A)) i j : melem (mrev v) i j = melem v j i.
  Proof. unfold melem, mrev. simpl. f_equal. lia. Qed.
  Lemma blas_facts m n s0 s1 : is_blas_2d m n s0 s1 = true ->
    (s1 = 1%Z \/ n = 1) /\ (1 <= s0 <= 2147483647)%Z /\ (1 <= s1 <= 2147483647)%Z /\ (Z.of_nat m <= 2147483647)%Z /\ (Z.of_nat n <= 2147483647)%Z.
  Proof.
    unfold is_blas_2d. rewrite !andb_true_iff, !negb_true_iff, !orb_false_iff, orb_true_iff, !Z.ltb_ge, Z.eqb_eq, Nat.eqb_eq. intuition lia.
  Qed.
  Lemma row_stride (v : mview (A := A)) : is_blas_2d (m_rows v) (m_cols v) (m_rs v) (m_cs v) = true -> layout v ->
    m_rows v <= 1 \/ (Z.of_nat (m_cols v) <= m_rs v)%Z.
  Proof.
    intros B L. destruct (blas_facts _ _ _ _ B) as (H1 & H2 & H3 & H4 & H5). destruct L as [L|[L|L]]; [lia|lia|].
    destruct (le_lt_dec (m_rows v) 1) as [|R]; [auto|]. right. destruct H1 as [E|E]; [|rewrite E; lia]. rewrite E in L.
    destruct (Z_le_gt_dec (Z.of_nat (m_cols v)) (m_rs v)) as [|G]; [assumption|]. exfalso.
    destruct (L 1 0 0 (Z.to_nat (m_rs v))); lia.
  Qed.
  (** The leading dimension the code computes addresses the right entries. *)
  Lemma leading (v : mview (A := A)) : is_blas_2d (m_rows v) (m_cols v) (m_rs v) (m_cs v) = true -> layout v ->
    let ld := Z.max (wrap32 (m_rs v)) (wrap32 (Z.of_nat (m_cols v))) in
    (Z.of_nat (m_cols v) <= ld)%Z /\ (1 <= ld)%Z /\
    forall i j, i < m_rows v -> j < m_cols v -> (Z.of_nat i * m_rs v + Z.of_nat j * m_cs v = Z.of_nat i * ld + Z.of_nat j * 1)%Z.
  Proof.
    intros B L. pose proof (row_stride v B L) as R. destruct (blas_facts _ _ _ _ B) as (H1 & H2 & H3 & H4 & H5).
    rewrite !wrap32_id by lia. cbv zeta. split; [lia|]. split; [lia|]. intros i j Hi Hj.
    assert (E2 : (Z.of_nat j * m_cs v = Z.of_nat j * 1)%Z) by (destruct H1 as [E|E]; [rewrite E; reflexivity|assert (j = 0) by lia; subst; lia]).
    rewrite E2. destruct R as [R|R]; [assert (i = 0) by lia; subst; lia|]. rewrite Z.max_l by lia. reflexivity.
  Qed.

  (** The memory holds the product of [f] and [g]. *)
  Definition holds (mem : Z -> A) (c : mview (A := A)) (k : nat) (f g : nat -> nat -> A) : Prop :=
    forall i j, i < m_rows c -> j < m_cols c -> mem (m_ptr c + Z.of_nat i * m_rs c + Z.of_nat j * m_cs c)%Z = gm k f g i j.

  Lemma slow_ok lhs rhs c : m_rows c = m_rows lhs -> m_cols c = m_cols rhs -> apart (m_rs c) (m_cs c) (m_rows c) (m_cols c) ->
    holds (mat_mul_slow zero add mul lhs rhs c) c (m_cols lhs) (melem lhs) (melem rhs).
  Proof.
    intros E1 E2 S i j Hi Hj. unfold mat_mul_slow, mm_gemm. rewrite <- E1, <- E2. rewrite store_read by auto. apply gemm_ext; intros; reflexivity.
  Qed.

  Lemma call_ok lhs rhs c lt rt r : blas_call zero add mul lhs rhs c lt rt = Some r ->
    (lt = true -> m_rows lhs = m_cols lhs) -> (rt = true -> m_rows rhs = m_cols rhs) -> m_cols lhs = m_rows rhs ->
    m_rows c = m_rows lhs -> m_cols c = m_cols rhs ->
    layout lhs -> layout rhs -> apart (m_rs c) (m_cs c) (m_rows c) (m_cols c) ->
    exists mem, r = Some mem /\ holds mem c (m_cols lhs) (fun i l => if lt then melem lhs l i else melem lhs i l) (fun l j => if rt then melem rhs j l else melem rhs l j).
  Proof.
    intros E Sl Sr Ek Em En Ll Lr Lc. unfold blas_call in E.
    destruct (is_blas_2d (m_rows lhs) (m_cols lhs) (m_rs lhs) (m_cs lhs)) eqn:Bl; [|discriminate].
    destruct (is_blas_2d (m_rows rhs) (m_cols rhs) (m_rs rhs) (m_cs rhs)) eqn:Br; [|discriminate].
    destruct (is_blas_2d (m_rows c) (m_cols c) (m_rs c) (m_cs c)) eqn:Bc; [|discriminate].
    simpl andb in E. cbv iota in E. injection E as E.
    assert (D1 : (if lt then m_cols lhs else m_rows lhs) = m_rows lhs) by (destruct lt; [symmetry|]; auto).
    assert (D2 : (if lt then m_rows lhs else m_cols lhs) = m_cols lhs) by (destruct lt; auto).
    assert (D3 : (if rt then m_rows rhs else m_cols rhs) = m_cols rhs) by (destruct rt; auto).
    rewrite D1, D2, D3 in E.
    destruct (leading lhs Bl Ll) as (A1 & A2 & A3). destruct (leading rhs Br Lr) as (B1 & B2 & B3).
    destruct (leading c Bc (or_intror (or_intror Lc))) as (C1 & C2 & C3). rewrite En in C1, C2, C3.
    destruct (blas_facts _ _ _ _ Bl) as (_ & _ & _ & Nl1 & Nl2). destruct (blas_facts _ _ _ _ Br) as (_ & _ & _ & Nr1 & Nr2).
    cbv zeta in *.
    remember (Z.max (wrap32 (m_rs lhs)) (wrap32 (Z.of_nat (m_cols lhs)))) as lda.
    remember (Z.max (wrap32 (m_rs rhs)) (wrap32 (Z.of_nat (m_cols rhs)))) as ldb.
    remember (Z.max (wrap32 (m_rs c)) (wrap32 (Z.of_nat (m_cols rhs)))) as ldc.
    rewrite !wrap32_id in E by lia. rewrite cblas_mm in E; auto.
    - eexists. split; [symmetry; exact E|]. intros i j Hi Hj. unfold mm_gemm. rewrite Em in Hi. rewrite En in Hj.
      rewrite <- Z.add_assoc, C3 by (rewrite ?Em; auto). rewrite Z.add_assoc. rewrite store_read; auto.
      + apply gemm_ext; intros l Hl; destruct lt, rt; unfold melem; try specialize (Sl eq_refl); try specialize (Sr eq_refl);
          rewrite <- !Z.add_assoc; f_equal; f_equal; first [rewrite A3 by lia | rewrite B3 by lia]; lia.
      + apply apart_rows. lia.
    - destruct lt; [rewrite Sl by reflexivity|]; lia.
    - destruct rt; [specialize (Sr eq_refl)|]; lia.
  Qed.

  Hypothesis comm : forall x y, mul x y = mul y x.

  Lemma blas_ok lhs rhs c : m_cols lhs = m_rows rhs -> m_rows c = m_rows lhs -> m_cols c = m_cols rhs ->
    layout lhs -> layout rhs -> apart (m_rs c) (m_cs c) (m_rows c) (m_cols c) ->
    exists mem, mat_mul_blas zero add mul lhs rhs c = Some mem /\ holds mem c (m_cols lhs) (melem lhs) (melem rhs).
  Proof.
    intros Ek Em En Ll Lr Lc. unfold mat_mul_blas. pose proof (slow_ok lhs rhs c Em En Lc) as Slow.
    destruct (negb _); [eexists; split; [reflexivity|exact Slow]|].
    match goal with |- context [match ?x with Some r => r | None => _ end] => destruct x as [r|] eqn:E end; [|eexists; split; [reflexivity|exact Slow]].
    destruct ((m_rs lhs =? 1)%Z && (m_rs rhs =? 1)%Z).
    - apply call_ok in E; simpl; auto; try discriminate; try (apply layout_rev; assumption); try (apply apart_swap; assumption).
      destruct E as (mem & -> & H). exists mem. split; [reflexivity|]. intros i j Hi Hj. specialize (H j i). simpl in H.
      rewrite <- gemm_swap by exact comm. replace (m_cols lhs) with (m_rows rhs) by auto.
      transitivity (mem (m_ptr c + Z.of_nat j * m_cs c + Z.of_nat i * m_rs c)%Z); [f_equal; lia|]. rewrite H by auto.
      apply gemm_ext; intros l Hl; apply melem_rev.
    - destruct ((m_rs lhs =? 1)%Z && (m_rows lhs =? m_cols lhs)) eqn:B.
      + apply andb_true_iff in B. destruct B as [_ B]. apply Nat.eqb_eq in B.
        apply call_ok in E; simpl; auto; try discriminate; try (apply layout_rev; assumption); try congruence.
        destruct E as (mem & -> & H). exists mem. split; [reflexivity|]. intros i j Hi Hj. rewrite H by auto. simpl. rewrite B.
        apply gemm_ext; intros l Hl; [apply melem_rev|reflexivity].
      + destruct ((m_rs rhs =? 1)%Z && (m_cols lhs =? m_cols rhs)) eqn:B2.
        * apply andb_true_iff in B2. destruct B2 as [_ B2]. apply Nat.eqb_eq in B2.
          apply call_ok in E; simpl; auto; try discriminate; try (apply layout_rev; assumption); try congruence.
          destruct E as (mem & -> & H). exists mem. split; [reflexivity|]. intros i j Hi Hj. rewrite H by auto.
          apply gemm_ext; intros l Hl; [reflexivity|apply melem_rev].
        * apply call_ok in E; simpl; auto; try discriminate.
  Qed.

  Theorem matmul_views_ok blas (ta tb : bool) junk a b m k n :
    (if ta then m_cols a else m_rows a) = m -> (if ta then m_rows a else m_cols a) = k ->
    (if tb then m_cols b else m_rows b) = k -> (if tb then m_rows b else m_cols b) = n ->
    layout a -> layout b ->
    matmul_views zero add mul blas ta tb junk a b =
    Ok (tab [m; n] (fun i => gm k (fun i l => if ta then melem a l i else melem a i l) (fun l j => if tb then melem b j l else melem b l j) (nth 0 i 0) (nth 1 i 0))).
  Proof.
    intros Hm Hk Hk2 Hn La Lb. unfold matmul_views.
    set (a' := if ta then mrev a else a). set (b' := if tb then mrev b else b).
    assert (Ra : m_rows a' = m) by (unfold a'; destruct ta; auto). assert (Ca : m_cols a' = k) by (unfold a'; destruct ta; auto).
    assert (Rb : m_rows b' = k) by (unfold b'; destruct tb; auto). assert (Cb : m_cols b' = n) by (unfold b'; destruct tb; auto).
    assert (La' : layout a') by (unfold a'; destruct ta; [apply layout_rev|]; auto). assert (Lb' : layout b') by (unfold b'; destruct tb; [apply layout_rev|]; auto).
    assert (Ea : forall i l, melem a' i l = if ta then melem a l i else melem a i l) by (intros; unfold a'; destruct ta; [apply melem_rev|reflexivity]).
    assert (Eb : forall i l, melem b' i l = if tb then melem b l i else melem b i l) by (intros; unfold b'; destruct tb; [apply melem_rev|reflexivity]).
    rewrite Ra, Ca, Rb, Cb, Nat.eqb_refl. simpl negb. cbv iota zeta.
    destruct (if m * n =? 0 then (0, 0)%Z else if (m_rs a' =? 1)%Z && (m_rs b' =? 1)%Z then (1, Z.of_nat m)%Z else (Z.of_nat n, 1)%Z) as [rs cs] eqn:Es.
    set (c := MView junk 0%Z m n rs cs).
    assert (Sc : apart (m_rs c) (m_cs c) (m_rows c) (m_cols c)).
    { simpl. destruct (Nat.eqb_spec (m * n) 0) as [Z0|Z0].
      - intros i j i' j' Hi Hj. exfalso. destruct m, n; simpl in *; lia.
      - destruct ((m_rs a' =? 1)%Z && (m_rs b' =? 1)%Z); injection Es as <- <-; [apply apart_swap|]; apply apart_rows; lia. }
    assert (G : exists mem, (if blas then mat_mul_blas zero add mul a' b' c else Some (mat_mul_slow zero add mul a' b' c)) = Some mem /\ holds mem c (m_cols a') (melem a') (melem b')).
    { destruct blas.
      - apply blas_ok; simpl; auto; congruence.
      - eexists. split; [reflexivity|]. apply slow_ok; simpl; auto; congruence. }
    destruct G as (mem & -> & H). f_equal. apply tab_ext. intros i Hi. apply pair_bounds in Hi. destruct Hi as (r & q & -> & Hr & Hq).
    cbn [nth]. etransitivity; [exact (H r q Hr Hq)|]. rewrite Ca. apply gemm_ext; auto.
  Qed.

  (** ** Batches *)
  Lemma fold_batches (step : option (Z -> A) -> nat -> option (Z -> A)) (sz ld : Z) (m n : nat) (F : nat -> nat -> nat -> A) :
    (forall cm b, step (Some cm) b = Some (store add false cm (Z.of_nat b * sz)%Z ld 1 m n (F b))) ->
    (1 <= sz)%Z -> apart ld 1 m n -> (forall i j, i < m -> j < n -> (0 <= Z.of_nat i * ld + Z.of_nat j * 1 < sz)%Z) ->
    forall nb cm, exists mem, fold_left step (seq 0 nb) (Some cm) = Some mem /\
      forall b i j, b < nb -> i < m -> j < n -> mem (Z.of_nat b * sz + Z.of_nat i * ld + Z.of_nat j * 1)%Z = F b i j.
  Proof.
    intros St Hs Ap In0 nb cm. induction nb as [|nb (mem & E & H)].
    - exists cm. split; [reflexivity|]. intros b i j Hb. lia.
    - rewrite seq_S, fold_left_app, E. cbn [fold_left plus]. rewrite St. eexists. split; [reflexivity|]. intros b i j Hb Hi Hj.
      destruct (Nat.eq_dec b nb) as [->|Nb].
      + rewrite store_read by auto. reflexivity.
      + rewrite store_other; [apply H; auto; lia|]. intros i' j' Hi' Hj' Eq. pose proof (In0 i j Hi Hj). pose proof (In0 i' j' Hi' Hj'). nia.
  Qed.
  Lemma steps_exact nb s : s <> 0 -> steps (nb * s) s = nb.
  Proof. intros H. unfold steps. symmetry. apply (Nat.div_unique _ _ _ (s - 1)); lia. Qed.
  Lemma steps_le n s : s <> 0 -> steps n s <= n.
  Proof.
    intros H. unfold steps. destruct n as [|n]; [rewrite Nat.div_small by lia; lia|]. apply Nat.lt_succ_r. apply Nat.div_lt_upper_bound; nia.
  Qed.
  Lemma nth_last2 (L : list nat) n a b : length L = n -> nth (n + 2 - 2) (L ++ [a; b]) 0 = a /\ nth (n + 2 - 1) (L ++ [a; b]) 0 = b.
  Proof. intros <-. apply nth_pair. Qed.
  Lemma skipn_last2 (L : list nat) n a b : length L = n -> skipn (n + 2 - 2) (L ++ [a; b]) = [a; b].
  Proof. intros <-. replace (length L + 2 - 2) with (length L + 0) by lia. rewrite skipn_app, skipn_all2 by lia. replace (length L + 0 - length L) with 0 by lia. reflexivity. Qed.
  Lemma std_strides_last batch p q : prod batch <> 0 -> p <> 0 -> q <> 0 ->
    std_strides (batch ++ [p; q]) = map (fun x => x * (p * q)) (row_major batch) ++ [q; 1].
  Proof.
    intros Nb Np Nq. rewrite std_row_major by (rewrite prod_app; cbn [prod fold_right]; nia). rewrite row_major_app. f_equal.
    - apply map_ext. intros x. cbn [prod fold_right]. lia.
    - simpl. f_equal. lia.
  Qed.

  (** The operands are row-major in batches; in one matrix they may be swapped. *)
  Lemma nd_facts L S p q a b : length S = length L -> nd_ok (L ++ [p; q]) (S ++ [a; b]) = true ->
    (b = 1 \/ nth 1 (L ++ [p; q]) 0 = 1) /\ 1 <= a /\ small a /\ 1 <= b /\ small b.
  Proof.
    intros El H. unfold nd_ok in H. rewrite app_length in H. change (length [a; b]) with 2 in H. destruct (nth_last2 S (length S) a b eq_refl) as [E1 E2]. rewrite E1, E2 in H.
    apply blas_facts in H. unfold small. destruct H as (H1 & H2 & H3 & _). repeat split; lia.
  Qed.
  Lemma nd_pass L S p q a b : length S = length L -> b = 1 -> 1 <= a -> small a -> small (nth 0 (L ++ [p; q]) 0) -> small (nth 1 (L ++ [p; q]) 0) ->
    nd_ok (L ++ [p; q]) (S ++ [a; b]) = true.
  Proof.
    intros El -> Ha Sa S0 S1. unfold nd_ok. rewrite app_length. change (length [a; 1]) with 2. destruct (nth_last2 S (length S) a 1 eq_refl) as [E1 E2]. rewrite E1, E2.
    unfold is_blas_nd, is_blas_2d, small in *. rewrite !andb_true_iff, !negb_true_iff, !orb_false_iff, orb_true_iff, !Z.ltb_ge. rewrite Z.eqb_eq. lia.
  Qed.

  Section Fast.
    Variables (batch S0 S1 : list nat) (m k n : nat) (mem0 mem1 : list A) (off0 off1 : nat) (ta tb : bool) (junk : nat -> A).
    Hypothesis (Nbt : batch <> []) (Nb : prod batch <> 0) (Nm : m <> 0) (Nk : k <> 0) (Nn : n <> 0).
    Hypothesis (LS0 : length S0 = length batch) (LS1 : length S1 = length batch).
    Notation a0 := (if ta then 1 else k). Notation b0 := (if ta then m else 1).
    Notation a1 := (if tb then 1 else n). Notation b1 := (if tb then k else 1).
    Notation w0 := (View mem0 off0 (batch ++ [m; k]) (S0 ++ [a0; b0])).
    Notation w1 := (View mem1 off1 (batch ++ [k; n]) (S1 ++ [a1; b1])).
    Hypothesis (C0 : requires_copy (S0 ++ [a0; b0]) = Some false) (C1 : requires_copy (S1 ++ [a1; b1]) = Some false).

    Lemma fast_panics : n = 1 -> m <> 1 -> (ta = true \/ k = 1) -> small m -> small k -> Forall small batch ->
      batch_fast zero add mul junk w0 w1 = Panic.
    Proof.
      intros En Nm1 Hta Sm Sk Sb. destruct (nth_last2 S0 _ a0 b0 LS0) as [E0 _]. destruct (nth_last2 S1 _ a1 b1 LS1) as [E1 _]. clear Nn. subst n. unfold batch_fast. cbn [v_shape v_strides v_mem v_off]. rewrite C0, C1. cbv iota zeta.
      assert (Lr : forall x y, length (batch ++ [x; y]) = length batch + 2) by (intros; rewrite app_length; reflexivity). rewrite Lr.
      destruct (nth_last2 batch _ m k eq_refl) as [-> ->]. destruct (nth_last2 batch _ k 1 eq_refl) as [_ ->].
      cbn [v_shape v_strides v_mem v_off]. rewrite E0, E1.
      rewrite firstn_here by lia. rewrite !skipn_last2 by reflexivity.
      replace ((a0 =? 1) && ((if tb then 1 else 1) =? 1)) with true by (destruct ta, tb, Hta as [H|H]; try discriminate; subst; reflexivity).
      cbn [negb andb]. cbv iota. unfold vswap. cbn [v_shape v_strides v_mem v_off]. rewrite !swap_last_app.
      rewrite std_strides_last by lia. rewrite swap_last_app.
      assert (S1' : small 1) by (unfold small; lia).
      assert (Sm0 : forall p q, small (nth 0 (batch ++ [p; q]) 0)).
      { intros p q. destruct batch as [|d l]; [contradiction|]. simpl. inversion Sb; assumption. }
      assert (Sm1 : forall p q, small p -> small (nth 1 (batch ++ [p; q]) 0)).
      { intros p q Hp. destruct batch as [|d [|d' l]]; [contradiction|exact Hp|]. simpl. inversion Sb as [|? ? _ H]. inversion H; assumption. }
      rewrite !nd_pass; auto; try (rewrite map_length; apply row_major_length); try (destruct ta, tb, Hta; subst; auto; unfold small in *; lia).
      cbn [andb]. cbv iota. cbn [prod fold_right]. rewrite !Nat.mul_1_r.
      destruct (Nat.eqb_spec (m * k) 0); [nia|]. destruct (Nat.eqb_spec k 0); [nia|]. destruct (Nat.eqb_spec m 0); [nia|]. cbn [orb]. cbv iota.
      rewrite !prod_app. cbn [prod fold_right]. rewrite !Nat.mul_1_r, !Nat.mul_1_l.
      assert (Q1 : steps (prod batch * k) (m * k) < prod batch * m).
      { unfold steps. apply Nat.div_lt_upper_bound; [nia|]. assert (2 <= m) by lia. assert (1 <= prod batch) by lia. nia. }
      assert (Q2 : steps (prod batch * (k * m)) k = prod batch * m).
      { replace (prod batch * (k * m)) with (prod batch * m * k) by lia. apply steps_exact. exact Nk. }
      rewrite Q2. destruct (Nat.eqb_spec (steps (prod batch * k) (m * k)) (prod batch * m)); [lia|reflexivity].
    Qed.

    Hypothesis (Sm : small m) (Sk : small k) (Sn : small n).
    Hypothesis (Unit : length batch = 1 \/ nth 1 batch 0 <> 1).
    Lemma inner1 S p q a b : length S = length batch -> nd_ok (batch ++ [p; q]) (S ++ [a; b]) = true -> b = 1 \/ p = 1.
    Proof.
      intros LS H. destruct (nd_facts _ _ _ _ _ _ LS H) as ([Hb|Hb] & _); [auto|]. destruct Unit as [U|U].
      - destruct batch as [|d [|d' l]]; try discriminate. simpl in Hb. auto.
      - destruct batch as [|d [|d' l]]; [contradiction|simpl in Hb; auto|]. simpl in Hb, U. contradiction.
    Qed.
    Definition target (b i j : nat) : A :=
      gm k (fun i l => nth (off0 + b * (m * k) + (i * a0 + l * b0)) mem0 zero) (fun l j => nth (off1 + b * (k * n) + (l * a1 + j * b1)) mem1 zero) i j.
    Definition good (r : res (arr A)) : Prop := exists y, r = Ok y /\ a_shape y = batch ++ [m; n] /\ wf y /\
      forall b i j, in_bounds batch b -> i < m -> j < n -> aget zero y (b ++ [i; j]) = target (ravel batch b) i j.
    Lemma finish (mem : Z -> A) : (forall b i j, b < prod batch -> i < m -> j < n -> mem (Z.of_nat b * Z.of_nat (m * n) + Z.of_nat i * Z.of_nat n + Z.of_nat j * 1)%Z = target b i j) ->
      good (Ok (Arr (batch ++ [m; n]) (map (fun p => mem (Z.of_nat p)) (seq 0 (prod (batch ++ [m; n])))))).
    Proof.
      intros H. eexists. split; [reflexivity|]. split; [reflexivity|]. split.
      - unfold wf. simpl. rewrite map_length, seq_length. reflexivity.
      - intros b i j Hb Hi Hj. unfold aget. cbn [a_shape a_data].
        assert (Lb : length b = length batch) by apply (in_bounds_length _ _ Hb).
        assert (Lt : ravel (batch ++ [m; n]) (b ++ [i; j]) < prod (batch ++ [m; n])).
        { apply ravel_lt. apply Forall2_app; [exact Hb|]. constructor; [exact Hi|]. constructor; [exact Hj|constructor]. }
        rewrite (nth_indep _ zero (mem (Z.of_nat 0))) by (rewrite map_length, seq_length; exact Lt).
        rewrite (map_nth (fun p => mem (Z.of_nat p))). rewrite seq_nth by exact Lt. cbn [plus].
        rewrite <- (H (ravel batch b) i j) by (auto; apply ravel_lt; exact Hb). f_equal. rewrite ravel_app by exact Lb. cbn [ravel prod fold_right]. lia.
    Qed.
    Lemma zaddr o i ld l : Z.to_nat (Z.of_nat o + Z.of_nat i * Z.of_nat ld + Z.of_nat l * 1) = o + (i * ld + l).
    Proof. lia. Qed.
    Lemma zaddr' o i ld l : Z.to_nat (Z.of_nat o + Z.of_nat i * 1 + Z.of_nat l * Z.of_nat ld) = o + (l * ld + i).
    Proof. lia. Qed.
    Lemma ld_nat s x : small s -> small x -> Z.max (wrap32 (Z.of_nat s)) (wrap32 (Z.of_nat x)) = Z.of_nat (Nat.max s x).
    Proof. unfold small. intros Hs Hx. rewrite !wrap32_id by lia. lia. Qed.

    Lemma fast_ok : n <> 1 \/ m = 1 \/ (ta = false /\ k <> 1) ->
      batch_fast zero add mul junk w0 w1 = batch_kernel zero add mul w0 w1 \/ good (batch_fast zero add mul junk w0 w1).
    Proof.
      intros Hv. unfold batch_fast. cbn [v_shape v_strides v_mem v_off]. rewrite C0, C1. cbv iota zeta.
      assert (Lr : forall x y, length (batch ++ [x; y]) = length batch + 2) by (intros; rewrite app_length; reflexivity). rewrite Lr.
      destruct (nth_last2 batch _ m k eq_refl) as [-> ->]. destruct (nth_last2 batch _ k n eq_refl) as [_ ->].
      destruct (nth_last2 S0 _ a0 b0 LS0) as [E0 E0']. destruct (nth_last2 S1 _ a1 b1 LS1) as [E1 E1']. cbn [v_shape v_strides v_mem v_off]. rewrite E0, E1.
      rewrite firstn_here by lia. rewrite !skipn_last2 by reflexivity. rewrite std_strides_last by assumption.
      set (Sc := map (fun x => x * (m * n)) (row_major batch)). assert (LSc : length Sc = length batch) by (unfold Sc; rewrite map_length; apply row_major_length).
      assert (Sone : small 1) by (unfold small; lia).
      destruct ((a0 =? 1) && (a1 =? 1)) eqn:Both.
      - cbn [negb andb]. cbv iota. unfold vswap. cbn [v_shape v_strides v_mem v_off]. rewrite !swap_last_app.
        destruct (nd_ok (batch ++ [n; k]) (S1 ++ [b1; a1])) eqn:O1; [|left; reflexivity].
        destruct (nd_ok (batch ++ [k; m]) (S0 ++ [b0; a0])) eqn:O2; [|left; reflexivity].
        destruct (nd_ok (batch ++ [n; m]) (Sc ++ [1; n])) eqn:O3; [|left; reflexivity]. right. cbn [andb]. cbv iota.
        assert (En : n = 1) by (destruct (inner1 _ _ _ _ _ LSc O3); assumption).
        assert (Em : m = 1).
        { destruct Hv as [Hv|[Hv|[Hv Hv2]]]; [contradiction|assumption|]. rewrite Hv in Both. apply andb_true_iff in Both. destruct Both as [Both _]. apply Nat.eqb_eq in Both. contradiction. }
        destruct (nth_last2 batch _ n k eq_refl) as [-> ->]. destruct (nth_last2 batch _ k m eq_refl) as [_ ->].
        destruct (nth_last2 S1 _ b1 a1 LS1) as [-> _]. destruct (nth_last2 S0 _ b0 a0 LS0) as [-> _]. destruct (nth_last2 Sc _ 1 n LSc) as [-> _].
        rewrite !prod_app. cbn [prod fold_right]. rewrite En, Em. rewrite !Nat.mul_1_r, !Nat.mul_1_l.
        destruct (Nat.eqb_spec k 0); [contradiction|]. cbn [orb Nat.eqb]. rewrite !steps_exact by auto.
        replace (steps (prod batch) 1) with (prod batch) by (rewrite <- (Nat.mul_1_r (prod batch)) at 2; rewrite steps_exact; auto).
        rewrite Nat.eqb_refl. cbn [andb negb]. cbv iota.
        match goal with |- context [fold_left ?st (seq 0 _) (Some ?c)] =>
          destruct (fold_batches st (Z.of_nat (m * n)) (Z.of_nat n) m n target) with (nb := prod batch) (cm := c) as (mem & -> & HM) end.
        + intros cm b. rewrite !ld_nat by (destruct ta, tb; assumption). rewrite !wrap32_id by (unfold small in *; lia).
          rewrite cblas_mm by (cbv iota; lia).
          unfold mm_gemm. f_equal. rewrite Em, En. replace (Z.of_nat (b * 1)) with (Z.of_nat b * Z.of_nat (1 * 1))%Z by lia.
          rewrite Nat.max_id. apply store_ext. intros i j Hi Hj. assert (i = 0) by lia. assert (j = 0) by lia. subst i j.
          unfold target. rewrite <- gemm_swap by exact comm. apply andb_true_iff in Both. destruct Both as [B1 B2]. apply Nat.eqb_eq in B1, B2.
          apply gemm_ext; intros l Hl; cbv iota; rewrite zaddr; f_equal; rewrite ?B1, ?B2, ?En, ?Em; try lia.
          replace (Nat.max b0 1) with 1 by (rewrite Em; destruct ta; reflexivity). rewrite En in *. destruct ta; lia.
        + lia.
        + apply apart_rows. lia.
        + intros i j Hi Hj. nia.
        + pose proof (finish mem HM) as G. rewrite prod_app in G.
          replace (prod batch * prod [m; n]) with (prod batch) in G by (rewrite En, Em; cbn [prod fold_right]; lia).
          replace [1; 1] with [m; n] by congruence. exact G.
      - cbn [negb andb].
        (* the common end of the three other cases *)
        assert (End : forall (lt ht : bool) (la ha : nat) (m' k' n' : nat), m' = m -> k' = k -> n' = n ->
          (if lt then m else k) <= la -> (if ht then k else n) <= ha -> 1 <= la -> 1 <= ha ->
          (forall i l, i < m -> l < k -> (if lt then l * la + i else i * la + l) = i * a0 + l * b0) ->
          (forall l j, l < k -> j < n -> (if ht then j * ha + l else l * ha + j) = l * a1 + j * b1) ->
          good match fold_left (fun (cm : option (Z -> A)) (b : nat) => match cm with
            | Some cm => cblas_gemm zero add mul lt ht (wrap32 (Z.of_nat m')) (wrap32 (Z.of_nat n')) (wrap32 (Z.of_nat k'))
                (fun p => nth (Z.to_nat p) mem0 zero) (Z.of_nat (off0 + b * (m * k))) (Z.of_nat la)
                (fun p => nth (Z.to_nat p) mem1 zero) (Z.of_nat (off1 + b * (k * n))) (Z.of_nat ha)
                false cm (Z.of_nat (b * (m * n))) (Z.of_nat n)
            | None => None end) (seq 0 (prod batch)) (Some (fun p => junk (Z.to_nat p))) with
            | Some cm => Ok (Arr (batch ++ [m; n]) (map (fun p => cm (Z.of_nat p)) (seq 0 (prod (batch ++ [m; n])))))
            | None => Panic end).
        { intros lt ht la ha m' k' n' -> -> -> H1 H2 H3 H4 Aa Ab.
          match goal with |- context [fold_left ?st (seq 0 _) (Some ?c)] =>
            destruct (fold_batches st (Z.of_nat (m * n)) (Z.of_nat n) m n target) with (nb := prod batch) (cm := c) as (mem & -> & HM) end.
          - intros cm b. rewrite !wrap32_id by (unfold small in *; lia). rewrite cblas_mm by (destruct lt, ht; lia).
            unfold mm_gemm. f_equal. replace (Z.of_nat (b * (m * n))) with (Z.of_nat b * Z.of_nat (m * n))%Z by lia.
            apply store_ext. intros i j Hi Hj. unfold target. apply gemm_ext; intros l Hl.
            + specialize (Aa i l Hi Hl). destruct lt; [rewrite zaddr'|rewrite zaddr]; f_equal; lia.
            + specialize (Ab l j Hl Hj). destruct ht; [rewrite zaddr'|rewrite zaddr]; f_equal; lia.
          - nia.
          - apply apart_rows. lia.
          - intros i j Hi Hj. nia.
          - exact (finish mem HM). }
        assert (St : forall p q : nat, p <> 0 -> q <> 0 -> steps (prod (batch ++ [p; q])) (prod [p; q]) = prod batch).
        { intros p q Hp Hq. rewrite prod_app. apply steps_exact. cbn [prod fold_right]. nia. }
        assert (P2 : forall p q, prod [p; q] = p * q) by (intros; cbn [prod fold_right]; lia).
        assert (Z0 : (prod [m; k] =? 0) || (prod [k; n] =? 0) || (prod [m; n] =? 0) = false).
        { rewrite !P2. rewrite !orb_false_iff, !Nat.eqb_neq. nia. }
        destruct ((a0 =? 1) && (m =? k)) eqn:Lt.
        + cbn [negb andb]. cbv iota. unfold vswap. cbn [v_shape v_strides v_mem v_off]. rewrite !swap_last_app.
          apply andb_true_iff in Lt. destruct Lt as [Ea Emk]. apply Nat.eqb_eq in Ea, Emk.
          destruct (nd_ok (batch ++ [k; m]) (S0 ++ [b0; a0])) eqn:O1; [|left; reflexivity].
          destruct (nd_ok (batch ++ [k; n]) (S1 ++ [a1; b1])) eqn:O2; [|left; reflexivity].
          destruct (nd_ok (batch ++ [m; n]) (Sc ++ [n; 1])) eqn:O3; [|left; reflexivity]. right. cbn [andb]. cbv iota.
          rewrite Z0. cbv iota. replace (steps (prod (batch ++ [k; m])) (prod [m; k])) with (prod batch) by (rewrite Emk; symmetry; apply St; auto).
          rewrite !St by auto. rewrite Nat.eqb_refl. cbn [negb andb]. cbv iota.
          destruct (nth_last2 batch _ k m eq_refl) as [-> ->]. destruct (nth_last2 batch _ k n eq_refl) as [_ ->].
          destruct (nth_last2 S0 _ b0 a0 LS0) as [-> _]. rewrite E1. destruct (nth_last2 Sc _ n 1 LSc) as [-> _].
          rewrite !ld_nat by (destruct ta, tb; assumption). rewrite !P2. rewrite (Nat.max_id n).
          destruct (inner1 _ _ _ _ _ LS1 O2) as [I|I]; apply End; auto; try lia; try (destruct ta; lia); try (destruct tb; lia);
            try (intros i l Hi Hl; destruct ta; nia); try (intros l j Hl Hj; destruct tb; nia).
        + cbn [negb andb]. cbv iota. destruct ((a1 =? 1) && (k =? n)) eqn:Ht.
          * cbv iota. unfold vswap. cbn [v_shape v_strides v_mem v_off]. rewrite !swap_last_app.
            apply andb_true_iff in Ht. destruct Ht as [Ea Ekn]. apply Nat.eqb_eq in Ea, Ekn.
            destruct (nd_ok (batch ++ [m; k]) (S0 ++ [a0; b0])) eqn:O1; [|left; reflexivity].
            destruct (nd_ok (batch ++ [n; k]) (S1 ++ [b1; a1])) eqn:O2; [|left; reflexivity].
            destruct (nd_ok (batch ++ [m; n]) (Sc ++ [n; 1])) eqn:O3; [|left; reflexivity]. right. cbn [andb]. cbv iota.
            rewrite Z0. cbv iota. replace (steps (prod (batch ++ [n; k])) (prod [k; n])) with (prod batch) by (rewrite Ekn; symmetry; apply St; auto).
            rewrite !St by auto. rewrite Nat.eqb_refl. cbn [negb andb]. cbv iota.
            destruct (nth_last2 batch _ m k eq_refl) as [-> ->]. destruct (nth_last2 batch _ n k eq_refl) as [-> _].
            destruct (nth_last2 S1 _ b1 a1 LS1) as [-> _]. rewrite E0. destruct (nth_last2 Sc _ n 1 LSc) as [-> _].
            rewrite !ld_nat by (destruct ta, tb; assumption). rewrite !P2. rewrite (Nat.max_id n).
            destruct (inner1 _ _ _ _ _ LS0 O1) as [I|I]; apply End; auto; try lia; try (destruct ta; lia); try (destruct tb; lia);
              try (intros i l Hi Hl; destruct ta; nia); try (intros l j Hl Hj; destruct tb; nia).
          * cbv iota. cbn [v_shape v_strides v_mem v_off].
            destruct (nd_ok (batch ++ [m; k]) (S0 ++ [a0; b0])) eqn:O1; [|left; reflexivity].
            destruct (nd_ok (batch ++ [k; n]) (S1 ++ [a1; b1])) eqn:O2; [|left; reflexivity].
            destruct (nd_ok (batch ++ [m; n]) (Sc ++ [n; 1])) eqn:O3; [|left; reflexivity]. right. cbn [andb]. cbv iota.
            rewrite Z0. cbv iota. rewrite !St by auto. rewrite Nat.eqb_refl. cbn [negb andb]. cbv iota.
            destruct (nth_last2 batch _ m k eq_refl) as [-> ->]. destruct (nth_last2 batch _ k n eq_refl) as [_ ->].
            rewrite E0, E1. destruct (nth_last2 Sc _ n 1 LSc) as [-> _].
            rewrite !ld_nat by (destruct ta, tb; assumption). rewrite !P2. rewrite (Nat.max_id n).
            destruct (inner1 _ _ _ _ _ LS0 O1) as [I|I]; destruct (inner1 _ _ _ _ _ LS1 O2) as [I'|I']; apply End; auto; try lia; try (destruct ta; lia); try (destruct tb; lia);
              try (intros i l Hi Hl; destruct ta; nia); try (intros l j Hl Hj; destruct tb; nia).
    Qed.
  End Fast.

  Lemma swapped_view t batch p q (x : view A) : prod batch <> 0 -> p <> 0 -> q <> 0 -> standard x -> v_shape x = vshape t batch p q ->
    (if t then vswap x else x) =
    View (v_mem x) (v_off x) (batch ++ [p; q]) (map (fun y => y * (p * q)) (row_major batch) ++ [if t then 1 else q; if t then p else 1]).
  Proof.
    intros Nb Np Nq St Sh. destruct (standard_swapped t batch p q x Nb Np Nq St Sh) as (A1 & A2 & A3 & A4).
    set (w := if t then vswap x else x) in *. destruct w as [me of sh st]. simpl in *. subst. f_equal. f_equal. destruct t; reflexivity.
  Qed.
  Section Whole.
    Variables (ta tb : bool) (batch : list nat) (m k n : nat) (x0 x1 : view A) (junk : nat -> A).
    Hypothesis (Nbt : batch <> []) (Nb : prod batch <> 0) (Nm : m <> 0) (Nk : k <> 0) (Nn : n <> 0).
    Hypothesis (St0 : standard x0) (St1 : standard x1) (Sh0 : v_shape x0 = vshape ta batch m k) (Sh1 : v_shape x1 = vshape tb batch k n).
    Notation w0 := (View (v_mem x0) (v_off x0) (batch ++ [m; k]) (map (fun y => y * (m * k)) (row_major batch) ++ [if ta then 1 else k; if ta then m else 1])).
    Notation w1 := (View (v_mem x1) (v_off x1) (batch ++ [k; n]) (map (fun y => y * (k * n)) (row_major batch) ++ [if tb then 1 else n; if tb then k else 1])).
    Lemma prefix : batch_matmul_blas zero add mul junk ta tb x0 x1 = batch_fast zero add mul junk w0 w1 /\
      batch_matmul zero add mul ta tb x0 x1 = batch_kernel zero add mul w0 w1.
    Proof.
      unfold batch_matmul_blas, batch_matmul.
      assert (L0 : length (v_shape x0) = length batch + 2) by (rewrite Sh0; unfold vshape; rewrite app_length; destruct ta; reflexivity).
      assert (L1 : length (v_shape x1) = length batch + 2) by (rewrite Sh1; unfold vshape; rewrite app_length; destruct tb; reflexivity).
      rewrite L0, L1. destruct (Nat.ltb_spec (length batch + 2) 2) as [|_]; [lia|]. simpl orb. cbv iota zeta.
      rewrite (swapped_view ta batch m k x0), (swapped_view tb batch k n x1) by assumption. cbn [v_shape]. rewrite !firstn_here by lia. rewrite Nat.eqb_refl.
      replace (shape_eqb batch batch) with true by (symmetry; apply shape_eqb_ok; reflexivity). split; reflexivity.
    Qed.
    Lemma copies : requires_copy (v_strides w0) = Some false /\ requires_copy (v_strides w1) = Some false.
    Proof. split; cbn [v_strides]; apply no_copy; auto; try (destruct ta; nia); destruct tb; nia. Qed.
    Lemma batch_blas_panics : n = 1 -> m <> 1 -> (ta = true \/ k = 1) -> small m -> small k -> Forall small batch ->
      batch_matmul_blas zero add mul junk ta tb x0 x1 = Panic.
    Proof.
      intros. destruct prefix as [-> _]. destruct copies as [C0 C1]. cbn [v_strides] in C0, C1.
      apply fast_panics; auto; try (rewrite map_length; apply row_major_length).
    Qed.
    Lemma batch_blas_ok : small m -> small k -> small n -> length batch = 1 \/ nth 1 batch 0 <> 1 -> n <> 1 \/ m = 1 \/ (ta = false /\ k <> 1) ->
      exists y, batch_matmul_blas zero add mul junk ta tb x0 x1 = Ok y /\ a_shape y = batch ++ [m; n] /\ wf y /\
        forall b i j, in_bounds batch b -> i < m -> j < n -> aget zero y (b ++ [i; j]) = gm k (bget zero ta x0 b) (bget zero tb x1 b) i j.
    Proof.
      intros Sm Sk Sn U Hv. destruct prefix as [-> E]. destruct copies as [C0 C1]. cbn [v_strides] in C0, C1.
      destruct (fast_ok batch (map (fun y => y * (m * k)) (row_major batch)) (map (fun y => y * (k * n)) (row_major batch)) m k n (v_mem x0) (v_mem x1) (v_off x0) (v_off x1) ta tb junk) as [Eq|G]; auto;
        try (rewrite map_length; apply row_major_length).
      - rewrite Eq, <- E. destruct (batch_ok zero add mul ta tb batch m k k n x0 x1) as (y & H1 & H2 & H3 & H4); auto. exists y. repeat split; auto.
      - destruct G as (y & H1 & H2 & H3 & H4). exists y. split; [exact H1|]. split; [exact H2|]. split; [exact H3|]. intros b i j Hb Hi Hj.
        rewrite H4 by assumption. unfold target. assert (Lb : length b = length batch) by apply (in_bounds_length _ _ Hb).
        apply gemm_ext; intros l Hl; symmetry.
        + rewrite (entry zero ta batch m k x0) by auto. destruct ta; reflexivity.
        + rewrite (entry zero tb batch k n x1) by auto. destruct tb; reflexivity.
    Qed.
  End Whole.

  (** ** Elementwise functions *)
  Lemma vm_tab junk f (x : view A) : small (prod (v_shape x)) ->
    vm_map zero junk f x = tab (v_shape x) (fun i => f (nth (v_off x + ravel (v_shape x) i) (v_mem x) zero)).
  Proof.
    intros Sm. unfold vm_map, tab. rewrite wrap32_id by (unfold small in Sm; lia). f_equal. rewrite <- ravel_indices, map_map.
    apply map_ext_in. intros i Hi. apply indices_in, ravel_lt in Hi. destruct (Z.ltb_spec (Z.of_nat (ravel (v_shape x) i)) (Z.of_nat (prod (v_shape x)))); [reflexivity|lia].
  Qed.
  Lemma vm_standard junk f (x : view A) : standard x -> small (prod (v_shape x)) -> vm_map zero junk f x = std_map zero f x.
  Proof.
    intros St Sm. rewrite vm_tab by exact Sm. apply tab_ext. intros i Hi. unfold vget. rewrite St. pose proof (ravel_lt _ _ Hi).
    rewrite std_row_major by lia. rewrite row_major_ravel. reflexivity.
  Qed.
End Blas.
