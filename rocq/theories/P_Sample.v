(** C79: random tensors over the evaluations of a graph. *)
From Coq Require Import String List Arith ZArith Bool Reals Lia Lra Relations.
Import ListNotations.
From Verif Require Import Graph_Model Graph_Proofs Eval_Model Eval_Spec Eval_Proofs Eval_Proofs2 Array_Model Vjp_Spec Tens_Model Num_Model Num_Proofs.
From Verif Require Import Scalar_Model Rand_Model Rand_Spec Rand_Proofs Sample_Model Sample_Spec Sample_Proofs.
Local Open Scope R_scope.
Local Set Bullet Behavior "Strict Subproofs".

Lemma draw_after {Rng} (d : Rng -> R * Rng) a b r : draw d a (after d b r) = draw d (b + a) r.
Proof. unfold draw. rewrite after_add. do 3 f_equal. lia. Qed.
Lemma tensors_next {Rng Op} (g h : graph (sop Rng Op)) q qs j : same_graph (g ++ rq_more q) h -> same_graph (tensors_at g (q :: qs) (S j)) (tensors_at h qs j).
Proof. intros H. unfold tensors_at. cbn [firstn map concat]. rewrite app_assoc. apply same_app. exact H. Qed.
Lemma tensors_first {Rng Op} (g : graph (sop Rng Op)) q qs : tensors_at g (q :: qs) 0 = g ++ rq_more q.
Proof. unfold tensors_at. simpl. rewrite app_nil_r. reflexivity. Qed.
Lemma op_node_app {O} (g h : graph O) i n : op_node g i n -> op_node (g ++ h) i n.
Proof. intros (A & B & C). repeat split; auto. apply nth_app_l. exact A. Qed.

Lemma skipped_dec {V} (t : nat) (log : list (@event V)) : {In (Skipped t) log} + {~ In (Skipped t) log}.
Proof.
  induction log as [|ev log IHl]; [right; intros []|]. destruct ev as [i xs|i].
  - destruct IHl as [H|H]; [left; right; exact H|right; intros [Q|Q]; [discriminate|auto]].
  - destruct (Nat.eq_dec i t) as [->|NE]; [left; left; reflexivity|].
    destruct IHl as [H|H]; [left; right; exact H|right; intros [Q|Q]; [congruence|auto]].
Qed.

(** Over any sequence of evaluations of a growing graph, a random tensor holds
    consecutive samples of its own generator: an evaluation that needs the tensor draws
    one sample per element, in row-major order, after those of the evaluations before
    it; the requested array and every operation reading the tensor see the same
    samples; an evaluation that does not need the tensor, or in which its shape failed,
    draws nothing. *)
Theorem C79_stream :
  forall (Rng Op Err : Type) (dist : distribution -> option (Rng -> R * Rng)) (uniform : Rng -> R * Rng)
    (other : Op -> list (opin (arr R)) -> cout (arr R) Err) (debug : bool) (fuel : nat)
    (qs : list (request Rng Op)) (g g' : graph (sop Rng Op)) (ocs : list (@outcome (arr R) Err))
    (t : nat) (n : node (sop Rng Op)) (inc : incoming) (k : random_op) (d : Rng -> R * Rng) (r : Rng),
  legal g qs -> session dist uniform other debug fuel g qs = Ok (ocs, g') ->
  op_node g t n -> n_op n = SRandom k r -> n_inputs n = [inc] -> draws_by dist uniform k d ->
  length ocs = length qs /\
  exists sizes : list nat, length sizes = length qs /\
    (forall j q oc size, nth_error qs j = Some q -> nth_error ocs j = Some oc -> nth_error sizes j = Some size ->
       (needed (tensors_at g qs j) (rq_targets q) t -> ~ In (Skipped t) (oc_log oc) ->
          exists x sh a, In (Ran t [x]) (oc_log oc) /\ holds_dims (opin_val x) sh /\ size = prod sh /\
            samples d r (total (firstn j sizes)) sh a /\
            (forall p v, nth_error (rq_targets q) p = Some t -> nth_error (oc_results oc) p = Some v -> v = inl a) /\
            (forall u xs m p mut sel, In (Ran u xs) (oc_log oc) -> op_node (tensors_at g qs j) u m ->
               nth_error (n_inputs m) p = Some (Incoming t mut sel) -> nth_error xs p = Some (NonVar a))) /\
       (~ needed (tensors_at g qs j) (rq_targets q) t \/ In (Skipped t) (oc_log oc) -> size = 0%nat)) /\
    exists n', nth_error g' t = Some n' /\ n_op n' = SRandom k (after d (total sizes) r).
Proof.
  intros Rng Op Err dist uniform other debug fuel qs. induction qs as [|q qs IH]; intros g g' ocs t n inc k d r L S Hn Ho Hi D.
  - injection S as <- <-. split; [reflexivity|]. exists []. split; [reflexivity|]. split; [intros [|j]; discriminate|].
    exists n. split; [apply Hn|exact Ho].
  - cbn [session] in S. destruct L as (W & I & L). set (g1 := g ++ rq_more q) in *.
    destruct (eval _ _ _ _ _ _ _ _) as [oc| |] eqn:He; try discriminate.
    destruct (session _ _ _ _ _ _ _) as [[ocs1 g2]| |] eqn:Hs; try discriminate. injection S as <- <-.
    pose proof (op_node_app g (rq_more q) t n Hn) as Hn1. fold g1 in Hn1.
    pose proof (same_moved dist uniform (oc_log oc) g1) as SM.
    destruct (same_op_node _ _ _ _ SM Hn1) as (m & Hm & (SI & _)).
    assert (Hmi : n_inputs m = [inc]) by congruence.
    destruct (step_cases dist uniform other debug g1 (rq_feeds q) fuel (rq_targets q) (rq_env q) oc W I He t n inc Hn1 Hi) as (RUN & NOT).
    pose proof (skipped_dec t (oc_log oc)) as ND.
    assert (STEP : exists size,
      n_op m = SRandom k (after d size r) /\
      (needed g1 (rq_targets q) t -> ~ In (Skipped t) (oc_log oc) ->
          exists x sh a, In (Ran t [x]) (oc_log oc) /\ holds_dims (opin_val x) sh /\ size = prod sh /\ samples d r 0 sh a /\
            (forall p v, nth_error (rq_targets q) p = Some t -> nth_error (oc_results oc) p = Some v -> v = inl a) /\
            (forall u xs m p mut sel, In (Ran u xs) (oc_log oc) -> op_node g1 u m ->
               nth_error (n_inputs m) p = Some (Incoming t mut sel) -> nth_error xs p = Some (NonVar a))) /\
      (~ needed g1 (rq_targets q) t \/ In (Skipped t) (oc_log oc) -> size = 0%nat)).
    { assert (NN : needed g1 (rq_targets q) t \/ ~ needed g1 (rq_targets q) t).
      { destruct (eval_order a_shape (sample_compute dist uniform other) debug g1 (rq_feeds q) W (rq_targets q) (rq_env q) fuel oc I He) as (_ & NEED & _).
        destruct (in_dec Nat.eq_dec t (map event_id (oc_log oc))) as [Y|N]; [left; apply NEED; exact Y|right; intros Q; apply N, NEED; exact Q]. }
      destruct ND as [SK|NS]; [|destruct NN as [YN|NN]].
      - exists 0%nat. pose proof (proj1 Hm) as Q. rewrite (NOT (or_intror SK)) in Q. injection Q as <-. split; [exact Ho|]. split; [intros _ X; contradiction|reflexivity].
      - destruct (RUN YN NS) as (x & ws & ys & st & HR & HC & HM & HV). rewrite Ho in HC, HM. cbn [sample_compute moved] in HC, HM.
        unfold drawn in HC, HM. destruct (dims_of (opin_val x)) as [sh|] eqn:Ed; [|discriminate].
        destruct (random_array dist uniform k sh r) as [[a r']|] eqn:Ea; [|discriminate]. injection HC as <- <- <-.
        destruct (random_array_spec dist uniform k d sh r a r' D Ea) as (SA & ->). destruct (HV eq_refl) as (HV1 & HV2).
        exists (prod sh). split; [apply HM; apply Hm|]. split; [|intros [X|X]; contradiction].
        intros _ _. exists x, sh, a. split; [exact HR|]. split; [apply dims_of_spec; exact Ed|]. split; [reflexivity|]. split; [exact SA|]. split.
        + intros p v P V. destruct (HV1 p v P V) as (y & l & Y & ->). injection Y as -> _. reflexivity.
        + intros u xs m' p mut sel HU M P. destruct (HV2 u xs m' p mut sel HU M P) as (y & Y & X). destruct sel as [|[|sel]]; try discriminate. injection Y as ->. exact X.
      - exists 0%nat. pose proof (proj1 Hm) as Q. rewrite (NOT (or_introl NN)) in Q. injection Q as <-. split; [exact Ho|]. split; [intros X _; contradiction|reflexivity]. }
    destruct STEP as (size & Hmo & ST1 & ST2).
    destruct (IH _ _ _ t m inc k d (after d size r) (legal_same qs _ _ SM L) Hs Hm Hmo Hmi D) as (LEN & sizes & LS & REST & n' & N1 & N2).
    split; [cbn [length]; congruence|]. exists (size :: sizes). split; [cbn [length]; congruence|]. split.
    + intros [|j] q' oc' size' Q1 Q2 Q3; cbn [nth_error] in Q1, Q2, Q3.
      * injection Q1 as <-. injection Q2 as <-. injection Q3 as <-. rewrite tensors_first. fold g1. split; [exact ST1|exact ST2].
      * pose proof (tensors_next g (moved_graph dist uniform g1 (oc_log oc)) q qs j SM) as TN.
        destruct (REST j q' oc' size' Q1 Q2 Q3) as (R1 & R2). split.
        -- intros N NS. destruct (R1 (same_needed _ _ _ _ TN N) NS) as (x & sh & a & A1 & A2 & A3 & A4 & A5 & A6).
           exists x, sh, a. split; [exact A1|]. split; [exact A2|]. split; [exact A3|]. split; [|split; [exact A5|]].
           ++ destruct A4 as (B1 & B2 & B3). split; [exact B1|]. split; [exact B2|]. intros i Hi'. rewrite (B3 i Hi'), draw_after. do 2 f_equal. cbn [firstn total fold_right]. unfold total. lia.
           ++ intros u xs m' p mut sel HU M P. destruct (same_op_node _ _ _ _ TN M) as (m2 & M2 & (SI2 & _)). apply (A6 u xs m2 p mut sel HU M2). congruence.
        -- intros [X|X]; apply R2; [left|right; exact X]. intros Y. apply X. exact (same_needed _ _ _ _ (same_sym _ _ TN) Y).
    + exists n'. split; [exact N1|]. rewrite N2. f_equal. rewrite after_add. f_equal. cbn [total fold_right]. unfold total. lia.
Qed.
Print Assumptions C79_stream.

(** A dropout in training mode draws a new mask in every evaluation that needs it: the
    samples after those of the evaluations before it decide what is kept. *)
Theorem C79_dropout :
  forall (Rng Op Err : Type) (dist : distribution -> option (Rng -> R * Rng)) (uniform : Rng -> R * Rng)
    (other : Op -> list (opin (arr R)) -> cout (arr R) Err) (debug : bool) (fuel : nat)
    (qs : list (request Rng Op)) (g g' : graph (sop Rng Op)) (ocs : list (@outcome (arr R) Err))
    (t : nat) (n : node (sop Rng Op)) (inc : incoming) (ratio : R) (r : Rng),
  legal g qs -> session dist uniform other debug fuel g qs = Ok (ocs, g') ->
  op_node g t n -> n_op n = SDropout ratio true r -> n_inputs n = [inc] ->
  exists sizes : list nat, length sizes = length qs /\
    (forall j q oc size, nth_error qs j = Some q -> nth_error ocs j = Some oc -> nth_error sizes j = Some size ->
       (needed (tensors_at g qs j) (rq_targets q) t -> ~ In (Skipped t) (oc_log oc) ->
          exists x, In (Ran t [x]) (oc_log oc) /\ size = prod (a_shape (opin_val x)) /\
            (has_shape (a_shape (opin_val x)) (opin_val x) ->
             forall p v, nth_error (rq_targets q) p = Some t -> nth_error (oc_results oc) p = Some v ->
             exists y, v = inl y /\ kept (fun i => draw uniform (total (firstn j sizes) + i) r < 1 - ratio) (opin_val x) y)) /\
       (~ needed (tensors_at g qs j) (rq_targets q) t \/ In (Skipped t) (oc_log oc) -> size = 0%nat)) /\
    exists n', nth_error g' t = Some n' /\ n_op n' = SDropout ratio true (after uniform (total sizes) r).
Proof.
  intros Rng Op Err dist uniform other debug fuel qs. induction qs as [|q qs IH]; intros g g' ocs t n inc ratio r L S Hn Ho Hi.
  - injection S as <- <-. exists []. split; [reflexivity|]. split; [intros [|j]; discriminate|].
    exists n. split; [apply Hn|exact Ho].
  - cbn [session] in S. destruct L as (W & I & L). set (g1 := g ++ rq_more q) in *.
    destruct (eval _ _ _ _ _ _ _ _) as [oc| |] eqn:He; try discriminate.
    destruct (session _ _ _ _ _ _ _) as [[ocs1 g2]| |] eqn:Hs; try discriminate. injection S as <- <-.
    pose proof (op_node_app g (rq_more q) t n Hn) as Hn1. fold g1 in Hn1.
    pose proof (same_moved dist uniform (oc_log oc) g1) as SM.
    destruct (same_op_node _ _ _ _ SM Hn1) as (m & Hm & (SI & _)).
    assert (Hmi : n_inputs m = [inc]) by congruence.
    destruct (step_cases dist uniform other debug g1 (rq_feeds q) fuel (rq_targets q) (rq_env q) oc W I He t n inc Hn1 Hi) as (RUN & NOT).
    assert (STEP : exists size,
      n_op m = SDropout ratio true (after uniform size r) /\
      (needed g1 (rq_targets q) t -> ~ In (Skipped t) (oc_log oc) ->
          exists x, In (Ran t [x]) (oc_log oc) /\ size = prod (a_shape (opin_val x)) /\
            (has_shape (a_shape (opin_val x)) (opin_val x) ->
             forall p v, nth_error (rq_targets q) p = Some t -> nth_error (oc_results oc) p = Some v ->
             exists y, v = inl y /\ kept (fun i => draw uniform i r < 1 - ratio) (opin_val x) y)) /\
      (~ needed g1 (rq_targets q) t \/ In (Skipped t) (oc_log oc) -> size = 0%nat)).
    { assert (NN : (needed g1 (rq_targets q) t /\ ~ In (Skipped t) (oc_log oc)) \/ (~ needed g1 (rq_targets q) t \/ In (Skipped t) (oc_log oc))).
      { destruct (eval_order a_shape (sample_compute dist uniform other) debug g1 (rq_feeds q) W (rq_targets q) (rq_env q) fuel oc I He) as (_ & NEED & _).
        destruct (in_dec Nat.eq_dec t (map event_id (oc_log oc))) as [Y|N]; [|right; left; intros Q; apply N, NEED; exact Q].
        destruct (skipped_dec t (oc_log oc)) as [Z|Z]; [right; right; exact Z|]. left. split; [apply NEED; exact Y|exact Z]. }
      destruct NN as [[YN NS]|NN].
      - destruct (RUN YN NS) as (x & ws & ys & st & HR & HC & HM & HV). rewrite Ho in HC, HM. cbn [sample_compute moved] in HC, HM.
        rewrite train_spec in HC, HM. cbn [fst snd] in HC, HM.
        injection HC as <- <- <-. destruct (HV eq_refl) as (HV1 & _).
        exists (prod (a_shape (opin_val x))). split; [apply HM; apply Hm|]. split; [|intros [X|X]; contradiction].
        intros _ _. exists x. split; [exact HR|]. split; [reflexivity|]. intros HX p v P V.
        destruct (HV1 p v P V) as (y & l & Y & ->). exists y. split; [reflexivity|].
        destruct (train_kept uniform ratio r _ HX) as (z & Z & K). rewrite train_spec in Z.
        assert (Z' : Some y = Some z) by (rewrite <- Z; transitivity (nth_error (y :: l) 0); [reflexivity|]; rewrite <- Y; reflexivity).
        assert (Q : y = z) by congruence. rewrite Q. exact K.
      - exists 0%nat. pose proof (proj1 Hm) as Q. rewrite (NOT NN) in Q. injection Q as <-. split; [exact Ho|]. split; [tauto|reflexivity]. }
    destruct STEP as (size & Hmo & ST1 & ST2).
    destruct (IH _ _ _ t m inc ratio (after uniform size r) (legal_same qs _ _ SM L) Hs Hm Hmo Hmi) as (sizes & LS & REST & n' & N1 & N2).
    exists (size :: sizes). split; [cbn [length]; congruence|]. split.
    + intros [|j] q' oc' size' Q1 Q2 Q3; cbn [nth_error] in Q1, Q2, Q3.
      * injection Q1 as <-. injection Q2 as <-. injection Q3 as <-. rewrite tensors_first. fold g1. split; [exact ST1|exact ST2].
      * pose proof (tensors_next g (moved_graph dist uniform g1 (oc_log oc)) q qs j SM) as TN.
        destruct (REST j q' oc' size' Q1 Q2 Q3) as (R1 & R2). split.
        -- intros N NS. destruct (R1 (same_needed _ _ _ _ TN N) NS) as (x & A1 & A2 & A3).
           exists x. split; [exact A1|]. split; [exact A2|]. intros HX p v P V. destruct (A3 HX p v P V) as (y & -> & K1 & K2). exists y. split; [reflexivity|].
           split; [exact K1|]. intros i Hi'. specialize (K2 i Hi'). rewrite draw_after in K2.
           replace (size + (total (firstn j sizes) + i))%nat with (total (firstn (S j) (size :: sizes)) + i)%nat in K2 by (cbn [firstn total fold_right]; unfold total; lia). exact K2.
        -- intros [X|X]; apply R2; [left|right; exact X]. intros Y. apply X. exact (same_needed _ _ _ _ (same_sym _ _ TN) Y).
    + exists n'. split; [exact N1|]. rewrite N2. f_equal. rewrite after_add. f_equal. cbn [total fold_right]. unfold total. lia.
Qed.
Print Assumptions C79_dropout.

(** Random tensors are not independent of each other: two tensors made by one function
    without a generator, with the same parameters and the same shape tensor, hold the
    same samples in every evaluation, as long as each evaluation needs both or none. *)
Theorem C79_default_generators_repeat :
  forall (Rng Op Err : Type) (dist : distribution -> option (Rng -> R * Rng)) (uniform : Rng -> R * Rng)
    (other : Op -> list (opin (arr R)) -> cout (arr R) Err) (debug : bool) (fuel : nat) (default_rng : Rng)
    (qs : list (request Rng Op)) (g g1 mid g2 rest g' : graph (sop Rng Op)) (ocs : list (@outcome (arr R) Err))
    (s t1 t2 : nat) (k : random_op),
  computed g s ->
  random default_rng g s k = Some (g1, t1) -> random default_rng (g1 ++ mid) s k = Some (g2, t2) ->
  legal (g2 ++ rest) qs -> session dist uniform other debug fuel (g2 ++ rest) qs = Ok (ocs, g') ->
  (forall j q, nth_error qs j = Some q ->
     (needed (tensors_at (g2 ++ rest) qs j) (rq_targets q) t1 <-> needed (tensors_at (g2 ++ rest) qs j) (rq_targets q) t2)) ->
  t1 <> t2 /\
  forall j q oc a1 a2, nth_error qs j = Some q -> nth_error ocs j = Some oc ->
    In (t1, inl a1) (combine (rq_targets q) (oc_results oc)) -> In (t2, inl a2) (combine (rq_targets q) (oc_results oc)) -> a1 = a2.
Proof.
  intros Rng Op Err dist uniform other debug fuel r0 qs g g1 mid g2 rest g' ocs s t1 t2 k Cs B1 B2 L S HN.
  unfold random, random_rng in B1, B2. apply build_spec in B1, B2. destruct B1 as (T1 & _ & G1). destruct B2 as (T2 & _ & G2).
  match type of G1 with _ = g ++ [?n] => set (n1 := n) in * end. match type of G2 with _ = _ ++ [?n] => set (n2 := n) in * end.
  assert (N1 : op_node (g2 ++ rest) t1 n1).
  { subst. split; [|split; reflexivity]. do 3 apply nth_app_l. rewrite nth_error_app2, Nat.sub_diag by lia. reflexivity. }
  assert (N2 : op_node (g2 ++ rest) t2 n2).
  { subst. split; [|split; reflexivity]. apply nth_app_l. rewrite nth_error_app2, Nat.sub_diag by lia. reflexivity. }
  assert (Cs' : computed (g2 ++ rest) s).
  { destruct Cs as (ns & A & B & C). exists ns. split; [|split; assumption]. subst. do 4 apply nth_app_l. exact A. }
  assert (NE : t1 <> t2) by (subst; rewrite !app_length; simpl; lia).
  split; [exact NE|].
  assert (I1 : n_inputs n1 = [Incoming s false 0]) by reflexivity. assert (I2 : n_inputs n2 = [Incoming s false 0]) by reflexivity.
  assert (O1 : n_op n1 = SRandom k r0) by reflexivity. assert (O2 : n_op n2 = SRandom k r0) by reflexivity.
  clearbody n1 n2. clear G1 G2 T1 T2 Cs. revert r0 n1 n2 O1 O2 I1 I2 N1 N2 Cs' L S HN. generalize (g2 ++ rest) as h. clear g g1 mid g2 rest. revert ocs g'.
  induction qs as [|q qs IH]; intros ocs g' h r n1 n2 O1 O2 I1 I2 N1 N2 Cs L S HN; [intros [|j]; discriminate|].
  cbn [session] in S. destruct L as (W & I & L). set (h1 := h ++ rq_more q) in *.
  destruct (eval _ _ _ _ _ _ _ _) as [oc| |] eqn:He; try discriminate.
  destruct (session _ _ _ _ _ _ _) as [[ocs1 g2]| |] eqn:Hs; try discriminate. injection S as <- <-.
  apply (op_node_app h (rq_more q)) in N1, N2. fold h1 in N1, N2.
  assert (Cs1 : computed h1 s) by (destruct Cs as (ns & C); exists ns; apply op_node_app; exact C).
  pose proof (same_moved dist uniform (oc_log oc) h1) as SM.
  destruct (same_op_node _ _ _ _ SM N1) as (m1 & M1 & (SI1 & _)). destruct (same_op_node _ _ _ _ SM N2) as (m2 & M2 & (SI2 & _)).
  destruct (step_cases dist uniform other debug h1 (rq_feeds q) fuel (rq_targets q) (rq_env q) oc W I He t1 n1 _ N1 I1) as (RUN1 & NOT1).
  destruct (step_cases dist uniform other debug h1 (rq_feeds q) fuel (rq_targets q) (rq_env q) oc W I He t2 n2 _ N2 I2) as (RUN2 & NOT2).
  assert (H0 : needed h1 (rq_targets q) t1 <-> needed h1 (rq_targets q) t2).
  { specialize (HN 0%nat q eq_refl). rewrite tensors_first in HN. exact HN. }
  destruct (eval_events _ _ _ _ _ _ _ _ _ W I He) as (st & EX & FT & EV).
  destruct (eval_order a_shape (sample_compute dist uniform other) debug h1 (rq_feeds q) W (rq_targets q) (rq_env q) fuel oc I He) as (NDl & NEED & _).
  assert (NOTBOTH : forall t xs, In (Ran t xs) (oc_log oc) -> ~ In (Skipped t) (oc_log oc)).
  { intros t xs HR HK. clear -NDl HR HK. induction (oc_log oc) as [|ev log IHl]; [destruct HK|]. simpl in NDl. inversion NDl as [|? ? A B]; subst.
    destruct HR as [->|HR], HK as [Q|HK]; [discriminate| | |auto].
    - apply A. exact (in_map event_id _ _ HK).
    - subst ev. apply A. exact (in_map event_id _ _ HR). }
  (* what one of them does *)
  assert (DO : forall t n, op_node h1 t n -> n_inputs n = [Incoming s false 0] -> needed h1 (rq_targets q) t ->
     (In (Skipped t) (oc_log oc) /\ exists e, st s = Some (inr e)) \/
     (~ In (Skipped t) (oc_log oc) /\ exists v ys, st s = Some (inl (v :: ys)) /\ In (Ran t [NonVar v]) (oc_log oc))).
  { intros t n Hn Hi HD. destruct (EV t HD) as [[xs HR]|HK].
    - right. split; [eapply NOTBOTH; exact HR|]. destruct (ran_reads _ _ _ _ _ _ _ _ _ EX _ _ HR) as (n' & N' & F).
      rewrite (op_node_eq _ _ _ _ N' (proj1 Hn)), Hi in F. inversion F as [|? x ? l G F']; subst. inversion F'; subst.
      destruct (G Cs1) as (ys & v & A & B & ->). cbn [in_id in_sel] in A, B. destruct ys as [|y ys]; [discriminate|]. injection B as ->. eauto.
    - left. split; [exact HK|]. destruct (skipped_result _ _ _ _ _ _ _ _ _ EX _ HK) as (n' & inc & e & N' & Q & E1 & E2).
      rewrite (op_node_eq _ _ _ _ N' (proj1 Hn)), Hi in Q. destruct Q as [<-|[]]. exists e. exact E1. }
  assert (VAL : forall t n a, op_node h1 t n -> In (t, inl a) (combine (rq_targets q) (oc_results oc)) ->
     exists ys, st t = Some (inl (a :: ys)) /\ needed h1 (rq_targets q) t).
  { intros t n a Hn HI. destruct (target_computed _ _ _ _ _ _ _ _ _ _ FT HI Hn) as (ys & A & B). exists ys. split; [exact A|].
    split; [exists n; exact Hn|]. exists t. split; [exact B|apply rt_refl]. }
  assert (RES : forall t n v a ys, op_node h1 t n -> n_op n = SRandom k r -> In (Ran t [NonVar v]) (oc_log oc) -> st t = Some (inl (a :: ys)) ->
     exists r', drawn dist uniform k r v = Some (a, r')).
  { intros t n v a ys Hn Ho HR HS. destruct (ran_result _ _ _ _ _ _ _ _ _ EX _ _ HR) as (n' & ws & ys' & e & N' & HC & _ & HS').
    rewrite (op_node_eq _ _ _ _ N' (proj1 Hn)), Ho in HC. cbn [sample_compute opin_val] in HC. destruct (drawn dist uniform k r v) as [[a' r']|]; [|discriminate].
    injection HC as <- <- <-. rewrite HS in HS'. injection HS' as -> _. eauto. }
  intros [|j] q' oc' a1 a2 Q1 Q2 P1 P2; cbn [nth_error] in Q1, Q2.
  - injection Q1 as <-. injection Q2 as <-.
    destruct (VAL _ _ _ N1 P1) as (ys1 & V1 & D1). destruct (VAL _ _ _ N2 P2) as (ys2 & V2 & D2).
    destruct (DO _ _ N1 I1 D1) as [(SK & _)|(_ & v1 & l1 & E1 & R1)].
    { destruct (skipped_result _ _ _ _ _ _ _ _ _ EX _ SK) as (? & ? & e & _ & _ & _ & Q). congruence. }
    destruct (DO _ _ N2 I2 D2) as [(SK & _)|(_ & v2 & l2 & E2 & R2)].
    { destruct (skipped_result _ _ _ _ _ _ _ _ _ EX _ SK) as (? & ? & e & _ & _ & _ & Q). congruence. }
    assert (EV' : v2 = v1) by congruence. subst v2.
    destruct (RES _ _ _ _ _ N1 O1 R1 V1) as (r1 & X1). destruct (RES _ _ _ _ _ N2 O2 R2 V2) as (r2 & X2). congruence.
  - assert (ST : exists r', n_op m1 = SRandom k r' /\ n_op m2 = SRandom k r').
    { destruct (in_dec Nat.eq_dec t1 (map event_id (oc_log oc))) as [Y|N].
      - apply NEED in Y. pose proof (proj1 H0 Y) as Y2.
        destruct (DO _ _ N1 I1 Y) as [(SK1 & e1 & E1)|(K1 & v1 & l1 & E1 & R1)], (DO _ _ N2 I2 Y2) as [(SK2 & e2 & E2)|(K2 & v2 & l2 & E2 & R2)]; try congruence.
        + exists r. pose proof (proj1 M1) as Q3. pose proof (proj1 M2) as Q4. rewrite (NOT1 (or_intror SK1)) in Q3. rewrite (NOT2 (or_intror SK2)) in Q4. injection Q3 as <-. injection Q4 as <-. auto.
        + assert (EV' : v2 = v1) by congruence. subst v2.
          pose proof (moved_ran dist uniform _ _ _ NDl R1 h1) as Z1. pose proof (moved_ran dist uniform _ _ _ NDl R2 h1) as Z2.
          rewrite (proj1 M1), (proj1 N1) in Z1. rewrite (proj1 M2), (proj1 N2) in Z2. injection Z1 as ->. injection Z2 as ->.
          cbn [with_op n_op]. rewrite O1, O2. cbn [moved opin_val]. destruct (drawn dist uniform k r v1) as [[a r']|]; eauto.
      - exists r. assert (X1 : ~ needed h1 (rq_targets q) t1) by (intros Q; apply N, NEED; exact Q).
        assert (X2 : ~ needed h1 (rq_targets q) t2) by (intros Q; apply X1, H0; exact Q).
        pose proof (proj1 M1) as Q3. pose proof (proj1 M2) as Q4. rewrite (NOT1 (or_introl X1)) in Q3. rewrite (NOT2 (or_introl X2)) in Q4. injection Q3 as <-. injection Q4 as <-. auto. }
    destruct ST as (r' & O1' & O2').
    assert (Csm : computed (moved_graph dist uniform h1 (oc_log oc)) s).
    { destruct Cs1 as (ns & C). destruct (same_op_node _ _ _ _ SM C) as (ms & M & _). exists ms. exact M. }
    refine (IH _ _ _ r' m1 m2 O1' O2' (eq_trans (eq_sym SI1) I1) (eq_trans (eq_sym SI2) I2) M1 M2 Csm (legal_same qs _ _ SM L) Hs _ j q' oc' a1 a2 Q1 Q2 P1 P2).
    intros i p Hp. specialize (HN (S i) p Hp). pose proof (tensors_next h (moved_graph dist uniform h1 (oc_log oc)) q qs i SM) as TN.
    split; intros X; apply (same_needed _ _ _ _ TN), HN; exact (same_needed _ _ _ _ (same_sym _ _ TN) X).
Qed.
Print Assumptions C79_default_generators_repeat.

(** The first samples of a tensor made without a generator are the same in every graph,
    e.g. in every epoch of a training loop that builds its graph anew
    (examples/sine.rs:22-25): arrays of one shape are equal, of two arrays the shorter
    one is the beginning of the other. *)
Lemma first_result (Rng Op Err : Type) (dist : distribution -> option (Rng -> R * Rng)) (uniform : Rng -> R * Rng)
    (other : Op -> list (opin (arr R)) -> cout (arr R) Err) (debug : bool) (fuel : nat) (r0 : Rng) (d : Rng -> R * Rng)
    (g g1 rest g' : graph (sop Rng Op)) (q : request Rng Op) (qs : list (request Rng Op)) (oc : @outcome (arr R) Err) (ocs : list (@outcome (arr R) Err))
    (s t : nat) (k : random_op) (a : arr R) :
  random r0 g s k = Some (g1, t) -> draws_by dist uniform k d ->
  legal (g1 ++ rest) (q :: qs) -> session dist uniform other debug fuel (g1 ++ rest) (q :: qs) = Ok (oc :: ocs, g') ->
  In (t, inl a) (combine (rq_targets q) (oc_results oc)) -> samples d r0 0 (a_shape a) a.
Proof.
  intros B D L S HI. unfold random, random_rng in B. apply build_spec in B. destruct B as (T1 & _ & G1).
  match type of G1 with _ = g ++ [?n] => set (n1 := n) in * end.
  assert (N1 : op_node (g1 ++ rest) t n1).
  { subst. split; [|split; reflexivity]. apply nth_app_l. rewrite nth_error_app2, Nat.sub_diag by lia. reflexivity. }
  destruct (C79_stream Rng Op Err dist uniform other debug fuel (q :: qs) (g1 ++ rest) g' (oc :: ocs) t n1 (Incoming s false 0) k d r0 L S N1 eq_refl eq_refl D)
    as (_ & sizes & Hl & K & _).
  destruct sizes as [|size sizes]; [discriminate|].
  destruct (K 0%nat q oc size eq_refl eq_refl eq_refl) as (K1 & _). rewrite tensors_first in K1. clear K.
  cbn [session] in S. destruct L as (W & I & L).
  destruct (eval _ _ _ _ _ _ _ _) as [oc1| |] eqn:He; try discriminate.
  destruct (session _ _ _ _ _ _ _) as [[ocs1 g2]| |] eqn:Hs; try discriminate. injection S as -> _ _.
  apply (op_node_app _ (rq_more q)) in N1. 
  destruct (eval_events _ _ _ _ _ _ _ _ _ W I He) as (st & EX & FT & EV).
  destruct (target_computed _ _ _ _ _ _ _ _ _ _ FT HI N1) as (ys & A & P).
  assert (ND : needed ((g1 ++ rest) ++ rq_more q) (rq_targets q) t).
  { split; [exists n1; exact N1|]. exists t. split; [exact P|apply rt_refl]. }
  destruct (K1 ND) as (x & sh & b & _ & _ & _ & Sm & V & _).
  { intros SK. destruct (skipped_result _ _ _ _ _ _ _ _ _ EX _ SK) as (? & ? & e & _ & _ & _ & Q). congruence. }
  destruct (In_nth_error _ _ HI) as (p & Hp).
  assert (Q : inl a = inl b :> arr R + Err).
  { apply (V p (inl a)).
    - clear -Hp. revert p Hp. generalize (oc_results oc). induction (rq_targets q) as [|y l IH]; intros [|v m] [|p] H; try discriminate; cbn in H |- *; [congruence|eapply IH; exact H].
    - clear -Hp. revert p Hp. generalize (oc_results oc). induction (rq_targets q) as [|y l IH]; intros [|v m] [|p] H; try discriminate; cbn in H |- *; [congruence|eapply IH; exact H]. }
  injection Q as <-. cbn [firstn total fold_right] in Sm. destruct Sm as (E1 & E2 & E3). split; [reflexivity|]. rewrite E1. split; [exact E2|exact E3].
Qed.
Lemma lists_equal {A} (l m : list A) : (forall i, nth_error l i = nth_error m i) -> l = m.
Proof.
  revert m. induction l as [|x l IH]; intros [|y m] H; [reflexivity|specialize (H 0%nat); discriminate|specialize (H 0%nat); discriminate|].
  f_equal; [specialize (H 0%nat); cbn in H; congruence|apply IH; intros i; exact (H (S i))].
Qed.
Theorem C79_epochs_repeat :
  forall (Rng Op Err : Type) (dist : distribution -> option (Rng -> R * Rng)) (uniform : Rng -> R * Rng)
    (other : Op -> list (opin (arr R)) -> cout (arr R) Err) (debug : bool) (fuel fuel' : nat) (default_rng : Rng) (d : Rng -> R * Rng)
    (g g1 rest g' h h1 rest' h' : graph (sop Rng Op)) (q q' : request Rng Op) (qs qs' : list (request Rng Op))
    (oc oc' : @outcome (arr R) Err) (ocs ocs' : list (@outcome (arr R) Err)) (s t s' t' : nat) (k : random_op) (a a' : arr R),
  draws_by dist uniform k d ->
  random default_rng g s k = Some (g1, t) -> random default_rng h s' k = Some (h1, t') ->
  legal (g1 ++ rest) (q :: qs) -> session dist uniform other debug fuel (g1 ++ rest) (q :: qs) = Ok (oc :: ocs, g') ->
  legal (h1 ++ rest') (q' :: qs') -> session dist uniform other debug fuel' (h1 ++ rest') (q' :: qs') = Ok (oc' :: ocs', h') ->
  In (t, inl a) (combine (rq_targets q) (oc_results oc)) -> In (t', inl a') (combine (rq_targets q') (oc_results oc')) ->
  (a_shape a = a_shape a' -> a = a') /\
  (forall i, (i < length (a_data a))%nat -> (i < length (a_data a'))%nat -> nth_error (a_data a) i = nth_error (a_data a') i).
Proof.
  intros Rng Op Err dist uniform other debug fuel fuel' r0 d g g1 rest g' h h1 rest' h' q q' qs qs' oc oc' ocs ocs' s t s' t' k a a' D B B' L S L' S' HI HI'.
  pose proof (first_result _ _ _ _ _ _ _ _ _ _ _ _ _ _ _ _ _ _ _ _ _ _ B D L S HI) as (_ & A2 & A3).
  pose proof (first_result _ _ _ _ _ _ _ _ _ _ _ _ _ _ _ _ _ _ _ _ _ _ B' D L' S' HI') as (_ & A2' & A3').
  assert (P : forall i, (i < length (a_data a))%nat -> (i < length (a_data a'))%nat -> nth_error (a_data a) i = nth_error (a_data a') i).
  { intros i H1 H2. rewrite A3, A3' by lia. reflexivity. }
  split; [|exact P]. intros E. destruct a as [sh l], a' as [sh' l']. cbn [a_shape a_data] in *. subst sh'. f_equal. apply lists_equal. intros i.
  destruct (Nat.lt_ge_cases i (length l)) as [Y|Y]; [apply P; lia|].
  rewrite (proj2 (nth_error_None l i)) by lia. rewrite (proj2 (nth_error_None l' i)) by lia. reflexivity.
Qed.
Print Assumptions C79_epochs_repeat.

(** A shape, two random tensors with the generator 1/4, 3/4, 1/4, ..., and a tensor
    that needs neither; evaluated three times. *)
Definition flip (b : bool) : R * bool := if b then (3 / 4, false) else (1 / 4, true).
Definition no_dist (d : distribution) : option (bool -> R * bool) := None.
Definition const_op (a : arr R) (ins : list (opin (arr R))) : cout (arr R) unit := CRet [] [a] None.
Definition const_node (a : arr R) : node (sop bool (arr R)) := Node (SOther a) [] 0 None None true None None None.
Definition base_graph : graph (sop bool (arr R)) := [const_node (Arr [1%nat] [3]); const_node (Arr [] [7])].
Definition one_random : graph (sop bool (arr R)) :=
  match random false base_graph 0 StandardUniform with Some (g, _) => g | None => [] end.
Definition two_random : graph (sop bool (arr R)) :=
  match random false one_random 0 StandardUniform with Some (g, _) => g | None => [] end.
Definition ask (targets : list nat) : request bool (arr R) := Request [] [] targets [].
Example C79_hypotheses_met :
  computed base_graph 0 /\ random false base_graph 0 StandardUniform = Some (one_random, 2%nat) /\
  random false (one_random ++ []) 0 StandardUniform = Some (two_random, 3%nat) /\
  draws_by no_dist flip StandardUniform flip /\
  legal (two_random ++ []) [ask [2; 3]; ask [1]; ask [3; 2]]%nat /\
  exists ocs g', session no_dist flip const_op true 30 (two_random ++ []) [ask [2; 3]; ask [1]; ask [3; 2]]%nat = Ok (ocs, g') /\
    map oc_results ocs =
      [[inl (Arr [3%nat] [1 / 4; 3 / 4; 1 / 4]); inl (Arr [3%nat] [1 / 4; 3 / 4; 1 / 4])];
       [inl (Arr [] [7])];
       [inl (Arr [3%nat] [3 / 4; 1 / 4; 3 / 4]); inl (Arr [3%nat] [3 / 4; 1 / 4; 3 / 4])]].
Proof.
  split; [|split; [|split; [|split; [|split]]]].
  - eexists. repeat split.
  - reflexivity.
  - reflexivity.
  - constructor.
  - assert (W : wf_graph (two_random ++ [])).
    { apply wf_graph_intro.
      - intros [|[|[|[|i]]]] n inc H Hin; try (simpl in H; injection H as <-; simpl in Hin;
          repeat (destruct Hin as [Hin|Hin]; [subst inc; simpl; lia|]); destruct Hin).
        simpl in H. destruct i; discriminate.
      - intros [|[|[|[|i]]]] n H Hv; try (simpl in H; injection H as <-; try reflexivity; discriminate).
        simpl in H. destruct i; discriminate. }
    assert (I : forall l, (forall t, In t l -> (t < 4)%nat) -> in_range (two_random ++ []) l) by (intros l H t T; exact (H t T)).
    cbn [legal ask rq_more rq_targets]. rewrite !app_nil_r in *.
    repeat (split; [exact W|]; split; [apply I; intros t T; repeat (destruct T as [<-|T]; [lia|]); destruct T|]). exact Logic.I.
  - do 2 eexists. split; [cbv -[trunc IZR Rdiv]; rewrite !trunc_IZR; cbv -[IZR Rdiv]; reflexivity|reflexivity].
Qed.
(** For [C79_epochs_repeat]: another graph, built later, whose tensor has five entries. *)
Definition later_graph : graph (sop bool (arr R)) := [const_node (Arr [1%nat] [5])].
Definition later_random : graph (sop bool (arr R)) :=
  match random false later_graph 0 StandardUniform with Some (g, _) => g | None => [] end.
Example C79_epochs_hypotheses_met :
  random false later_graph 0 StandardUniform = Some (later_random, 1%nat) /\
  legal (later_random ++ []) [ask [1]]%nat /\
  exists oc g', session no_dist flip const_op true 30 (later_random ++ []) [ask [1]]%nat = Ok ([oc], g') /\
    oc_results oc = [inl (Arr [5%nat] [1 / 4; 3 / 4; 1 / 4; 3 / 4; 1 / 4])].
Proof.
  split; [reflexivity|]. split.
  - assert (W : wf_graph (later_random ++ [])).
    { apply wf_graph_intro.
      - intros [|[|i]] n inc H Hin; try (simpl in H; injection H as <-; simpl in Hin;
          repeat (destruct Hin as [Hin|Hin]; [subst inc; simpl; lia|]); destruct Hin).
        simpl in H. destruct i; discriminate.
      - intros [|[|i]] n H Hv; try (simpl in H; injection H as <-; try reflexivity; discriminate).
        simpl in H. destruct i; discriminate. }
    cbn [legal ask rq_more rq_targets]. rewrite !app_nil_r in *. split; [exact W|]. split; [|exact Logic.I].
    intros t [<-|[]]. cbv. lia.
  - do 2 eexists. split; [cbv -[trunc IZR Rdiv]; rewrite !trunc_IZR; cbv -[IZR Rdiv]; reflexivity|reflexivity].
Qed.
