(** Lemmas about evaluations one after the other. *)
From Coq Require Import String List Arith ZArith Bool Reals Lia Lra Relations.
Import ListNotations.
From Verif Require Import Graph_Model Graph_Proofs Eval_Model Eval_Spec Eval_Proofs Eval_Proofs2 Array_Model Array_Proofs Vjp_Spec Tens_Model Num_Model.
From Verif Require Import Rand_Model Rand_Spec Rand_Proofs Sample_Model Sample_Spec.
Local Open Scope R_scope.
Local Set Bullet Behavior "Strict Subproofs".

Section Same.
  Context {O : Type}.
  (** Two graphs that differ in their operations only. *)
  Definition same_node (n m : node O) : Prop :=
    n_inputs n = n_inputs m /\ n_ph n = n_ph m /\ n_var n = n_var m /\ n_known n = n_known m.
  Definition same_graph (g g' : graph O) : Prop := Forall2 same_node g g'.
  Lemma same_node_refl n : same_node n n.
  Proof. repeat split. Qed.
  Lemma same_refl g : same_graph g g.
  Proof. induction g; constructor; auto using same_node_refl. Qed.
  Lemma same_sym g g' : same_graph g g' -> same_graph g' g.
  Proof. intros H; induction H as [|n m g g' (A & B & C & D) H IH]; constructor; auto. repeat split; auto. Qed.
  Lemma same_trans g1 g2 g3 : same_graph g1 g2 -> same_graph g2 g3 -> same_graph g1 g3.
  Proof.
    intros H. revert g3. induction H as [|n m l l' (A & B & C & D) H IH]; intros g3 H3; inversion H3 as [|? k ? l3 (A' & B' & C' & D') H3']; subst; constructor.
    - repeat split; congruence.
    - apply IH. exact H3'.
  Qed.
  Lemma same_app g g' h : same_graph g g' -> same_graph (g ++ h) (g' ++ h).
  Proof. intros H. apply Forall2_app; [exact H|apply same_refl]. Qed.
  Lemma same_length g g' : same_graph g g' -> length g = length g'.
  Proof. induction 1; simpl; congruence. Qed.
  Lemma same_nth g g' i n : same_graph g g' -> nth_error g i = Some n -> exists m, nth_error g' i = Some m /\ same_node n m.
  Proof.
    intros H. revert i. induction H as [|a b l l' Q H IH]; intros [|i] E; try discriminate; simpl in *.
    - injection E as <-. eauto.
    - apply IH. exact E.
  Qed.
  Lemma same_op_node g g' i n : same_graph g g' -> op_node g i n -> exists m, op_node g' i m /\ same_node n m.
  Proof. intros H (A & B & C). destruct (same_nth _ _ _ _ H A) as (m & M & Q). exists m. destruct Q as (Q1 & Q2 & Q3 & Q4). repeat split; congruence. Qed.
  Lemma same_reads g g' i j : same_graph g g' -> reads_from g i j -> reads_from g' i j.
  Proof. intros H (n & inc & A & B & C). destruct (same_nth _ _ _ _ H A) as (m & M & Q & _). exists m, inc. rewrite <- Q. auto. Qed.
  Lemma same_depends g g' i j : same_graph g g' -> depends g i j -> depends g' i j.
  Proof. intros H D. induction D; [apply rt_step; eapply same_reads; eauto|apply rt_refl|eapply rt_trans; eauto]. Qed.
  Lemma same_needed g g' ts i : same_graph g g' -> needed g ts i -> needed g' ts i.
  Proof.
    intros H ((n & C) & t & T & D). destruct (same_op_node _ _ _ _ H C) as (m & M & _). split; [exists m; exact M|].
    exists t. split; auto. eapply same_depends; eauto.
  Qed.
  Lemma same_wf g g' : same_graph g g' -> wf_graph g -> wf_graph g'.
  Proof.
    intros H (A & B). split.
    - intros i j D. rewrite <- (same_length _ _ H). apply (A i j). eapply same_reads; [apply same_sym|]; eauto.
    - intros i n E V. destruct (same_nth _ _ _ _ (same_sym _ _ H) E) as (m & M & Q1 & Q2 & Q3 & Q4). rewrite Q1.
      apply (B i m M). unfold is_variable, is_placeholder in *. rewrite <- Q2, <- Q3. exact V.
  Qed.
  Lemma same_range g g' ts : same_graph g g' -> in_range g ts -> in_range g' ts.
  Proof. intros H I t T. rewrite <- (same_length _ _ H). apply I. exact T. Qed.
End Same.

Lemma nth_update {A} (l : list A) i f j : nth_error (update_nth l i f) j = if (j =? i)%nat then option_map f (nth_error l j) else nth_error l j.
Proof.
  revert i j. induction l as [|x l IH]; intros i j; simpl.
  - destruct j, (_ =? _)%nat; reflexivity.
  - destruct i as [|i], j as [|j]; simpl; auto.
Qed.

Section Sessions.
  Context {Rng Op Err : Type}.
  Variable dist : distribution -> option (Rng -> R * Rng).
  Variable uniform : Rng -> R * Rng.
  Variable other : Op -> list (opin (arr R)) -> cout (arr R) Err.
  Notation sgraph := (graph (sop Rng Op)).
  Notation compute := (sample_compute dist uniform other).
  Notation moved_graph := (moved_graph dist uniform).
  Notation moved := (moved dist uniform).

  Lemma same_update (g : sgraph) i f : same_graph g (update_nth g i (with_op f)).
  Proof.
    revert i. induction g as [|n g IH]; intros [|i]; simpl; constructor; try apply same_refl; try apply same_node_refl; [repeat split|apply IH].
  Qed.
  Lemma same_moved log : forall g : sgraph, same_graph g (moved_graph g log).
  Proof.
    induction log as [|ev log IH]; intros g; simpl; [apply same_refl|]. destruct ev as [i xs|i]; [|apply IH].
    eapply same_trans; [apply same_update|apply IH].
  Qed.
  Lemma moved_other log t : (forall xs, ~ In (Ran t xs) log) -> forall g : sgraph, nth_error (moved_graph g log) t = nth_error g t.
  Proof.
    induction log as [|ev log IH]; intros H g; [reflexivity|]. simpl. rewrite IH by (intros xs Q; apply (H xs); right; exact Q).
    destruct ev as [i xs|i]; [|reflexivity]. rewrite nth_update. destruct (Nat.eqb_spec t i); [|reflexivity].
    subst. exfalso. apply (H xs). left. reflexivity.
  Qed.
  Lemma moved_ran log t xs : NoDup (map event_id log) -> In (Ran t xs) log -> forall g : sgraph,
    nth_error (moved_graph g log) t = option_map (with_op (fun o => moved o xs)) (nth_error g t).
  Proof.
    induction log as [|ev log IH]; intros N H g; [destruct H|]. simpl in N. inversion N as [|? ? N1 N2]; subst. simpl.
    destruct H as [->|H].
    - assert (Q : forall ys, ~ In (Ran t ys) log).
      { intros ys Q. apply N1. exact (in_map event_id _ _ Q). }
      fold (moved_graph (update_nth g t (with_op (fun o => moved o xs))) log). rewrite (moved_other _ _ Q). rewrite nth_update, Nat.eqb_refl. reflexivity.
    - assert (NE : event_id ev <> t).
      { intros Q. apply N1. rewrite Q. exact (in_map event_id _ _ H). }
      specialize (IH N2 H). destruct ev as [i ys|i]; simpl in NE; [|apply IH].
      etransitivity; [apply IH|]. rewrite nth_update. destruct (Nat.eqb_spec t i); [congruence|reflexivity].
  Qed.
  Lemma legal_same qs : forall g g' : sgraph, same_graph g g' -> legal g qs -> legal g' qs.
  Proof.
    induction qs as [|q qs IH]; intros g g' H L; [exact I|]. destruct L as (A & B & C).
    pose proof (same_app _ _ (rq_more q) H) as H1. split; [eapply same_wf; eauto|]. split; [eapply same_range; eauto|]. eapply IH; eauto.
  Qed.

  (** ** Arrays of samples *)
  Lemma random_array_spec k d sh r a r' : draws_by dist uniform k d -> random_array dist uniform k sh r = Some (a, r') ->
    samples d r 0 sh a /\ r' = after d (prod sh) r.
  Proof.
    assert (GEN : forall s, gen_random_array s sh r = (a, r') -> samples s r 0 sh a /\ r' = after s (prod sh) r).
    { intros s Q. unfold gen_random_array in Q. rewrite draws_spec in Q. injection Q as <- <-. split; [|reflexivity].
      split; [reflexivity|]. split; [simpl; rewrite map_length, seq_length; reflexivity|]. intros i Hi. cbn [a_data].
      rewrite nth_error_map, nth_error_nth' with (d := 0%nat) by (rewrite seq_length; exact Hi). rewrite seq_nth by exact Hi. reflexivity. }
    intros D Q. destruct D as [m s d H|x y d H|d H| |p d H1 H2|l d H|m s d H|x s d H]; simpl in Q; unfold dist_array in Q; try rewrite H in Q;
      try (injection Q as Q; exact (GEN _ Q)).
    injection Q as Q. unfold bernoulli in Q. rewrite draws_spec, after_bernoulli in Q. injection Q as <- <-.
    assert (AF : forall n, after d n r = after uniform n r).
    { induction n as [|n IH]; simpl; [reflexivity|]. rewrite IH. apply H1. }
    split; [|symmetry; apply AF].
    split; [reflexivity|]. split; [simpl; rewrite map_length, seq_length; reflexivity|]. intros i Hi. cbn [a_data].
    rewrite nth_error_map, nth_error_nth' with (d := 0%nat) by (rewrite seq_length; exact Hi). rewrite seq_nth by exact Hi. cbn [option_map]. f_equal.
    rewrite draw_bernoulli. cbn [plus]. unfold draw. rewrite AF. destruct (H2 (after uniform i r)) as (T & F).
    destruct (Rlt_dec _ _); symmetry; auto.
  Qed.
  Lemma dims_of_spec x sh : dims_of x = Some sh -> holds_dims x sh.
  Proof.
    unfold dims_of, dims, holds_dims. generalize (a_data x) as l. intros l Q. destruct (forallb _ _) eqn:E; [|discriminate]. injection Q as <-.
    rewrite map_map. induction l as [|v l IH]; [constructor|]. simpl in E. apply andb_prop in E. destruct E as (E1 & E2). constructor; [|apply IH; exact E2].
    apply Z.leb_le in E1. unfold trunc in *. destruct (Rle_dec 0 v) as [P|P].
    - assert (B := base_Int_part v). rewrite INR_IZR_INZ, Z2Nat.id by exact E1. lra.
    - apply Rnot_le_lt in P. assert (B := base_Int_part (- v)).
      assert (Z0 : (Int_part (- v) = 0)%Z).
      { assert (Q : (0 <= Int_part (- v))%Z); [|lia]. apply Z.lt_succ_r, lt_IZR. unfold Z.succ. rewrite plus_IZR. lra. }
      rewrite Z0 in *. simpl. split; [right; split; [reflexivity|]|]; lra.
  Qed.

  Section Step.
    Variables (debug : bool) (g : sgraph) (feeds : list (ph_key * arr R)) (fuel : nat) (targets : list nat) (env : list (arr R)) (oc : @outcome (arr R) Err).
    Hypothesis W : wf_graph g.
    Hypothesis I : in_range g targets.
    Hypothesis He : eval a_shape compute debug g feeds fuel targets env = Ok oc.
    Variables (t : nat) (n : node (sop Rng Op)) (inc : incoming).
    Hypothesis Hn : op_node g t n.
    Hypothesis Hi : n_inputs n = [inc].

    (** Either the operation was executed or it was not. *)
    Lemma step_cases : (needed g targets t -> ~ In (Skipped t) (oc_log oc) ->
        exists x ws ys st, In (Ran t [x]) (oc_log oc) /\ compute (n_op n) [x] = CRet ws ys st /\
          (forall m, nth_error (moved_graph g (oc_log oc)) t = Some m -> n_op m = moved (n_op n) [x]) /\
          (st = None ->
           (forall p v, nth_error targets p = Some t -> nth_error (oc_results oc) p = Some v -> exists y l, ys = y :: l /\ v = inl y) /\
           (forall u xs m p mut sel, In (Ran u xs) (oc_log oc) -> op_node g u m -> nth_error (n_inputs m) p = Some (Incoming t mut sel) ->
              exists y, nth_error ys sel = Some y /\ nth_error xs p = Some (NonVar y)))) /\
      (~ needed g targets t \/ In (Skipped t) (oc_log oc) -> nth_error (moved_graph g (oc_log oc)) t = Some n).
    Proof.
      destruct (eval_events _ _ _ _ _ _ _ _ _ W I He) as (s & EX & FT & EV).
      destruct (eval_order a_shape compute debug g feeds W targets env fuel oc I He) as (ND & NEED & _).
      split.
      - intros Hneed NS. destruct (EV t Hneed) as [[xs HR]|HK]; [|contradiction].
        destruct (ran_reads _ _ _ _ _ _ _ _ _ EX _ _ HR) as (n' & N' & F). rewrite (op_node_eq _ _ _ _ N' (proj1 Hn)), Hi in F.
        inversion F as [|? x ? l _ F']; subst. inversion F'; subst.
        destruct (ran_result _ _ _ _ _ _ _ _ _ EX _ _ HR) as (n2 & ws & ys & st & N2 & HC & _ & HS).
        rewrite (op_node_eq _ _ _ _ N2 (proj1 Hn)) in HC.
        exists x, ws, ys, st. split; [exact HR|]. split; [exact HC|]. split; [|intros ->; split].
        + intros m M. rewrite (moved_ran _ _ _ ND HR), (proj1 Hn) in M. injection M as <-. reflexivity.
        + intros p v P V. assert (TR : target_result a_shape g feeds s (oc_env oc) t v).
          { clear -FT P V. revert p P V. induction FT as [|a b l l' H FT IH]; intros [|p] P V; try discriminate; simpl in *; [congruence|eauto]. }
          destruct Hn as (A & B & C). inversion TR as [k vid w X1 X2 X3|k w X1 X2 X3|k y l X1 X2|k e X1 X2]; subst.
          * congruence.
          * rewrite A in X1. injection X1 as <-. destruct X3 as (nm & ? & ? & ? & ? & X3 & _). congruence.
          * rewrite HS in X2. injection X2 as ->. eauto.
          * congruence.
        + intros u xs m p mut sel HU M P. destruct (ran_reads _ _ _ _ _ _ _ _ _ EX _ _ HU) as (m' & M' & FU).
          rewrite (op_node_eq _ _ _ _ M' (proj1 M)) in FU.
          assert (Q : exists y, nth_error xs p = Some y /\ gets g s (Incoming t mut sel) y).
          { clear -FU P. revert p P. induction FU as [|a b l l' H FU IH]; intros [|p] P; try discriminate; simpl in *; [injection P as ->; eauto|eauto]. }
          destruct Q as (y & Y & G). destruct G as (ys' & v & S1 & S2 & ->); [exists n; exact Hn|]. cbn [in_id in_sel] in S1, S2.
          rewrite HS in S1. injection S1 as <-. eauto.
      - intros H. rewrite moved_other; [apply Hn|]. intros xs HR.
        assert (IN : In t (map event_id (oc_log oc))) by (exact (in_map event_id _ _ HR)).
        destruct H as [H|H]; [apply H; apply NEED; exact IN|].
        destruct (skipped_result _ _ _ _ _ _ _ _ _ EX _ H) as (n1 & inc1 & e & _ & _ & S1 & S2).
        destruct (ran_result _ _ _ _ _ _ _ _ _ EX _ _ HR) as (n2 & ws & ys & st & N2 & HC & _ & HS).
        clear - ND HR H. induction (oc_log oc) as [|ev log IH]; [destruct H|]. simpl in ND. inversion ND as [|? ? N1 N2]; subst.
        destruct HR as [->|HR], H as [Q|H].
        + discriminate.
        + apply N1. exact (in_map event_id _ _ H).
        + subst ev. apply N1. exact (in_map event_id _ _ HR).
        + auto.
    Qed.
  End Step.
End Sessions.
