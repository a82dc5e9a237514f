(** Consequences for whole evaluations: order, failures, in-place updates,
    cycles, feeds. *)
From Coq Require Import String List Arith ZArith Bool Relations Lia.
Import ListNotations.
From Verif Require Import Graph_Model Eval_Model Eval_Spec Eval_Proofs.

Section EvalProofs2.
  Context {O V E : Type}.
  Variable shape_of : V -> list nat.
  Variable compute : O -> list (opin V) -> cout V E.
  Variable debug : bool.
  Variable g : graph O.
  Variable feeds : list (ph_key * V).

  Notation op_node := (op_node g).
  Notation computed := (computed g).
  Notation reads_from := (reads_from g).
  Notation depends := (depends g).
  Notation execution := (execution shape_of compute debug g feeds).
  Notation read := (read (E := E) shape_of g feeds).
  Notation event := (@event V).
  Notation eval := (eval shape_of compute debug g feeds).

  (** An operation of tensor [j] was run and returned the error [e]. *)
  Definition raised (log : list event) (j : nat) (e : E) : Prop :=
    exists n xs ws ys, In (Ran j xs) log /\ op_node j n /\ compute (n_op n) xs = CRet ws ys (Some e).

  Lemma raised_app log ev j e : raised log j e -> raised (log ++ [ev]) j e.
  Proof.
    intros (n & xs & ws & ys & Hin & H). exists n, xs, ws, ys. split; [rewrite in_app_iff; auto | exact H].
  Qed.

  Lemma failure_has_source env0 log s env : execution env0 log s env ->
    forall i e, s i = Some (inr e) -> exists j, depends i j /\ raised log j e.
  Proof.
    intros H; induction H as [|log s env i n xs ws ys status env' H IH Hi Hn Hx Hc Hd Hu
                              |log s env i n pre inc post e H IH Hi Hn Hp Hr Hf]; intros k e0; unfold set_result.
    - discriminate.
    - destruct (k =? i)%nat eqn:Hk.
      + apply Nat.eqb_eq in Hk; subst k. intros Hs. destruct status as [e|]; inv Hs.
        exists i. split; [apply rt_refl|]. exists n, xs, ws, ys. rewrite in_app_iff. simpl. auto.
      + intros Hs. destruct (IH k e0 Hs) as (j & Hd1 & Hj). exists j. split; auto. apply raised_app; auto.
    - destruct (k =? i)%nat eqn:Hk.
      + apply Nat.eqb_eq in Hk; subst k. intros Hs. inv Hs.
        destruct Hf as (m & Hm & Hsm). destruct (IH _ _ Hsm) as (j & Hd1 & Hj).
        exists j. split; [|apply raised_app; auto].
        eapply rt_trans; [apply rt_step|exact Hd1]. exists n, inc.
        destruct Hn. repeat split; auto. rewrite Hp. apply in_elt.
      + intros Hs. destruct (IH k e0 Hs) as (j & Hd1 & Hj). exists j. split; auto. apply raised_app; auto.
  Qed.

  (** A tensor that was run had only successful inputs. *)
  Lemma ran_inputs_ok env0 log s env : execution env0 log s env ->
    forall i xs, In (Ran i xs) log -> forall k, reads_from i k -> computed k ->
    exists ys, s k = Some (inl ys).
  Proof.
    intros H; induction H as [|log s env i n xs ws ys status env' H IH Hi Hn Hx Hc Hd Hu
                              |log s env i n pre inc post e H IH Hi Hn Hp Hr Hf]; intros j xj Hin k Hk Hck.
    - destruct Hin.
    - assert (Hold : forall y, s k = Some (inl y) -> exists y', set_result s i (match status with None => inl ys | Some e => inr e end) k = Some (inl y')).
      { intros y Hy. exists y. unfold set_result. destruct (k =? i)%nat eqn:Hki; auto.
        apply Nat.eqb_eq in Hki; subst. congruence. }
      apply in_app_iff in Hin. destruct Hin as [Hin|[Hin|[]]].
      + destruct (IH _ _ Hin k Hk Hck) as [y Hy]. eauto.
      + inv Hin. destruct Hk as (m & inc & Hm & Hinc & Hid). destruct Hn as [Hn Hn2].
        assert (m = n) by congruence. subst m.
        assert (Hrd : exists x, read s env inc x).
        { clear -Hx Hinc. induction Hx; [destruct Hinc|]. destruct Hinc as [->|Hinc]; eauto. }
        destruct Hrd as [x Hrd]. destruct Hck as (mk & Hmk & Hpk & Hvk). subst k.
        inversion Hrd as [n0 v0 Hn0 Hf|n0 vid v0 Hn0 Hp0 Hv0 He0|n0 ys0 v0 Hn0 Hs0 Hy0]; subst.
        * destruct (fed_ph _ _ _ _ _ Hf). congruence.
        * congruence.
        * eauto.
    - assert (Hold : forall y, s k = Some (inl y) -> exists y', set_result s i (inr e) k = Some (inl y')).
      { intros y Hy. exists y. unfold set_result. destruct (k =? i)%nat eqn:Hki; auto.
        apply Nat.eqb_eq in Hki; subst. congruence. }
      apply in_app_iff in Hin. destruct Hin as [Hin|[Hin|[]]]; [|discriminate].
      destruct (IH _ _ Hin k Hk Hck) as [y Hy]. eauto.
  Qed.

  (** The recorded result of a run tensor. *)
  Lemma ran_result env0 log s env : execution env0 log s env ->
    forall i xs, In (Ran i xs) log -> exists n ws ys status,
      op_node i n /\ compute (n_op n) xs = CRet ws ys status /\ (debug = true -> ys <> []) /\
      s i = Some (match status with None => inl ys | Some e => inr e end).
  Proof.
    intros H; induction H as [|log s env i n xs ws ys status env' H IH Hi Hn Hx Hc Hd Hu
                              |log s env i n pre inc post e H IH Hi Hn Hp Hr Hf]; intros j xj Hin.
    - destruct Hin.
    - apply in_app_iff in Hin. destruct Hin as [Hin|[Hin|[]]].
      + destruct (IH _ _ Hin) as (n1 & ws1 & ys1 & st1 & ? & ? & ? & Hs).
        exists n1, ws1, ys1, st1. repeat split; auto; try (apply H0).
        unfold set_result. destruct (j =? i)%nat eqn:Hki; auto.
        apply Nat.eqb_eq in Hki; subst. congruence.
      + inv Hin. exists n, ws, ys, status. repeat split; auto; try apply Hn.
        unfold set_result. rewrite Nat.eqb_refl. reflexivity.
    - apply in_app_iff in Hin. destruct Hin as [Hin|[Hin|[]]]; [|discriminate].
      destruct (IH _ _ Hin) as (n1 & ws1 & ys1 & st1 & ? & ? & ? & Hs).
      exists n1, ws1, ys1, st1. repeat split; auto; try (apply H0).
      unfold set_result. destruct (j =? i)%nat eqn:Hki; auto.
      apply Nat.eqb_eq in Hki; subst. congruence.
  Qed.

  Lemma skipped_result env0 log s env : execution env0 log s env ->
    forall i, In (Skipped i) log -> exists n inc e,
      op_node i n /\ In inc (n_inputs n) /\ s (in_id inc) = Some (inr e) /\ s i = Some (inr e).
  Proof.
    intros H; induction H as [|log s env i n xs ws ys status env' H IH Hi Hn Hx Hc Hd Hu
                              |log s env i n pre inc post e H IH Hi Hn Hp Hr Hf]; intros j Hin.
    - destruct Hin.
    - apply in_app_iff in Hin. destruct Hin as [Hin|[Hin|[]]]; [|discriminate].
      destruct (IH _ Hin) as (n1 & inc1 & e1 & Hn1 & Hin1 & Hs1 & Hs2).
      exists n1, inc1, e1. split; [exact Hn1|]. split; [exact Hin1|]. unfold set_result.
      split.
      + destruct (in_id inc1 =? i)%nat eqn:Hk; auto. apply Nat.eqb_eq in Hk. congruence.
      + destruct (j =? i)%nat eqn:Hk; auto. apply Nat.eqb_eq in Hk. congruence.
    - apply in_app_iff in Hin. destruct Hin as [Hin|[Hin|[]]].
      + destruct (IH _ Hin) as (n1 & inc1 & e1 & Hn1 & Hin1 & Hs1 & Hs2).
        exists n1, inc1, e1. split; [exact Hn1|]. split; [exact Hin1|]. unfold set_result.
        split.
        * destruct (in_id inc1 =? i)%nat eqn:Hk; auto. apply Nat.eqb_eq in Hk. congruence.
        * destruct (j =? i)%nat eqn:Hk; auto. apply Nat.eqb_eq in Hk. congruence.
      + inv Hin. exists n, inc, e. split; [exact Hn|]. split; [rewrite Hp; apply in_elt|].
        destruct Hf as (m & Hm & Hs). unfold set_result. rewrite Nat.eqb_refl. split; auto.
        destruct (in_id inc =? j)%nat eqn:Hk; auto.
  Qed.

  Hypothesis Hwf : wf_graph g.

  Lemma event_cases (log : list event) i : In i (map event_id log) ->
    (exists xs, In (Ran i xs) log) \/ In (Skipped i) log.
  Proof.
    intros H. apply in_map_iff in H. destruct H as (ev & Hid & Hin).
    destruct ev as [k xs|k]; simpl in Hid; subst; eauto.
  Qed.

  (** A tensor with a normal result has only dependencies with normal results. *)
  Lemma ok_deps_ok env0 log s env : execution env0 log s env ->
    forall i j, depends i j -> computed j -> forall ys, s i = Some (inl ys) -> exists ys', s j = Some (inl ys').
  Proof.
    intros H i j Hd. apply clos_rt_rt1n in Hd.
    induction Hd as [i|i k j Hik Hkj IH]; intros Hc ys Hi; [eauto|].
    assert (Hin : In i (map event_id log)).
    { apply (execution_stored _ _ _ _ _ _ _ _ _ H). congruence. }
    destruct (event_cases log i Hin) as [[xs Hr]|Hsk].
    - assert (Hck : computed k).
      { clear -Hwf Hkj Hc. apply clos_rt1n_rt, clos_rt_rt1n in Hkj.
        inversion Hkj; subst; auto. eapply reads_computed; eauto. }
      destruct (ran_inputs_ok _ _ _ _ H i xs Hr k Hik Hck) as [yk Hk].
      eapply IH; eauto.
    - destruct (skipped_result _ _ _ _ H i Hsk) as (? & ? & ? & _ & _ & _ & Hs). congruence.
  Qed.

  Lemma raised_stored env0 log s env : execution env0 log s env ->
    forall j e, raised log j e -> s j = Some (inr e).
  Proof.
    intros H j e (n & xs & ws & ys & Hin & Hn & Hc).
    destruct (ran_result _ _ _ _ H j xs Hin) as (n1 & ws1 & ys1 & st1 & Hn1 & Hc1 & _ & Hs).
    assert (n1 = n) by (destruct Hn, Hn1; congruence). subst. rewrite Hc in Hc1. inv Hc1. exact Hs.
  Qed.

  Variable targets : list nat.
  Variable env0 : list V.
  Variable fuel : nat.
  Variable oc : @outcome V E.
  Hypothesis Hrange : in_range g targets.
  Hypothesis Hev : eval fuel targets env0 = Ok oc.

  (** *** Failures *)
  Lemma eval_failures :
    (forall t x, In (t, x) (combine targets (oc_results oc)) -> computed t ->
       ((exists e, x = inr e) <-> (exists j e, depends t j /\ raised (oc_log oc) j e)) /\
       (forall e, x = inr e -> exists j, depends t j /\ raised (oc_log oc) j e)) /\
    (forall i, In (Skipped i) (oc_log oc) <->
       needed g targets i /\ exists j e, clos_trans nat reads_from i j /\ raised (oc_log oc) j e).
  Proof.
    destruct (eval_sound _ _ _ _ _ _ _ _ _ Hwf Hrange Hev) as (s & Hex & Hneed & Hord & Hres).
    assert (Hdown : forall i j e, depends i j -> raised (oc_log oc) j e -> s i <> None -> exists e', s i = Some (inr e')).
    { intros i j e Hd Hr Hs. destruct (s i) as [[ys|e']|] eqn:Hsi; try congruence; eauto.
      exfalso. destruct (ok_deps_ok _ _ _ _ Hex i j Hd) with (ys := ys) as [ys' Hj]; auto.
      - destruct Hr as (n & xs & ws & yy & _ & Hn & _). exists n; auto.
      - apply (raised_stored _ _ _ _ Hex) in Hr. congruence. }
    split.
    - intros t x Hin Hct.
      assert (Htr : target_result shape_of g feeds s (oc_env oc) t x).
      { clear -Hres Hin. induction Hres as [|a b l l' Hab Hl IH]; [destruct Hin|].
        destruct Hin as [Heq|Hin]; [inv Heq; auto | auto]. }
      assert (Ht : In t targets) by (apply in_combine_l in Hin; auto).
      assert (Hst : s t <> None).
      { apply (execution_stored _ _ _ _ _ _ _ _ _ Hex). apply Hneed. split; auto.
        exists t. split; auto. apply rt_refl. }
      destruct Hct as (m & Hm & Hp & Hv).
      split.
      + split.
        * intros [e ->]. inversion Htr as [| | |n e' Hn Hs]; subst.
          destruct (failure_has_source _ _ _ _ Hex _ _ Hs) as (j & ? & ?). eauto.
        * intros (j & e & Hd & Hr). destruct (Hdown t j e Hd Hr Hst) as [e' He'].
          inversion Htr as [n vid v Hn Hnv He|n v Hn Hnv Hf|n y ys Hn Hs|n e1 Hn Hs]; subst; try congruence.
          -- destruct (fed_ph _ _ _ _ _ Hf). congruence.
          -- eauto.
      + intros e ->. inversion Htr as [| | |n e' Hn Hs]; subst.
        apply (failure_has_source _ _ _ _ Hex _ _ Hs).
    - intros i. split.
      + intros Hi. split.
        * apply Hneed. apply in_map_iff. exists (Skipped i). auto.
        * destruct (skipped_result _ _ _ _ Hex i Hi) as (n & inc & e & Hn & Hinc & Hs & _).
          destruct (failure_has_source _ _ _ _ Hex _ _ Hs) as (j & Hd & Hr).
          exists j, e. split; auto.
          assert (Hri : reads_from i (in_id inc)) by (exists n, inc; destruct Hn; auto).
          apply clos_rt_rt1n in Hd. clear -Hri Hd.
          revert i Hri. induction Hd as [x|x y z Hxy Hyz IH]; intros i Hri; [apply t_step; auto|].
          eapply t_trans; [apply t_step; exact Hri | apply IH; auto].
      + intros (Hn & j & e & Hct & Hr). apply Hneed in Hn.
        destruct (event_cases _ _ Hn) as [[xs Hran]|Hsk]; auto. exfalso.
        apply clos_trans_t1n in Hct.
        assert (Hk : exists k, reads_from i k /\ depends k j).
        { inversion Hct as [? Hij|? ? Hik Hkj]; subst.
          - exists j. split; auto. apply rt_refl.
          - exists y. split; auto. apply clos_t1n_trans in Hkj. apply clos_trans_tn1 in Hkj.
            clear -Hkj. induction Hkj; [apply rt_step; auto | eapply rt_trans; eauto; apply rt_step; auto]. }
        destruct Hk as (k & Hik & Hkj).
        assert (Hck : computed k).
        { apply clos_rt_rt1n in Hkj. inversion Hkj; subst.
          - destruct Hr as (n & ? & ? & ? & _ & Hnn & _). exists n; auto.
          - eapply reads_computed; eauto. }
        destruct (ran_inputs_ok _ _ _ _ Hex i xs Hran k Hik Hck) as [yk Hyk].
        destruct (Hdown k j e Hkj Hr) as [e' He']; congruence.
  Qed.

  (** *** In-place updates *)
  Lemma execution_var_change e0 log s env vid : execution e0 log s env ->
    nth_error env vid <> nth_error e0 vid ->
    exists i n p xs, In (Ran i xs) log /\ op_node i n /\ inplace_operand g n p vid.
  Proof.
    intros H; induction H as [|log s env i n xs ws ys status env' H IH Hi Hn Hx Hc Hd Hu
                              |log s env i n pre inc post e H IH Hi Hn Hp Hr Hf]; intros Hne.
    - congruence.
    - assert (Hdec : (exists p, inplace_operand g n p vid) \/ (forall p, ~ inplace_operand g n p vid)).
      { clear. destruct (existsb (fun p => match write_target g (n_inputs n) p with
                     | Some w => (w =? vid)%nat | None => false end) (seq 0 (length (n_inputs n)))) eqn:Hex.
        - left. apply existsb_exists in Hex. destruct Hex as (p & _ & Hp). exists p.
          apply write_target_spec. destruct (write_target g (n_inputs n) p); [|discriminate].
          apply Nat.eqb_eq in Hp. congruence.
        - right. intros p Hp. pose proof Hp as Hp'. apply write_target_spec in Hp.
          assert (existsb (fun p => match write_target g (n_inputs n) p with
                     | Some w => (w =? vid)%nat | None => false end) (seq 0 (length (n_inputs n))) = true).
          { apply existsb_exists. exists p. split.
            - apply in_seq. destruct Hp' as (inc & m & Hnth & _).
              assert (nth_error (n_inputs n) p <> None) by congruence.
              apply nth_error_Some in H. lia.
            - rewrite Hp. apply Nat.eqb_refl. }
          congruence. }
      destruct Hdec as [[p Hp]|Hno].
      + exists i, n, p, xs. split; [rewrite in_app_iff; right; left; auto|]. auto.
      + rewrite (updated_other g n ws env env' vid Hno Hu) in Hne.
        destruct (IH Hne) as (j & m & p & xj & Hin & ?). exists j, m, p, xj.
        split; [rewrite in_app_iff; auto | auto].
    - destruct (IH Hne) as (j & m & p & xj & Hin & ?). exists j, m, p, xj.
      split; [rewrite in_app_iff; auto | auto].
  Qed.

  Lemma eval_variables :
    length (oc_env oc) = length env0 /\
    (forall vid, nth_error (oc_env oc) vid <> nth_error env0 vid ->
       exists i n p xs, In (Ran i xs) (oc_log oc) /\ op_node i n /\ inplace_operand g n p vid) /\
    (forall t n vid x, In (t, x) (combine targets (oc_results oc)) ->
       nth_error g t = Some n -> n_var n = Some vid ->
       exists v, x = inl v /\ nth_error (oc_env oc) vid = Some v).
  Proof.
    destruct (eval_sound _ _ _ _ _ _ _ _ _ Hwf Hrange Hev) as (s & Hex & Hneed & Hord & Hres).
    split; [eapply execution_env_length; eauto|]. split.
    - intros vid. eapply execution_var_change; eauto.
    - intros t n vid x Hin Hn Hv.
      assert (Htr : target_result shape_of g feeds s (oc_env oc) t x).
      { clear -Hres Hin. induction Hres as [|a b l l' Hab Hl IH]; [destruct Hin|].
        destruct Hin as [Heq|Hin]; [inv Heq; auto | auto]. }
      inversion Htr as [n' vid' v Hn' Hnv He|n' v Hn' Hnv Hf|n' y ys Hn' Hs|n' e1 Hn' Hs]; subst.
      + exists v. split; auto. congruence.
      + congruence.
      + destruct Hn' as (? & ? & ?). congruence.
      + destruct Hn' as (? & ? & ?). congruence.
  Qed.

  (** *** Order and uniqueness *)
  Lemma order_trans (log : list event) :
    (forall l1 ev l2, log = l1 ++ ev :: l2 ->
       forall j, reads_from (event_id ev) j -> computed j -> In j (map event_id l1)) ->
    forall i j, clos_trans nat reads_from i j -> computed j ->
    forall l1 ev l2, log = l1 ++ ev :: l2 -> event_id ev = i -> In j (map event_id l1).
  Proof.
    intros Hord i j Hct. apply clos_trans_t1n in Hct.
    induction Hct as [i j Hij|i k j Hik Hkj IH]; intros Hc l1 ev l2 Hl Hid.
    - subst i. eapply Hord; eauto.
    - assert (Hck : computed k).
      { inversion Hkj; subst; eapply reads_computed; eauto. }
      subst i. pose proof (Hord l1 ev l2 Hl k Hik Hck) as Hk.
      apply in_map_iff in Hk. destruct Hk as (evk & Hevk & Hin). apply in_split in Hin.
      destruct Hin as (a & b & ->).
      assert (Hin2 : In j (map event_id a)).
      { eapply IH; eauto. rewrite Hl, <- app_assoc. simpl. reflexivity. }
      rewrite map_app, in_app_iff. auto.
  Qed.

  Lemma eval_order :
    NoDup (map event_id (oc_log oc)) /\
    (forall i, In i (map event_id (oc_log oc)) <-> needed g targets i) /\
    (forall l1 ev l2, oc_log oc = l1 ++ ev :: l2 ->
       forall j, clos_trans nat reads_from (event_id ev) j -> computed j -> In j (map event_id l1)).
  Proof.
    destruct (eval_sound _ _ _ _ _ _ _ _ _ Hwf Hrange Hev) as (s & Hex & Hneed & Hord & Hres).
    split; [eapply execution_nodup; eauto|]. split; auto.
    intros l1 ev l2 Hl j Hj Hc. eapply order_trans; eauto.
  Qed.

  Lemma eval_needed_acyclic i : needed g targets i -> ~ clos_trans nat reads_from i i.
  Proof.
    intros Hn Hc. destruct eval_order as (Hnd & Hneed & Hord).
    pose proof Hn as [Hcomp _]. apply Hneed in Hn. apply in_map_iff in Hn.
    destruct Hn as (ev & Hid & Hin). apply in_split in Hin. destruct Hin as (l1 & l2 & Hl).
    rewrite <- Hid in Hc. pose proof (Hord l1 ev l2 Hl _ Hc) as Hi.
    rewrite Hid in Hi. specialize (Hi Hcomp). rewrite Hl, map_app in Hnd. simpl in Hnd.
    apply NoDup_remove_2 in Hnd. apply Hnd. rewrite Hid, in_app_iff. auto.
  Qed.
End EvalProofs2.

(** ** Statements used directly by the property files *)
Section Final.
  Context {O V E : Type}.

  Lemma eval_is_execution (shape_of : V -> list nat) (compute : O -> list (opin V) -> cout V E)
    debug (g : graph O) feeds targets env fuel oc :
    wf_graph g -> in_range g targets -> eval shape_of compute debug g feeds fuel targets env = Ok oc ->
    exists s, execution shape_of compute debug g feeds env (oc_log oc) s (oc_env oc) /\
            Forall2 (target_result shape_of g feeds s (oc_env oc)) targets (oc_results oc).
  Proof.
    intros Hwf Hr He. destruct (eval_sound _ _ _ _ _ _ _ _ _ Hwf Hr He) as (s & H1 & _ & _ & H2). eauto.
  Qed.

  Lemma eval_only_values (shape_of : V -> list nat) (compute : O -> list (opin V) -> cout V E)
    debug (g : graph O) feeds targets env (oc : @outcome V E) fuel :
    wf_graph g -> in_range g targets -> no_inplace g targets ->
    eval shape_of compute debug g feeds fuel targets env = Ok oc ->
    Forall2 (tensor_value shape_of compute debug g feeds env) targets (oc_results oc) /\
    oc_env oc = env /\
    (forall i, needed g targets i -> exists r, value shape_of compute debug g feeds env i r).
  Proof.
    intros Hwf Hr Hp He. destruct (eval_sound _ _ _ _ _ _ _ _ _ Hwf Hr He) as (s & H1 & Hn & _ & H2).
    destruct (execution_value shape_of compute debug g feeds env _ _ _ H1) as [Henv Hs].
    { intros i n p vid Hi Hnn. apply (Hp i n p vid); auto. apply Hn. exact Hi. }
    split; [|split; auto].
    - clear -H2 Hs Henv. rewrite Henv in H2. induction H2 as [|t x ts rs Hx Hl IH]; constructor; auto.
      inversion Hx as [n vid v Hn Hv Hne|n v Hn Hv Hf|n y ys Hn Hst|n e Hn Hst]; subst.
      + econstructor 1; eauto.
      + econstructor 2; eauto.
      + econstructor 3; eauto.
      + econstructor 4; eauto.
    - intros i Hi. apply Hn in Hi. apply (execution_stored _ _ _ _ _ _ _ _ _ H1) in Hi.
      destruct (s i) as [r|] eqn:Hsi; [|congruence]. exists r. apply Hs. exact Hsi.
  Qed.

  Lemma tensor_value_fun (shape_of : V -> list nat) (compute : O -> list (opin V) -> cout V E)
    debug (g : graph O) feeds env t (x y : V + E) :
    tensor_value shape_of compute debug g feeds env t x ->
    tensor_value shape_of compute debug g feeds env t y -> x = y.
  Proof.
    intros H1 H2.
    assert (Hop : forall r, value shape_of compute debug g feeds env t r -> exists n, op_node g t n).
    { intros r Hr. inversion Hr; subst; eauto. }
    inversion H1 as [n vid v Hn Hv He|n v Hn Hv Hf|a ys Hv|e Hv];
    inversion H2 as [n' vid' v' Hn' Hv' He'|n' v' Hn' Hv' Hf'|a' ys' Hv'|e' Hv']; subst;
    try (destruct (Hop _ Hv) as (m & Hm & Hpm & Hvm)); try (destruct (Hop _ Hv') as (m' & Hm' & Hpm' & Hvm'));
    try (destruct (fed_ph _ _ _ _ _ Hf)); try (destruct (fed_ph _ _ _ _ _ Hf')); try congruence.
    - f_equal. assert (n' = n) by congruence. subst. eapply fed_fun; eauto.
    - pose proof (value_fun _ _ _ _ _ _ _ _ _ Hv Hv') as Heq. inv Heq. reflexivity.
    - pose proof (value_fun _ _ _ _ _ _ _ _ _ Hv Hv') as Heq. discriminate.
    - pose proof (value_fun _ _ _ _ _ _ _ _ _ Hv Hv') as Heq. discriminate.
    - pose proof (value_fun _ _ _ _ _ _ _ _ _ Hv Hv') as Heq. inv Heq. reflexivity.
  Qed.

  Lemma in_combine_forall2 {A B} (P : A -> B -> Prop) l l' a b :
    Forall2 P l l' -> In (a, b) (combine l l') -> P a b.
  Proof.
    intros H. induction H as [|x y l l' Hxy Hl IH]; intros Hin; [destruct Hin|].
    destruct Hin as [Heq|Hin]; [inv Heq; auto | auto].
  Qed.

  Lemma eval_other_targets (shape_of : V -> list nat) (compute : O -> list (opin V) -> cout V E)
    debug (g : graph O) feeds ts1 ts2 env (oc1 oc2 : @outcome V E) fuel1 fuel2 t (x y : V + E) :
    wf_graph g -> in_range g ts1 -> in_range g ts2 -> no_inplace g ts1 -> no_inplace g ts2 ->
    eval shape_of compute debug g feeds fuel1 ts1 env = Ok oc1 ->
    eval shape_of compute debug g feeds fuel2 ts2 env = Ok oc2 ->
    In (t, x) (combine ts1 (oc_results oc1)) -> In (t, y) (combine ts2 (oc_results oc2)) -> x = y.
  Proof.
    intros Hwf Hr1 Hr2 Hp1 Hp2 He1 He2 Hi1 Hi2.
    destruct (eval_only_values _ _ _ _ _ _ _ _ _ Hwf Hr1 Hp1 He1) as (H1 & _).
    destruct (eval_only_values _ _ _ _ _ _ _ _ _ Hwf Hr2 Hp2 He2) as (H2 & _).
    exact (tensor_value_fun _ _ _ _ _ _ _ _ _ (in_combine_forall2 _ _ _ _ _ H1 Hi1)
             (in_combine_forall2 _ _ _ _ _ H2 Hi2)).
  Qed.

  Lemma debug_error_output (shape_of : V -> list nat) (compute : O -> list (opin V) -> cout V E)
    (g : graph O) feeds targets env fuel (oc : @outcome V E) :
    wf_graph g -> in_range g targets -> eval shape_of compute true g feeds fuel targets env = Ok oc ->
    forall j xs n ws ys e, In (Ran j xs) (oc_log oc) -> op_node g j n ->
      compute (n_op n) xs = CRet ws ys (Some e) -> ys <> [].
  Proof.
    intros Hwf Hr He j xs n ws ys e Hin Hn Hc.
    destruct (eval_sound _ _ _ _ _ _ _ _ _ Hwf Hr He) as (s & H1 & _).
    destruct (ran_result _ _ _ _ _ _ _ _ _ H1 j xs Hin) as (n1 & ws1 & ys1 & st1 & Hn1 & Hc1 & Hd & _).
    assert (n1 = n) by (destruct Hn, Hn1; congruence). subst. rewrite Hc in Hc1. inv Hc1. apply Hd. reflexivity.
  Qed.

  Lemma eval_placeholder (shape_of : V -> list nat) (compute : O -> list (opin V) -> cout V E)
    debug (g : graph O) feeds env t n :
    nth_error g t = Some n -> is_placeholder n = true -> n_var n = None -> n_inputs n = [] ->
    (forall v, fed shape_of feeds t n v ->
       forall fuel, 3 <= fuel ->
       eval shape_of compute debug g feeds fuel [t] env = Ok (Outcome [inl v] env [])) /\
    ((forall v, ~ fed shape_of feeds t n v) ->
       forall fuel, 3 <= fuel -> eval shape_of compute debug g feeds fuel [t] env = Panic).
  Proof.
    intros Hn Hp Hv Hi. unfold is_placeholder in Hp.
    destruct (n_ph n) as [name|] eqn:Hph; [|discriminate].
    assert (Hloop : forall fuel, 3 <= fuel -> loop shape_of compute debug g feeds fuel (init_state [t] env)
                     = Ok (State [] (fun _ => None) env [])).
    { intros fuel Hf. destruct fuel as [|[|[|fuel]]]; try lia.
      cbn [loop]. unfold step at 1. unfold init_state at 1. cbn [rev map app st_stack].
      rewrite Hn, Hi. cbn [push_children init_state st_store st_env st_log].
      cbn [loop]. unfold step at 1. cbn [st_stack]. rewrite Hn.
      unfold would_not_visit, is_placeholder. rewrite Hph. cbn [orb].
      cbn [loop]. unfold step at 1. cbn [st_stack st_store st_env st_log]. reflexivity. }
    split.
    - intros v Hf fuel Hfu. unfold eval. rewrite (Hloop fuel Hfu).
      cbn [aggregate]. rewrite Hn, Hv, Hph. apply (find_placeholder_spec shape_of feeds n name) in Hf; auto.
      rewrite Hf. reflexivity.
    - intros Hf fuel Hfu. unfold eval. rewrite (Hloop fuel Hfu).
      cbn [aggregate]. rewrite Hn, Hv, Hph.
      destruct (find_placeholder shape_of feeds t n name) as [v|] eqn:He; auto.
      exfalso. apply (Hf v). apply (find_placeholder_spec shape_of feeds n name); auto.
  Qed.

  Lemma fetch_placeholder (shape_of : V -> list nat) (g : graph O) feeds (s : @storage V E) env inc n :
    nth_error g (in_id inc) = Some n -> is_placeholder n = true ->
    (forall v, fetch shape_of g feeds s env inc = FVal (NonVar v) <-> fed shape_of feeds (in_id inc) n v) /\
    ((forall v, ~ fed shape_of feeds (in_id inc) n v) <-> fetch shape_of g feeds s env inc = FPanic).
  Proof.
    intros Hn Hp. unfold is_placeholder in Hp. destruct (n_ph n) as [name|] eqn:Hph; [|discriminate].
    unfold fetch. rewrite Hn, Hph. split.
    - intros v. rewrite <- (find_placeholder_spec shape_of feeds n name); auto.
      destruct (find_placeholder _ _ _ _ _); split; intros H; inv H; auto.
    - destruct (find_placeholder shape_of feeds (in_id inc) n name) as [v|] eqn:He; split; intros H; auto.
      + exfalso. apply (H v). apply (find_placeholder_spec shape_of feeds n name); auto.
      + discriminate.
      + intros v Hv. apply (find_placeholder_spec shape_of feeds n name) in Hv; auto. congruence.
  Qed.

  Lemma fed_other (shape_of : V -> list nat) pre post k w t (n : node O) name (v : V) :
    n_ph n = Some name -> ~ feed_matches t name k ->
    (fed shape_of (pre ++ (k, w) :: post) t n v <-> fed shape_of (pre ++ post) t n v).
  Proof.
    intros Hn Hk. rewrite <- !(find_placeholder_spec shape_of _ n name); auto.
    assert (find_placeholder shape_of (pre ++ (k, w) :: post) t n name
            = find_placeholder shape_of (pre ++ post) t n name) as ->; [|tauto].
    induction pre as [|[k0 w0] pre IH].
    - simpl app. rewrite find_placeholder_unfold.
      destruct (matchesb t name k) eqn:Hm; auto. apply matchesb_spec in Hm. contradiction.
    - simpl app. rewrite !find_placeholder_unfold, IH. reflexivity.
  Qed.

  Lemma eval_repeated_panics (shape_of : V -> list nat) (compute : O -> list (opin V) -> cout V E)
    debug (g : graph O) feeds env fuel l1 l2 l3 t :
    wf_graph g -> acyclic g -> in_range g (l1 ++ t :: l2 ++ t :: l3) -> computed g t ->
    2 * (length (l1 ++ t :: l2 ++ t :: l3) + edge_count g) < fuel ->
    eval shape_of compute debug g feeds fuel (l1 ++ t :: l2 ++ t :: l3) env = Panic.
  Proof.
    intros Hwf Hac Hr Hc Hf.
    pose proof (eval_fuel shape_of compute debug g feeds _ env fuel Hwf Hac Hr Hf) as Hne.
    unfold eval in *. destruct (loop _ _ _ _ _ _ _) as [st| |]; auto; try congruence.
    rewrite aggregate_dup; auto.
    intros Hd. apply (Hd l1 t (l2 ++ t :: l3)); auto. apply in_elt.
  Qed.

  Lemma sources_distinct (g : graph O) targets :
    (forall t, In t targets -> ~ computed g t) -> distinct_computed g targets.
  Proof. intros H l1 t l2 -> Hc. exfalso. apply (H t); auto. apply in_elt. Qed.
End Final.
