(** Evaluations with in-place updates: which tensors are still computed from
    the variables' values before the evaluation, and what an update leaves in
    its variables. *)
From Coq Require Import String List Arith ZArith Bool Relations Lia.
Import ListNotations.
From Verif Require Import Graph_Model Eval_Model Eval_Spec Eval_Proofs Eval_Proofs2 Eval_Order.

Section EvalUpdate.
  Context {O V E : Type}.
  Variable shape_of : V -> list nat.
  Variable compute : O -> list (opin V) -> cout V E.
  Variable debug : bool.
  Variable g : graph O.
  Variable feeds : list (ph_key * V).

  Notation op_node := (op_node g).
  Notation computed := (computed g).
  Notation reads_from := (reads_from g).
  Notation depends := (depends g).
  Notation needed := (needed g).
  Notation inplace_operand := (inplace_operand g).
  Notation updated := (updated (V := V) g).
  Notation execution := (execution shape_of compute debug g feeds).
  Notation read := (read (E := E) shape_of g feeds).
  Notation value := (value shape_of compute debug g feeds).
  Notation arg := (arg shape_of compute debug g feeds).
  Notation eval := (eval shape_of compute debug g feeds).
  Notation event := (@event V).

  (** Tensor [i] has variable [vid] among its inputs. *)
  Definition reads_var (i vid : nat) : Prop :=
    exists n inc m, nth_error g i = Some n /\ In inc (n_inputs n) /\
      nth_error g (in_id inc) = Some m /\ n_ph m = None /\ n_var m = Some vid.
  (** The operation of tensor [u] may overwrite variable [vid] in place. *)
  Definition changes (u vid : nat) : Prop :=
    exists n p, op_node u n /\ inplace_operand n p vid.
  (** Whatever tensor [i] depends on reads variables only before another tensor
      overwrites them: every overwriting tensor other than the reader and [i] itself
      depends on the reader, or only targets before one that depends on the reader
      need it. *)
  Definition comes_first (targets : list nat) (i : nat) : Prop :=
    forall j u vid, depends i j -> reads_var j vid -> needed targets u -> changes u vid ->
      u = i \/ u = j \/ runs_before g targets j u.

  Lemma reads_computed_ i j : wf_graph g -> reads_from i j -> computed i.
  Proof.
    intros [_ Hw] (n & inc & Hn & Hin & _). exists n. split; auto.
    specialize (Hw i n Hn). unfold is_variable, is_placeholder in Hw.
    destruct (n_var n); [simpl in Hw; rewrite (Hw eq_refl) in Hin; destruct Hin|].
    destruct (n_ph n); [simpl in Hw; rewrite (Hw eq_refl) in Hin; destruct Hin|]. auto.
  Qed.

  Definition ordered_log (log : list event) : Prop :=
    forall l1 ev l2, log = l1 ++ ev :: l2 ->
      forall j, reads_from (event_id ev) j -> computed j -> In j (map event_id l1).

  Lemma ordered_prefix log ev : ordered_log (log ++ [ev]) -> ordered_log log.
  Proof.
    intros H l1 e l2 ->. apply (H l1 e (l2 ++ [ev])). rewrite <- app_assoc. reflexivity.
  Qed.
  Lemma ordered_step log : ordered_log log -> forall i j, reads_from i j -> computed j ->
    In i (map event_id log) -> In j (map event_id log).
  Proof.
    intros H i j Hij Hj Hi. apply in_map_iff in Hi. destruct Hi as (ev & <- & Hev).
    apply in_split in Hev. destruct Hev as (l1 & l2 & ->).
    specialize (H _ _ _ eq_refl j Hij Hj). rewrite map_app, in_app_iff. auto.
  Qed.
  Lemma ordered_closed log : wf_graph g -> ordered_log log -> forall i j, clos_trans nat reads_from i j ->
    computed j -> In i (map event_id log) -> In j (map event_id log).
  Proof.
    intros Hw H i j Hij. induction Hij as [i j Hij|i k j Hik IH1 Hkj IH2]; intros Hj Hi.
    - eapply ordered_step; eauto.
    - apply IH2; auto. apply IH1; auto.
      clear -Hw Hkj. induction Hkj as [a b Hab|a b c _ IH _ _]; [eapply reads_computed_; eauto | exact IH].
  Qed.

  (** The order of a log. *)
  Definition timely (targets : list nat) (log : list event) : Prop := ordered_log log /\ staged g targets log.
  Lemma timely_prefix targets log ev : timely targets (log ++ [ev]) -> timely targets log.
  Proof.
    intros [H1 H2]. split; [eapply ordered_prefix; eauto|].
    intros l1 e l2 ->. apply (H2 l1 e (l2 ++ [ev])). rewrite <- app_assoc. reflexivity.
  Qed.
  Lemma timely_closed targets log : wf_graph g -> timely targets log -> forall j u, runs_before g targets j u ->
    computed j -> In u (map event_id log) -> In j (map event_id log).
  Proof.
    intros Hw [H1 H2] j u [H|H] Hj Hu; [eapply ordered_closed; eauto|].
    apply in_map_iff in Hu. destruct Hu as (ev & <- & Hev). apply in_split in Hev. destruct Hev as (l1 & l2 & ->).
    specialize (H2 _ _ _ eq_refl j H Hj). rewrite map_app, in_app_iff. auto.
  Qed.

  (** A variable nobody in the log may overwrite still has its first value. *)
  Lemma unchanged env0 log s env vid : execution env0 log s env ->
    (forall u, In u (map event_id log) -> ~ changes u vid) ->
    nth_error env vid = nth_error env0 vid.
  Proof.
    intros H; induction H as [|log s env i n xs ws ys status env' H IH Hi Hn Hx Hc Hd Hu
                              |log s env i n pre inc post e H IH Hi Hn Hp Hr Hf]; intros Hno.
    - reflexivity.
    - rewrite map_app in Hno. transitivity (nth_error env vid).
      + eapply updated_other; [|exact Hu]. intros p Hp.
        apply (Hno i); [rewrite in_app_iff; simpl; auto|]. exists n, p. auto.
      + apply IH. intros u Hin. apply Hno. rewrite in_app_iff. auto.
    - apply IH. intros u Hin. apply Hno. rewrite map_app, in_app_iff. auto.
  Qed.

  Lemma reads_var_in i n inc m vid : op_node i n -> In inc (n_inputs n) ->
    nth_error g (in_id inc) = Some m -> n_ph m = None -> n_var m = Some vid -> reads_var i vid.
  Proof. intros [Hn _] Hin Hm Hp Hv. exists n, inc, m. auto. Qed.

  Lemma depends_input i n inc : op_node i n -> In inc (n_inputs n) -> depends i (in_id inc).
  Proof. intros [Hn _] Hin. apply rt_step. exists n, inc. auto. Qed.

  Lemma step_then u k j : reads_from u k -> depends k j -> clos_trans nat reads_from u j.
  Proof.
    intros Hs Hd. apply clos_rt_rtn1 in Hd. induction Hd as [|a b Hab Hd IH].
    - apply t_step. exact Hs.
    - eapply t_trans; [exact IH | apply t_step; exact Hab].
  Qed.

  Section OneRun.
    Variable targets : list nat.
    Variable env0 : list V.
    Hypothesis Hwf : wf_graph g.

    Lemma first_input i n inc : comes_first targets i -> op_node i n -> In inc (n_inputs n) ->
      comes_first targets (in_id inc).
    Proof.
      intros Hu Hn Hin j u vid Hd Hrv Hnd Hc.
      destruct (Hu j u vid) as [->|]; auto.
      - eapply rt_trans; [eapply depends_input; eauto | exact Hd].
      - right. right. left. apply step_then with (in_id inc); auto. destruct Hn as [Hn _]. exists n, inc. auto.
    Qed.

    (** One input, read when the log is closed under dependencies and the
        reader has not run. *)
    Lemma read_initial log s env i n inc x :
      execution env0 log s env -> timely targets log ->
      (forall k, In k (map event_id log) -> needed targets k) ->
      ~ In i (map event_id log) -> op_node i n -> In inc (n_inputs n) ->
      (forall u vid, reads_var i vid -> needed targets u -> changes u vid -> u = i \/ runs_before g targets i u) ->
      (forall r, s (in_id inc) = Some r -> value env0 (in_id inc) r) ->
      read s env inc x -> arg env0 inc x.
    Proof.
      intros Hex Hord Hneed Hi Hn Hin Hvar Hval Hr. destruct Hr as [m v Hm Hf|m vid v Hm Hp Hv He|m ys v Hm Hs Hy].
      - apply arg_ph with m; auto.
      - apply arg_var with m vid; auto. rewrite <- He. symmetry.
        apply (unchanged _ _ _ _ vid Hex). intros u Hu Hc.
        assert (Hc2 : u = i \/ runs_before g targets i u).
        { apply (Hvar u vid); auto. eapply reads_var_in; eauto. }
        destruct Hc2 as [->|Hc2]; [contradiction|].
        apply Hi. apply (timely_closed targets log Hwf Hord i u); auto. exists n; auto.
      - apply arg_op with m ys; auto.
    Qed.

    Lemma first_value log s env : execution env0 log s env -> timely targets log ->
      (forall k, In k (map event_id log) -> needed targets k) ->
      forall i r, comes_first targets i -> s i = Some r -> value env0 i r.
    Proof.
      intros H; induction H as [|log s env i n xs ws ys status env' H IH Hi Hn Hx Hc Hd Hu
                                |log s env i n pre inc post e H IH Hi Hn Hp Hr Hf]; intros Hord Hneed k r Hk.
      - discriminate.
      - assert (Hord' := timely_prefix _ _ _ Hord).
        assert (Hneed' : forall k, In k (map event_id log) -> needed targets k).
        { intros k' Hk'. apply Hneed. rewrite map_app, in_app_iff. auto. }
        specialize (IH Hord' Hneed'). unfold set_result. destruct (k =? i)%nat eqn:Hki; [|eauto].
        apply Nat.eqb_eq in Hki. subst k. intros Hr. inversion Hr as [Hr']. clear Hr Hr'.
        eapply value_run; eauto.
        assert (Hnot : ~ In i (map event_id log)).
        { rewrite <- (execution_stored _ _ _ _ _ _ _ _ _ H). intros Hc'. apply Hc'. exact Hi. }
        assert (Hall : forall inc x, In inc (n_inputs n) -> read s env inc x -> arg env0 inc x).
        { intros inc x Hin Hrd. eapply read_initial; eauto.
          - intros u vid Hrv Hun Hcu. destruct (Hk i u vid) as [|[|]]; auto. apply rt_refl.
          - intros r' Hr'. eapply IH; eauto. eapply first_input; eauto. }
        clear -Hx Hall. induction Hx as [|inc x l l' Hrd Hx IHx]; constructor.
        + apply Hall; [left; reflexivity | exact Hrd].
        + apply IHx. intros. apply Hall; [right|]; auto.
      - assert (Hord' := timely_prefix _ _ _ Hord).
        assert (Hneed' : forall k, In k (map event_id log) -> needed targets k).
        { intros k' Hk'. apply Hneed. rewrite map_app, in_app_iff. auto. }
        specialize (IH Hord' Hneed'). unfold set_result. destruct (k =? i)%nat eqn:Hki; [|eauto].
        apply Nat.eqb_eq in Hki. subst k. intros Hr'. inversion Hr' as [Hr'']. clear Hr' Hr''.
        assert (Hnot : ~ In i (map event_id log)).
        { rewrite <- (execution_stored _ _ _ _ _ _ _ _ _ H). intros Hc'. apply Hc'. exact Hi. }
        destruct Hf as (m & Hm & Hs).
        apply value_fail with n pre inc post m; auto.
        + intros a Ha. destruct (Hr a Ha) as [x Hx]. exists x.
          assert (Hin : In a (n_inputs n)) by (rewrite Hp, in_app_iff; auto).
          eapply read_initial; eauto.
          * intros u vid Hrv Hun Hcu. destruct (Hk i u vid) as [|[|]]; auto. apply rt_refl.
          * intros r' Hr'. eapply IH; eauto. eapply first_input; eauto.
        + eapply IH; eauto. eapply first_input; eauto. rewrite Hp. apply in_elt.
    Qed.

    (** Writes to one variable depend on its own value only. *)
    Lemma updated_local n ws e1 e1' e2 e2' vid : updated n ws e1 e1' -> updated n ws e2 e2' ->
      nth_error e1 vid = nth_error e2 vid -> nth_error e1' vid = nth_error e2' vid.
    Proof.
      intros H1; revert e2. induction H1 as [env|p v ws vid1 env env1 env2 Hp Hl Hk H1 IH|p v ws env env2 Hp H1 IH];
        intros e2 H2 Heq; inversion H2 as [|p' v' ws' vid2 ea eb ec Hp' Hl' Hk' H2'|p' v' ws' ea ec Hp' H2']; subst.
      - exact Heq.
      - apply (IH eb); auto. rewrite Hk, Hk', Heq.
        assert (Hvv : vid1 = vid2) by (eapply inplace_operand_fun; eauto). rewrite Hvv. reflexivity.
      - exfalso. eapply Hp'; eauto.
      - exfalso. eapply Hp; eauto.
      - eapply IH; eauto.
    Qed.

    Lemma update_run log s env : execution env0 log s env -> timely targets log ->
      (forall k, In k (map event_id log) -> needed targets k) ->
      forall u n xs, op_node u n -> comes_first targets u -> In (Ran u xs) log ->
      Forall2 (arg env0) (n_inputs n) xs /\
      forall ws ys status, compute (n_op n) xs = CRet ws ys status ->
      forall env1, updated n ws env0 env1 ->
      forall vid, (forall u', needed targets u' -> changes u' vid -> u' = u) ->
        nth_error env vid = nth_error env1 vid.
    Proof.
      intros H; induction H as [|log s env i n xs ws ys status env' H IH Hi Hn Hx Hc Hd Hu
                                |log s env i n pre inc post e H IH Hi Hn Hp Hr Hf]; intros Hord Hneed u m us Hm Hfirst Hin.
      - destruct Hin.
      - assert (Hord' := timely_prefix _ _ _ Hord).
        assert (Hneed' : forall k, In k (map event_id log) -> needed targets k).
        { intros k' Hk'. apply Hneed. rewrite map_app, in_app_iff. auto. }
        assert (Hnot : ~ In i (map event_id log)).
        { rewrite <- (execution_stored _ _ _ _ _ _ _ _ _ H). intros Hc'. apply Hc'. exact Hi. }
        apply in_app_iff in Hin. destruct Hin as [Hin|[Hin|[]]].
        + destruct (IH Hord' Hneed' _ _ _ Hm Hfirst Hin) as [Ha Hb]. split; [exact Ha|].
          intros ws' ys' status' Hc' env1 Hup vid Hsole. rewrite <- (Hb _ _ _ Hc' _ Hup vid Hsole).
          eapply updated_other; [|exact Hu]. intros p Hpv.
          assert (Hiu : i = u).
          { apply Hsole. - apply Hneed. rewrite map_app, in_app_iff. simpl. auto. - exists n, p. auto. }
          subst i. apply Hnot. apply (in_map event_id) in Hin. exact Hin.
        + inv Hin. assert (m = n) by (eapply op_node_fun; eauto). subst m. split.
          * assert (Hall : forall inc x, In inc (n_inputs n) -> read s env inc x -> arg env0 inc x).
            { intros inc x Hin Hrd. eapply read_initial; eauto.
              - intros u' vid Hrv Hun Hcu. destruct (Hfirst u u' vid) as [|[|]]; auto. apply rt_refl.
              - intros r' Hr'. eapply first_value; eauto. eapply first_input; eauto. }
            clear -Hx Hall. induction Hx as [|inc x l l' Hrd Hx IHx]; constructor.
            -- apply Hall; [left; reflexivity | exact Hrd].
            -- apply IHx. intros. apply Hall; [right|]; auto.
          * intros ws' ys' status' Hc' env1 Hup vid Hsole.
            rewrite Hc in Hc'. inv Hc'. eapply updated_local; eauto.
            apply (unchanged _ _ _ _ vid H). intros u' Hin Hcu.
            assert (u' = u) by (apply Hsole; auto). subst u'. contradiction.
      - assert (Hord' := timely_prefix _ _ _ Hord).
        assert (Hneed' : forall k, In k (map event_id log) -> needed targets k).
        { intros k' Hk'. apply Hneed. rewrite map_app, in_app_iff. auto. }
        apply in_app_iff in Hin. destruct Hin as [Hin|[Hin|[]]]; [|discriminate].
        eapply IH; eauto.
    Qed.
  End OneRun.

  (** ** Whole evaluations *)

  (** A tensor that comes first has the value the variables gave it
      before the evaluation. *)
  Theorem eval_comes_first targets env0 fuel oc t y :
    wf_graph g -> in_range g targets -> eval fuel targets env0 = Ok oc ->
    forall k, nth_error targets k = Some t -> nth_error (oc_results oc) k = Some y ->
    computed t -> comes_first targets t -> tensor_value shape_of compute debug g feeds env0 t y.
  Proof.
    intros Hwf Hr He k Ht Hy Hc Hu.
    destruct (eval_sound _ _ _ _ _ _ _ _ _ Hwf Hr He) as (s & Hex & Hneed & Hord & Hres).
    assert (Htr : target_result shape_of g feeds s (oc_env oc) t y).
    { clear -Hres Ht Hy. revert k Ht Hy. induction Hres as [|a b l l' Hab Hl IH]; intros [|k] Ht Hy; try discriminate.
      - simpl in *. inv Ht. inv Hy. exact Hab.
      - apply (IH k); auto. }
    destruct Hc as (n & Hn).
    assert (Hval : forall r, s t = Some r -> value env0 t r).
    { intros r. apply (first_value targets env0 Hwf _ _ _ Hex (conj Hord (eval_staged _ _ _ _ _ _ _ Hwf _ _ Hr He))); auto. intros i Hi. apply Hneed, Hi. }
    destruct Hn as (Hn & Hnp & Hnv).
    destruct Htr as [n' vid v Hn' Hv He'|n' v Hn' Hv Hf|n' y0 ys Hn' Hs|n' e Hn' Hs].
    - congruence.
    - destruct (fed_ph _ _ _ _ _ Hf). congruence.
    - apply tv_ok with ys. auto.
    - apply tv_err. auto.
  Qed.

  (** An update whose inputs come first works on the variables' values before
      the evaluation, and leaves its writes in the variables nobody else
      overwrites. *)
  Theorem eval_update targets env0 fuel oc u n xs :
    wf_graph g -> in_range g targets -> eval fuel targets env0 = Ok oc ->
    op_node u n -> comes_first targets u -> In (Ran u xs) (oc_log oc) ->
    Forall2 (arg env0) (n_inputs n) xs /\
    forall ws ys status, compute (n_op n) xs = CRet ws ys status ->
    forall env1, updated n ws env0 env1 ->
    forall vid, (forall u', needed targets u' -> changes u' vid -> u' = u) ->
      nth_error (oc_env oc) vid = nth_error env1 vid.
  Proof.
    intros Hwf Hr He Hn Hf Hin.
    destruct (eval_sound _ _ _ _ _ _ _ _ _ Hwf Hr He) as (s & Hex & Hneed & Hord & Hres).
    eapply update_run; eauto; [exact (conj Hord (eval_staged _ _ _ _ _ _ _ Hwf _ _ Hr He))|]. intros i Hi. apply Hneed, Hi.
  Qed.

  (** Variables no needed operation may overwrite keep their values. *)
  Theorem eval_unchanged targets env0 fuel oc vid :
    wf_graph g -> in_range g targets -> eval fuel targets env0 = Ok oc ->
    (forall u, needed targets u -> ~ changes u vid) ->
    nth_error (oc_env oc) vid = nth_error env0 vid.
  Proof.
    intros Hwf Hr He Hno.
    destruct (eval_sound _ _ _ _ _ _ _ _ _ Hwf Hr He) as (s & Hex & Hneed & Hord & Hres).
    apply (unchanged _ _ _ _ vid Hex). intros u Hu. apply Hno, Hneed, Hu.
  Qed.

  (** A target that did not fail was run. *)
  Theorem eval_ran targets env0 fuel oc t k y :
    wf_graph g -> in_range g targets -> eval fuel targets env0 = Ok oc ->
    nth_error targets k = Some t -> nth_error (oc_results oc) k = Some (inl y) -> computed t ->
    exists xs, In (Ran t xs) (oc_log oc).
  Proof.
    intros Hwf Hr He Ht Hy Hc.
    destruct (eval_sound _ _ _ _ _ _ _ _ _ Hwf Hr He) as (s & Hex & Hneed & Hord & Hres).
    assert (Hin : In t (map event_id (oc_log oc))).
    { apply Hneed. split; auto. exists t. split; [eapply nth_error_In; eauto | apply rt_refl]. }
    apply in_map_iff in Hin. destruct Hin as ([t' xs|t'] & Hid & Hin); simpl in Hid; subst t'; [eauto|].
    exfalso. destruct (skipped_result _ _ _ _ _ _ _ _ _ Hex _ Hin) as (n & inc & e & Hn & _ & _ & Hs).
    assert (Htr : target_result shape_of g feeds s (oc_env oc) t (inl y)).
    { clear -Hres Ht Hy. revert k Ht Hy. induction Hres as [|a b l l' Hab Hl IH]; intros [|k] Ht Hy; try discriminate.
      - simpl in *. inv Ht. inv Hy. exact Hab.
      - apply (IH k); auto. }
    destruct Hn as (Hn & Hnp & Hnv).
    inversion Htr as [n' vid v Hn' Hv He'|n' v Hn' Hv Hf|n' y0 ys Hn' Hs'|]; subst.
    - congruence.
    - destruct (fed_ph _ _ _ _ _ Hf). congruence.
    - congruence.
  Qed.

  (** ** Evaluations in which every tensor comes first succeed *)
  Section Complete.
    Variable targets : list nat.
    Variable env0 : list V.
    Hypothesis Hwf : wf_graph g.
    Hypothesis Hfirst : forall i, needed targets i -> comes_first targets i.
    Hypothesis Hval : forall i, needed targets i -> exists r, value env0 i r.
    Notation Inv := (Inv shape_of compute debug g feeds targets env0).
    Notation collect := (collect (E := E) shape_of g feeds).
    Notation step := (step shape_of compute debug g feeds).
    Notation loop := (loop shape_of compute debug g feeds).

    Lemma collect_agree s env env' ins :
      (forall inc m vid, In inc ins -> nth_error g (in_id inc) = Some m -> n_ph m = None ->
         n_var m = Some vid -> nth_error env vid = nth_error env' vid) ->
      collect s env ins = collect s env' ins.
    Proof.
      induction ins as [|inc ins IH]; intros H; simpl; auto.
      rewrite IH by (intros; eapply H; eauto; right; auto).
      assert (Hf : fetch (E := E) shape_of g feeds s env inc = fetch shape_of g feeds s env' inc); [|rewrite Hf; reflexivity].
      unfold fetch. destruct (nth_error g (in_id inc)) as [m|] eqn:Hm; auto.
      destruct (n_ph m) eqn:Hp; auto. destruct (n_var m) as [vid|] eqn:Hv; auto.
      rewrite (H inc m vid); auto. left; auto.
    Qed.

    Lemma inv_needed st : Inv st -> forall k, In k (map event_id (rev (st_log st))) -> needed targets k.
    Proof.
      intros HI k Hk. apply (stored_log _ _ _ _ _ _ _ _ k HI) in Hk. split.
      - apply (execution_computed _ _ _ _ _ _ _ _ _ (I_exec _ _ _ _ _ _ _ _ HI)). exact Hk.
      - apply (I_reach' _ _ _ _ _ _ _ _ HI). exact Hk.
    Qed.

    Notation stage := (stage g targets).

    Lemma inv_sane st : Inv st -> stage st -> forall i r, st_store st i = Some r -> value env0 i r.
    Proof.
      intros HI HS i r Hr.
      apply (first_value targets env0 Hwf _ _ _ (I_exec _ _ _ _ _ _ _ _ HI) (conj (I_order _ _ _ _ _ _ _ _ HI) (proj1 HS)) (inv_needed st HI)); auto.
      apply Hfirst, (inv_needed st HI), (stored_log _ _ _ _ _ _ _ _ i HI). unfold stored. congruence.
    Qed.

    Lemma step_no_panic_first st : Inv st -> stage st -> step st <> Panic.
    Proof.
      intros HI HS. unfold Eval_Model.step.
      destruct (st_stack st) as [|[i b] rest] eqn:Hst; [discriminate|].
      assert (Hi : i < length g) by (apply (I_range _ _ _ _ _ _ _ _ HI i b); rewrite Hst; left; auto).
      destruct (nth_error g i) as [n|] eqn:Hn; [|apply nth_error_None in Hn; lia].
      destruct b.
      - destruct (would_not_visit n i (st_store st)) eqn:Hw; [discriminate|].
        apply (wnv_spec g) in Hw; auto. destruct Hw as [(m & Hm) Hs].
        assert (n = m) by (destruct Hm; congruence). subst m.
        destruct (I_reach _ _ _ _ _ _ _ _ HI i true) as (t & Ht & Hd); [rewrite Hst; left; auto|].
        assert (Hnd : needed targets i) by (split; [exists n; auto | eauto]).
        destruct (Hval i Hnd) as [r Hr].
        assert (Hagree : collect (st_store st) (st_env st) (n_inputs n) = collect (st_store st) env0 (n_inputs n)).
        { apply collect_agree. intros inc m vid Hin Hm' Hp Hv.
          apply (unchanged _ _ _ _ vid (I_exec _ _ _ _ _ _ _ _ HI)). intros u Hu Hc.
          assert (Hnot : ~ In i (map event_id (rev (st_log st)))).
          { rewrite <- (stored_log _ _ _ _ _ _ _ _ i HI). unfold stored. congruence. }
          destruct (Hfirst i Hnd i u vid) as [->|[->|Hc2]]; auto.
          - apply rt_refl.
          - eapply reads_var_in; eauto.
          - apply (inv_needed st HI); auto.
          - apply Hnot. apply (timely_closed targets _ Hwf (conj (I_order _ _ _ _ _ _ _ _ HI) (proj1 HS)) i u); auto. exists n; auto. }
        destruct (collect_total shape_of compute debug g feeds env0 (st_store st) i n r (inv_sane st HI HS) Hm Hr)
          as [[e He]|(xs & ws & ys & status & Hx & Hc & Hdb)].
        + intros j Hj Hcj. apply (top_ready _ _ _ _ _ _ _ _ _ _ _ HI Hst Hj Hcj).
        + unfold Eval_Model.visit. rewrite Hagree, He. discriminate.
        + unfold Eval_Model.visit. rewrite Hagree, Hx, Hc.
          destruct debug; simpl; [|discriminate]. destruct ys; [exfalso; apply Hdb; auto | discriminate].
      - destruct (push_children_total g (st_store st) (n_inputs n) ((i, true) :: rest)) as [s' ->]; [|discriminate].
        intros inc Hin. apply (proj1 Hwf i). exists n, inc. auto.
    Qed.

    Lemma loop_no_panic_first fuel st : Inv st -> stage st -> loop fuel st <> Panic.
    Proof.
      revert st; induction fuel as [|fuel IH]; intros st HI HS; simpl; [discriminate|].
      pose proof (step_no_panic_first st HI HS) as Hnp.
      destruct (step st) as [[s|]| |] eqn:Hs; try congruence. apply IH; [eapply inv_step; eauto|].
      exact (stage_step shape_of compute debug g feeds targets env0 Hwf st s HI HS Hs).
    Qed.

    Hypothesis Hac : acyclic g.

    Theorem eval_first_complete fuel rs : in_range g targets -> NoDup targets ->
      (forall t, In t targets -> computed t) ->
      Forall2 (tensor_value shape_of compute debug g feeds env0) targets rs ->
      2 * (length targets + edge_count g) < fuel ->
      exists oc, eval fuel targets env0 = Ok oc /\ oc_results oc = rs.
    Proof.
      intros Hr Hd Hcomp Hrs Hf. pose proof (inv_init shape_of compute debug g feeds targets env0 Hr) as HI.
      unfold Eval_Model.eval.
      destruct (loop_panic_or_ok shape_of compute debug g feeds targets env0 Hwf Hac fuel _ HI) as [Hl|(st & Hl & HI' & Hst)].
      { rewrite (potential_init g targets env0). exact Hf. }
      { exfalso. eapply loop_no_panic_first; eauto. apply stage_init. }
      pose proof (stage_loop shape_of compute debug g feeds targets env0 Hwf _ _ _ HI (stage_init _ _ _) Hl) as HS'.
      rewrite Hl.
      rewrite (aggregate_complete shape_of g feeds targets (st_store st) (st_store st) (st_env st) rs); auto.
      - eexists. split; reflexivity.
      - intros l1 t l2 -> _ Hin. apply NoDup_remove_2 in Hd. apply Hd. rewrite in_app_iff. auto.
      - assert (Hst' : forall t r, In t targets -> value env0 t r -> st_store st t = Some r).
        { intros t r Ht Hv.
          assert (Hnd : needed targets t) by (split; [auto|exists t; split; [auto | apply rt_refl]]).
          apply (inv_final _ _ _ _ _ _ _ Hwf _ HI' Hst) in Hnd. unfold stored in Hnd.
          destruct (st_store st t) as [r'|] eqn:Hs; [|congruence].
          f_equal. eapply value_fun; [|exact Hv]. apply (inv_sane st HI' HS'). exact Hs. }
        clear -Hrs Hst' Hcomp. induction Hrs as [|t x ts rs Hx Hl IH]; constructor.
        + destruct (Hcomp t (or_introl eq_refl)) as (n0 & Hn0).
          inversion Hx as [n vid v Hn Hv He|n v Hn Hv Hfd|y ys Hv|e Hv]; subst.
          * destruct Hn0 as (? & ? & ?). congruence.
          * destruct Hn0 as (? & ? & ?). destruct (fed_ph _ _ _ _ _ Hfd). congruence.
          * apply tr_ok with n0 ys; auto. apply Hst'; [left|]; auto.
          * apply tr_err with n0; auto. apply Hst'; [left|]; auto.
        + apply IH; [intros u Hu; apply Hcomp; right; auto | intros u r Hu; apply Hst'; right; auto].
    Qed.
  End Complete.
End EvalUpdate.
