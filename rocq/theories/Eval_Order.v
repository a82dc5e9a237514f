(** The order of an evaluation: the last target is finished first, so whatever it
    depends on has run before anything that only earlier targets need. *)
From Coq Require Import String List Arith ZArith Bool Relations Lia.
Import ListNotations.
From Verif Require Import Graph_Model Eval_Model Eval_Spec Eval_Proofs Eval_Proofs2.

Section Order.
  Context {O V E : Type}.
  Variable shape_of : V -> list nat.
  Variable compute : O -> list (opin V) -> cout V E.
  Variable debug : bool.
  Variable g : graph O.
  Variable feeds : list (ph_key * V).
  Notation computed := (computed g).
  Notation reads_from := (reads_from g).
  Notation depends := (depends g).
  Notation eval := (eval shape_of compute debug g feeds).
  Notation event := (@event V).
  Notation step := (step shape_of compute debug g feeds).
  Notation loop := (loop shape_of compute debug g feeds).
  Variable targets : list nat.
  Variable env0 : list V.
  Notation Inv := (Inv shape_of compute debug g feeds targets env0).

  (** Target [b] depends on [j], and no target from [b] on depends on [u]. *)
  Definition earlier_target (j u : nat) : Prop :=
    exists b t, nth_error targets b = Some t /\ depends t j /\
      forall d t', b <= d -> nth_error targets d = Some t' -> ~ depends t' u.
  (** In every evaluation of the targets in which [u] runs, [j] runs before it. *)
  Definition runs_before (j u : nat) : Prop := clos_trans nat reads_from u j \/ earlier_target j u.

  Definition staged (log : list event) : Prop :=
    forall l1 ev l2, log = l1 ++ ev :: l2 ->
      forall j, earlier_target j (event_id ev) -> computed j -> In j (map event_id l1).

  (** What the stack looks like: the targets before [a] wait below the entries for
      target [a]; the targets after [a] are finished. *)
  Definition stage (st : @state V E) : Prop :=
    staged (rev (st_log st)) /\
    exists a above, a <= length targets /\ st_stack st = above ++ rev (map (fun t => (t, false)) (firstn a targets)) /\
      (forall i b, In (i, b) above -> exists t, nth_error targets a = Some t /\ depends t i) /\
      (forall d t, a < d -> nth_error targets d = Some t -> computed t -> stored st t) /\
      (forall t, nth_error targets a = Some t -> computed t -> stored st t \/ exists b, In (t, b) above).

  Hypothesis Hwf : wf_graph g.

  Lemma stage_init : stage (init_state targets env0).
  Proof.
    split.
    - intros l1 ev l2 H. destruct l1; discriminate.
    - exists (length targets), []. split; [lia|]. split; [cbn; rewrite firstn_all; reflexivity|]. split; [intros i b []|].
      split; intros; exfalso.
      + assert (d < length targets) by (apply nth_error_Some; congruence). lia.
      + assert (length targets < length targets) by (apply nth_error_Some; congruence). lia.
  Qed.

  (** The entry on top belongs to the current target. *)
  Lemma stage_top st i b rest : stage st -> st_stack st = (i, b) :: rest ->
    exists a above t, a <= length targets /\ rest = above ++ rev (map (fun t => (t, false)) (firstn a targets)) /\
      nth_error targets a = Some t /\ depends t i /\
      (forall i b, In (i, b) above -> depends t i) /\
      (forall d t, a < d -> nth_error targets d = Some t -> computed t -> stored st t) /\
      (computed t -> stored st t \/ exists b', In (t, b') ((i, b) :: above)).
  Proof.
    intros (_ & a & above & Hle & Hs & H1 & H2 & H3) Ht. rewrite Ht in Hs. destruct above as [|[i' b'] above].
    - (* the previous target is finished *)
      destruct a as [|a]; [discriminate|]. cbn [app] in Hs.
      destruct (nth_error targets a) as [t|] eqn:Ha.
      + assert (Hf : firstn (S a) targets = firstn a targets ++ [t]).
        { clear -Ha. revert a Ha. induction targets as [|x l IH]; intros [|a] Ha; try discriminate; cbn in *; [congruence|]. f_equal. auto. }
        rewrite Hf, map_app, rev_app_distr in Hs. cbn [map rev app] in Hs. injection Hs as -> -> ->.
        exists a, [], t. split; [lia|]. split; [reflexivity|]. split; [exact Ha|]. split; [apply rt_refl|]. split; [intros j b' []|]. split.
        * intros d t' Hd Ht' Hc. destruct (Nat.eq_dec d (S a)) as [->|Hne].
          -- destruct (H3 t' Ht' Hc) as [Hst|(b' & [])]. exact Hst.
          -- apply (H2 d); auto. lia.
        * intros _. right. exists false. left. reflexivity.
      + exfalso. apply nth_error_None in Ha. lia.
    - cbn [app] in Hs. injection Hs as -> -> ->. destruct (H1 i' b' (or_introl eq_refl)) as (t & Ha & Hd).
      exists a, above, t. split; [exact Hle|]. split; [reflexivity|]. split; [exact Ha|]. split; [exact Hd|]. split.
      { intros j b Hj. destruct (H1 j b (or_intror Hj)) as (t' & Ha' & Hd'). congruence. }
      split; [exact H2|]. intros Hc. exact (H3 t Ha Hc).
  Qed.

  Lemma depends_computed t j : depends t j -> computed j -> computed t.
  Proof.
    intros H Hj. apply clos_rt_rt1n in H. inversion H as [|x y Hxy _]; subst; [exact Hj|].
    exact (reads_computed g Hwf t x Hxy).
  Qed.
  Lemma stored_depends st t j : Inv st -> stored st t -> depends t j -> computed j -> stored st j.
  Proof.
    intros HI Ht Hd. apply clos_rt_rtn1 in Hd. induction Hd as [|a b Hab Hd IH]; intros Hc; [exact Ht|].
    apply (stored_closed shape_of compute debug g feeds targets env0 st a b HI); auto. apply IH. exact (reads_computed g Hwf a b Hab).
  Qed.

  Lemma stage_step st st' : Inv st -> stage st -> step st = Ok (Some st') -> stage st'.
  Proof.
    intros HI HS. unfold Eval_Model.step. destruct (st_stack st) as [|[i bb] rest] eqn:Hst; [discriminate|].
    destruct (stage_top st i bb rest HS Hst) as (a & above & t & Hle & -> & Ha & Hd & H1 & H2 & H3).
    destruct HS as (HL & _). destruct (nth_error g i) as [n|] eqn:Hn; [|discriminate]. destruct bb.
    - destruct (would_not_visit n i (st_store st)) eqn:Hw.
      + intros H. injection H as <-. split; [exact HL|]. exists a, above. split; [exact Hle|]. split; [reflexivity|].
        split; [intros j b Hj; exists t; eauto|]. split; [exact H2|].
        intros t' Ht' Hc. assert (t' = t) by congruence. subst t'. destruct (H3 Hc) as [Hs|(b' & [E1|Hin])]; [left; exact Hs| |right; eauto].
        injection E1 as -> <-. left. unfold stored. cbn [st_store]. intros Hnone.
        assert (Q : would_not_visit n t (st_store st) = false) by (apply (wnv_spec g n t (st_store st) Hn); auto). congruence.
      + destruct (visit _ _ _ _ _ st _ i n) as [s| |] eqn:Hv; try discriminate. intros H. injection H as <-.
        apply (wnv_spec g) in Hw; [|exact Hn]. destruct Hw as [(m & Hm) Hs].
        assert (n = m) by (destruct Hm; congruence). subst m.
        destruct (inv_visit shape_of compute debug g feeds targets env0 st i _ n s HI Hst Hm Hs Hv) as (HI' & Hst' & Hrest).
        assert (Hlog : exists ev, event_id ev = i /\ st_log s = ev :: st_log st).
        { unfold visit in Hv. destruct (collect _ _ _ _ _ _) as [|e|xs]; [discriminate| |].
          - injection Hv as <-. exists (Skipped i). split; reflexivity.
          - destruct (compute (n_op n) xs) as [|ws ys status]; [discriminate|]. destruct (debug && _); [discriminate|].
            injection Hv as <-. exists (Ran i xs). split; reflexivity. }
        destruct Hlog as (ev & Hev & Hlog). split.
        * rewrite Hlog. cbn [rev]. intros l1 e l2 Heq j He Hc. destruct l2 as [|x l2] using rev_ind.
          -- apply app_inj_tail in Heq. destruct Heq as [<- <-]. rewrite Hev in He. destruct He as (b & tb & Htb & Hdb & Hno).
             assert (Hab : a < b).
             { destruct (Nat.lt_ge_cases a b) as [Hlt|Hge]; [exact Hlt|]. exfalso. exact (Hno a t Hge Ha Hd). }
             apply (stored_log shape_of compute debug g feeds targets env0 st j HI).
             apply (stored_depends st tb j HI); auto. apply (H2 b); auto. exact (depends_computed tb j Hdb Hc).
          -- clear IHl2. rewrite app_comm_cons, app_assoc in Heq. apply app_inj_tail in Heq. destruct Heq as [Heq _].
             exact (HL l1 e l2 Heq j He Hc).
        * exists a, above. split; [exact Hle|]. split; [exact Hst'|]. split; [intros j b Hj; exists t; eauto|]. split.
          -- intros d t' Hlt Ht' Hc. apply Hrest. right. exact (H2 d t' Hlt Ht' Hc).
          -- intros t' Ht' Hc. assert (t' = t) by congruence. subst t'. destruct (H3 Hc) as [Hs'|(b' & [E1|Hin])].
             ++ left. apply Hrest. right. exact Hs'.
             ++ injection E1 as -> _. left. apply Hrest. left. reflexivity.
             ++ right. eauto.
    - destruct (push_children _ _ _) as [stack'| |] eqn:Hp; try discriminate. intros H. injection H as <-.
      destruct (push_children_spec g _ _ _ _ Hp) as (new & -> & P1 & _ & _).
      split; [exact HL|]. exists a, (new ++ (i, true) :: above). split; [exact Hle|]. split; [cbn [st_stack]; rewrite <- app_assoc; reflexivity|].
      split.
      { intros j b Hj. exists t. split; [exact Ha|]. apply in_app_or in Hj. destruct Hj as [Hj|[E1|Hj]].
        - destruct (P1 j b Hj) as (_ & _ & _ & inc & Hin & <-). eapply rt_trans; [exact Hd|]. apply rt_step. exists n, inc. auto.
        - injection E1 as <- _. exact Hd.
        - exact (H1 j b Hj). }
      split; [exact H2|]. intros t' Ht' Hc. assert (t' = t) by congruence. subst t'. destruct (H3 Hc) as [Hs'|(b' & [E1|Hin])].
      + left. exact Hs'.
      + injection E1 as -> _. right. exists true. apply in_or_app. right. left. reflexivity.
      + right. exists b'. apply in_or_app. right. right. exact Hin.
  Qed.

  Lemma stage_loop fuel st st' : Inv st -> stage st -> loop fuel st = Ok st' -> stage st'.
  Proof.
    revert st. induction fuel as [|fuel IH]; intros st HI HS; cbn [Eval_Model.loop]; [discriminate|].
    destruct (step st) as [[s|]| |] eqn:Hs; try discriminate.
    - intros H. apply (IH s); auto; [eapply inv_step; eauto|exact (stage_step st s HI HS Hs)].
    - intros H. injection H as <-. exact HS.
  Qed.

  (** Every log of an evaluation is staged. *)
  Theorem eval_staged fuel oc : in_range g targets -> eval fuel targets env0 = Ok oc -> staged (oc_log oc).
  Proof.
    intros Hr. pose proof (inv_init shape_of compute debug g feeds targets env0 Hr) as HI. unfold Eval_Model.eval.
    destruct (loop fuel (init_state targets env0)) as [st| |] eqn:Hl; try discriminate.
    destruct (aggregate _ _ _ _ _) as [rs| |] eqn:Ha; try discriminate. intros H. injection H as <-.
    exact (proj1 (stage_loop _ _ _ HI stage_init Hl)).
  Qed.
End Order.
