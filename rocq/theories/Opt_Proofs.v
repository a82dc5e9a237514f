(** The update tensors an optimizer builds, and the effect of running them. *)
From Coq Require Import String List Arith ZArith Bool Relations Reals Lia.
Import ListNotations.
From Verif Require Import Graph_Model Eval_Model Eval_Spec Eval_Proofs Eval_Proofs2 Eval_Update Graph_Proofs Grad_Frame Var_Model Array_Model Arith_Model Opt_Model.

(** Tensor [t] stands for variable [vid]. *)
Definition var_tensor {O} (g : graph O) (t vid : nat) : Prop :=
  exists n, nth_error g t = Some n /\ n_ph n = None /\ n_var n = Some vid.
(** A variable is not a placeholder. *)
Definition vars_plain {O} (g : graph O) : Prop :=
  forall i n vid, nth_error g i = Some n -> n_var n = Some vid -> n_ph n = None.

Section Plain.
  Context {O : Type}.
  Variables (var_op ph_op ctrl_op : O) (const_op : list Z -> O).
  Notation run_cmd := (run_cmd var_op ph_op ctrl_op const_op).
  Notation run_cmds := (run_cmds var_op ph_op ctrl_op const_op).

  Lemma plain_snoc (g : graph O) n : vars_plain g -> (n_var n = None \/ n_ph n = None) -> vars_plain (g ++ [n]).
  Proof.
    intros H Hn i m vid Hm Hv. apply nth_error_snoc in Hm. destruct Hm as [[Hm _]|[_ ->]]; [eauto|].
    destruct Hn as [Hn|Hn]; congruence.
  Qed.

  Lemma run_cmd_plain c k c' r : vars_plain (c_graph c) -> run_cmd c k = Some (c', r) -> vars_plain (c_graph c').
  Proof.
    intros Hp. destruct k as [sh ins diff bp op|vid|name shape|x deps|]; simpl.
    - destruct (ids_ok (c_graph c) (map in_id ins)); [|discriminate].
      destruct (build _ _ _) as [[g' id]|] eqn:Hb; [|discriminate].
      apply build_spec in Hb. destruct Hb as (_ & _ & ->). intros H; inv H. simpl. apply plain_snoc; simpl; auto.
    - unfold variable_by_id. destruct (find_var vid (c_vars c)) as [tid|].
      + intros H; inv H. exact Hp.
      + destruct (build _ _ _) as [[g' id]|] eqn:Hb; [|discriminate].
        apply build_spec in Hb. destruct Hb as (-> & _ & ->). intros H; inv H. simpl. apply plain_snoc; simpl; auto.
    - unfold placeholder.
      destruct (match shape with [] => true | d :: _ => negb (d =? -1)%Z end).
      + destruct (build (c_graph c) new_builder (const_op shape)) as [[g1 sid]|] eqn:Hb1; [|discriminate].
        apply build_spec in Hb1. destruct Hb1 as (_ & _ & ->).
        destruct (known_shape_new shape); [|discriminate].
        destruct (build _ _ ph_op) as [[g' id]|] eqn:Hb; [|discriminate].
        apply build_spec in Hb. destruct Hb as (_ & _ & ->).
        intros H; inv H. simpl. apply plain_snoc; [apply plain_snoc|]; simpl; auto.
      + destruct (known_shape_new shape); [|discriminate].
        destruct (build _ _ ph_op) as [[g' id]|] eqn:Hb; [|discriminate].
        apply build_spec in Hb. destruct Hb as (_ & _ & ->).
        intros H; inv H. simpl. apply plain_snoc; simpl; auto.
    - destruct (_ && _); [|discriminate].
      destruct (control_dependencies _ _ _ _) as [g'|] eqn:Hc; [|discriminate]. intros H; inv H. simpl.
      unfold control_dependencies in Hc. destruct (nth_error (c_graph c) x) as [n|]; [|discriminate].
      destruct (n_inputs n) as [|i0 rest]; [discriminate|].
      destruct (build _ _ _) as [[g1 id]|] eqn:Hb; [|discriminate]. inv Hc.
      apply build_spec in Hb. destruct Hb as (_ & _ & ->).
      intros i m vid Hm Hv. rewrite update_nth_nth in Hm.
      assert (Hb' : forall b, b_var (fold_left (fun b d => append_input b d false 0) deps b) = b_var b
                           /\ b_ph (fold_left (fun b d => append_input b d false 0) deps b) = b_ph b).
      { clear. induction deps as [|d deps IH]; intros b; simpl; auto. destruct (IH (append_input b d false 0)); auto. }
      match type of Hm with context[c_graph c ++ [?a]] => assert (Hpl : vars_plain (c_graph c ++ [a])) end.
      { apply plain_snoc; auto. left. cbn [n_var]. rewrite (proj1 (Hb' _)). reflexivity. }
      destruct (i =? x)%nat; [|eauto].
      match type of Hm with option_map _ ?o = _ => destruct o as [m0|] eqn:Hm0; [|discriminate] end.
      simpl in Hm. inv Hm. rewrite redirect_var in Hv. rewrite redirect_ph. eapply Hpl; eauto.
    - intros H; inv H. simpl. intros i n vid Hn. destruct i; discriminate.
  Qed.
  Lemma run_cmds_plain ks : forall c c', vars_plain (c_graph c) -> run_cmds c ks = Some c' -> vars_plain (c_graph c').
  Proof.
    induction ks as [|k ks IH]; intros c c' Hp; simpl; [intros H; inv H; auto|].
    destruct (run_cmd c k) as [[c1 r]|] eqn:Hk; [|discriminate]. intros H. apply (IH c1); auto.
    eapply run_cmd_plain; eauto.
  Qed.
  Lemma reachable_plain ks c : run_cmds new_context ks = Some c -> vars_plain (c_graph c).
  Proof. apply run_cmds_plain. intros i n vid Hn. destruct i; discriminate. Qed.
End Plain.

Section Updates.
  Context {O : Type}.
  Variable var_op : O.
  Variable inj : opt_op -> O.
  Notation state_tensors := (state_tensors var_op).
  Notation update_node := (update_node var_op inj).
  Notation compute_updates := (compute_updates var_op inj).

  Definition good (c : context O) : Prop := ctx_ok c /\ vars_plain (c_graph c).

  (** The identifiers of a parameter's state arrays. *)
  Definition state_ids (opt : optimizer) (e : env (arr R)) (vid : nat) (sids : list nat) : Prop :=
    Forall2 (fun name sid => map_get full_name_eqb (name_to_id e) (opt_namespace opt, name) = Some sid)
            (state_names opt vid) sids.

  Lemma vt_ext (g new : graph O) t vid : var_tensor g t vid -> var_tensor (g ++ new) t vid.
  Proof. intros (n & Hn & H). exists n. split; auto. apply ext_nth. exact Hn. Qed.
  Lemma vt_lt (g : graph O) t vid : var_tensor g t vid -> t < length g.
  Proof. intros (n & Hn & _). apply nth_error_Some. congruence. Qed.

  (** Nodes added to a graph: variables. *)
  Definition only_vars (g g' : graph O) : Prop :=
    exists new, g' = g ++ new /\ forall n, In n new -> n_inputs n = [] /\ exists vid, n_var n = Some vid.

  Lemma only_vars_refl g : only_vars g g.
  Proof. exists []. rewrite app_nil_r. split; [auto|]. intros n []. Qed.
  Lemma only_vars_trans a b c : only_vars a b -> only_vars b c -> only_vars a c.
  Proof.
    intros (n1 & -> & H1) (n2 & -> & H2). exists (n1 ++ n2). rewrite app_assoc. split; auto.
    intros n Hn. apply in_app_iff in Hn. destruct Hn; auto.
  Qed.

  Lemma variable_good c vid c' t : good c -> variable_by_id var_op c vid = Some (c', t) ->
    good c' /\ only_vars (c_graph c) (c_graph c') /\ var_tensor (c_graph c') t vid.
  Proof.
    intros [Hok Hpl] H.
    assert (Hc : run_cmd var_op var_op var_op (fun _ => var_op) c (CVariable vid) = Some (c', Some t)).
    { simpl. rewrite H. reflexivity. }
    assert (Hok' : ctx_ok c') by (eapply run_cmd_ok; eauto).
    assert (Hpl' : vars_plain (c_graph c')) by (eapply run_cmd_plain; eauto).
    split; [split; auto|]. destruct (variable_tensor var_op var_op var_op (fun _ => var_op) c vid c' t Hok H) as (n & Hn & Hv & _).
    split; [|exists n; split; eauto].
    unfold variable_by_id in H. destruct (find_var vid (c_vars c)) as [tid|].
    - inv H. apply only_vars_refl.
    - destruct (build _ _ _) as [[g' id]|] eqn:Hb; [|discriminate].
      apply build_spec in Hb. destruct Hb as (-> & _ & ->). inv H. simpl. eexists. split; [reflexivity|].
      intros m [<-|[]]. simpl. eauto.
  Qed.

  Lemma state_tensors_good e ns names : forall c c' ts, good c -> state_tensors e c ns names = Some (c', ts) ->
    good c' /\ only_vars (c_graph c) (c_graph c') /\
    exists sids, Forall2 (fun name sid => map_get full_name_eqb (name_to_id e) (ns, name) = Some sid) names sids /\
                 Forall2 (var_tensor (c_graph c')) ts sids.
  Proof.
    induction names as [|name names IH]; intros c c' ts Hg; simpl.
    - intros H; inv H. split; auto. split; [apply only_vars_refl|]. exists []. split; constructor.
    - unfold variable_by_name. destruct (map_get _ _ _) as [sid|] eqn:Hm; [|discriminate].
      destruct (variable_by_id var_op c sid) as [[c1 t]|] eqn:Hv; [|discriminate].
      destruct (state_tensors e c1 ns names) as [[c2 ts']|] eqn:Hs; [|discriminate]. intros H; inv H.
      destruct (variable_good _ _ _ _ Hg Hv) as (Hg1 & Ho1 & Ht1).
      destruct (IH _ _ _ Hg1 Hs) as (Hg2 & Ho2 & sids & Hs1 & Hs2). split; auto.
      split; [eapply only_vars_trans; eauto|]. exists (sid :: sids). split; constructor; auto.
      destruct Ho2 as (new & -> & _). apply vt_ext. exact Ht1.
  Qed.

  (** The update tensor [u] of parameter tensor [p] (variable [vid], state [sids]). *)
  Definition update_tensor (g : graph O) (opt : optimizer) (p gr u : nat) (sids : list nat) : Prop :=
    exists n sts, op_node g u n /\ n_op n = inj (update_op opt) /\
      n_inputs n = Incoming p true 0 :: Incoming gr false 0 :: map (fun s => Incoming s true 0) sts /\
      Forall2 (var_tensor g) sts sids.

  Lemma fold_states sts : forall b,
    fold_left (fun b s => append_input b s true 0) sts b =
    Builder (b_shape b) (b_inputs b ++ map (fun s => Incoming s true 0) sts) (b_diff b) (b_backprop b)
            (b_known b) (b_var b) (b_ph b).
  Proof.
    induction sts as [|s sts IH]; intros b; simpl.
    - rewrite app_nil_r. destruct b; reflexivity.
    - rewrite IH. simpl. rewrite <- app_assoc. reflexivity.
  Qed.

  Lemma update_tensor_ext g new opt p gr u sids : update_tensor g opt p gr u sids -> update_tensor (g ++ new) opt p gr u sids.
  Proof.
    intros (n & sts & Hn & Hop & Hi & Hf). exists n, sts. split; [apply ext_op_node; auto|]. split; auto. split; auto.
    clear -Hf. induction Hf; constructor; auto. apply vt_ext. assumption.
  Qed.

  Lemma finish_good c gsmall opt p gr sts sids g' u :
    good c -> only_vars gsmall (c_graph c) -> p < length gsmall -> gr < length gsmall ->
    Forall2 (var_tensor (c_graph c)) sts sids ->
    build (c_graph c) (fold_left (fun b s => append_input b s true 0) sts
             (append_input (append_input new_builder p true 0) gr false 0)) (inj (update_op opt)) = Some (g', u) ->
    good (Context g' (c_vars c)) /\ length gsmall <= u /\ u < length g' /\
    (exists new, g' = gsmall ++ new /\ forall i n, length gsmall <= i -> nth_error g' i = Some n ->
       i = u \/ (n_inputs n = [] /\ exists vid, n_var n = Some vid)) /\
    update_tensor g' opt p gr u sids.
  Proof.
    intros [Hok Hpl] (new & Heq & Hnew) Hp Hgr Hs Hb. rewrite fold_states in Hb. simpl in Hb.
    apply build_spec in Hb. simpl in Hb. destruct Hb as (-> & _ & ->).
    set (nd := Node _ _ _ _ _ _ _ _ _).
    assert (Hlen : length (c_graph c) = length gsmall + length new) by (rewrite Heq, app_length; reflexivity).
    assert (Hin : forall inc, In inc (n_inputs nd) -> in_id inc < length (c_graph c)).
    { simpl. intros inc [<-|[<-|Hin]]; simpl; [lia|lia|].
      apply in_map_iff in Hin. destruct Hin as (s & <- & Hin). simpl.
      clear -Hs Hin. induction Hs as [|a b l l' Hab Hl IH]; [destruct Hin|].
      destruct Hin as [->|Hin]; auto. eapply vt_lt; eauto. }
    split; [|split; [lia|split; [rewrite app_length; simpl; lia|split]]].
    - split.
      + apply ctx_ok_snoc; auto; simpl; try discriminate; auto.
      + apply plain_snoc; auto.
    - exists (new ++ [nd]). rewrite Heq at 1. rewrite app_assoc. split; auto.
      intros i n Hi Hn. apply nth_error_snoc in Hn. destruct Hn as [[Hn Hl]|[-> _]]; [|auto].
      right. apply Hnew. rewrite Heq in Hn. rewrite nth_error_app2 in Hn by lia. eapply nth_error_In; eauto.
    - exists nd, sts. split; [|split; [reflexivity|split; [reflexivity|]]].
      + split; [|auto]. rewrite nth_error_app2, Nat.sub_diag by lia. reflexivity.
      + clearbody nd. clear -Hs. induction Hs; constructor; auto. apply vt_ext. assumption.
  Qed.

  Lemma update_node_good opt e c p gr c' u vid : good c -> var_tensor (c_graph c) p vid -> gr < length (c_graph c) ->
    update_node opt e c p gr = Some (c', u) ->
    good c' /\ length (c_graph c) <= u /\ u < length (c_graph c') /\
    (exists new, c_graph c' = c_graph c ++ new /\ forall i n, length (c_graph c) <= i -> nth_error (c_graph c') i = Some n ->
       i = u \/ (n_inputs n = [] /\ exists v, n_var n = Some v)) /\
    exists sids, state_ids opt e vid sids /\ update_tensor (c_graph c') opt p gr u sids.
  Proof.
    intros Hg Hp Hgr H. pose proof (vt_lt _ _ _ Hp) as Hlt.
    destruct opt as [alpha|alpha mu ns|lr ns|alpha eps b1 b2 ns].
    1: { unfold Opt_Model.update_node in H.
      destruct (build _ _ _) as [[g' u']|] eqn:Hb; [|discriminate]. inv H.
      destruct (finish_good c (c_graph c) (SGD alpha) p gr [] [] g' u Hg (only_vars_refl _) Hlt Hgr (Forall2_nil _) Hb)
        as (A & B & C & D & F). repeat (split; [assumption|]). exists []. split; [constructor | exact F]. }
    all: destruct Hp as (n & Hn & Hnp & Hnv);
      unfold Opt_Model.update_node in H; rewrite Hn, Hnv in H; cbv zeta in H;
      match type of H with context[Opt_Model.state_tensors ?a ?b ?c0 ?d ?f] =>
        destruct (Opt_Model.state_tensors a b c0 d f) as [[c1 sts]|] eqn:Hs; [|discriminate] end;
      destruct (build _ _ _) as [[g' u']|] eqn:Hb; [|discriminate]; inv H;
      destruct (state_tensors_good _ _ _ _ _ _ Hg Hs) as (Hg1 & Ho1 & sids & Hsi & Hst);
      destruct (finish_good c1 (c_graph c) _ p gr sts sids g' u Hg1 Ho1 Hlt Hgr Hst Hb) as (A & B & C & D & F);
      repeat (split; [assumption|]); exists sids; split; [exact Hsi | exact F].
  Qed.

  Lemma compute_updates_good opt e : forall ps gs c c' us, good c ->
    (forall p, In p ps -> exists vid, var_tensor (c_graph c) p vid) ->
    (forall gr, In gr gs -> gr < length (c_graph c)) ->
    compute_updates opt e c ps gs = Some (c', us) ->
    good c' /\ length ps = length gs /\ length us = length ps /\ NoDup us /\
    (exists new, c_graph c' = c_graph c ++ new) /\
    (forall i n, length (c_graph c) <= i -> nth_error (c_graph c') i = Some n ->
       In i us \/ (n_inputs n = [] /\ exists v, n_var n = Some v)) /\
    (forall u, In u us -> length (c_graph c) <= u) /\
    (forall k p gr u vid, nth_error ps k = Some p -> nth_error gs k = Some gr -> nth_error us k = Some u ->
       var_tensor (c_graph c) p vid ->
       exists sids, state_ids opt e vid sids /\ update_tensor (c_graph c') opt p gr u sids).
  Proof.
    induction ps as [|p ps IH]; intros [|gr gs] c c' us Hg Hps Hgs H; simpl in H; try discriminate.
    - inv H. split; auto. split; auto. split; auto. split; [constructor|].
      split; [exists []; rewrite app_nil_r; auto|]. split; [|split].
      + intros i n Hi Hn. assert (nth_error (c_graph c') i <> None) by congruence.
        apply nth_error_Some in H. lia.
      + intros u [].
      + intros [|k]; discriminate.
    - destruct (update_node opt e c p gr) as [[c1 u]|] eqn:Hu; [|discriminate].
      destruct (compute_updates opt e c1 ps gs) as [[c2 us']|] eqn:Hc; [|discriminate]. inv H.
      destruct (Hps p (or_introl eq_refl)) as (vid & Hp).
      destruct (update_node_good _ _ _ _ _ _ _ _ Hg Hp (Hgs gr (or_introl eq_refl)) Hu)
        as (Hg1 & Hu1 & Hu2 & (new1 & Hn1 & Hc1) & sids & Hsi & Hut).
      destruct (IH gs c1 c' us') as (Hg2 & Hl1 & Hl2 & Hnd & (new2 & Hn2) & Hc2 & Hus & Hall); auto.
      { intros q Hq. destruct (Hps q (or_intror Hq)) as (v & Hv). exists v. rewrite Hn1. apply vt_ext. exact Hv. }
      { intros q Hq. rewrite Hn1, app_length. specialize (Hgs q (or_intror Hq)). lia. }
      assert (Hlen : length (c_graph c) <= length (c_graph c1)) by (rewrite Hn1, app_length; lia).
      split; auto. split; [simpl; lia|]. split; [simpl; lia|]. split.
      { constructor; auto. intros Hin. apply Hus in Hin. lia. }
      split; [exists (new1 ++ new2); rewrite Hn2, Hn1, app_assoc; reflexivity|]. split; [|split].
      + intros i n Hi Hn. destruct (Nat.lt_ge_cases i (length (c_graph c1))) as [Hi1|Hi1].
        * rewrite Hn2, nth_error_app1 in Hn by auto. destruct (Hc1 i n Hi Hn) as [->|]; auto. left; left; auto.
        * destruct (Hc2 i n Hi1 Hn); auto. left; right; auto.
      + intros v [<-|Hin]; auto. apply Hus in Hin. lia.
      + intros [|k] p0 gr0 u0 vid0 Hp0 Hgr0 Hu0 Hv0; simpl in *.
        * inv Hp0. inv Hgr0. inv Hu0.
          assert (vid0 = vid).
          { destruct Hv0 as (n1 & ? & ? & ?). destruct Hp as (n2 & ? & ? & ?). congruence. }
          subst. exists sids. split; auto. rewrite Hn2. apply update_tensor_ext. exact Hut.
        * apply (Hall k p0 gr0 u0 vid0); auto. rewrite Hn1. apply vt_ext. exact Hv0.
  Qed.
End Updates.
