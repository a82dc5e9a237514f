(** The effect of one call of an optimizer's [update]. *)
From Coq Require Import String List Arith ZArith Bool Relations Reals Lia.
Import ListNotations.
From Verif Require Import Graph_Model Eval_Model Eval_Spec Eval_Proofs Eval_Proofs2 Eval_Order Eval_Update Graph_Proofs Grad_Frame Var_Model Array_Model Arith_Model Opt_Model Opt_Proofs.

(** [x] is the identifier of the parameter [v] or of one of its state arrays. *)
Definition operand (opt : optimizer) (e : env (arr R)) (v x : nat) : Prop :=
  x = v \/ exists sids, state_ids opt e v sids /\ In x sids.

(** What an update call takes for granted: the parameters are variables, the
    gradients are tensors of the graph that overwrite nothing and are not
    themselves updated variables, and no array belongs to two parameters. *)
Record updatable {O} (opt : optimizer) (e : env (arr R)) (g : graph O) (ps gs : list nat) : Prop := {
  u_params : forall p, In p ps -> exists vid, var_tensor g p vid;
  u_grads : forall gr, In gr gs -> gr < length g;
  u_pure : forall gr i vid, In gr gs -> depends g gr i -> ~ changes g i vid;
  u_apart : forall k l p q v w x, nth_error ps k = Some p -> nth_error ps l = Some q ->
    var_tensor g p v -> var_tensor g q w -> operand opt e v x -> operand opt e w x -> k = l;
  u_within : forall p v sids, In p ps -> var_tensor g p v -> state_ids opt e v sids -> NoDup (v :: sids);
  u_notvar : forall gr p v x, In gr gs -> In p ps -> var_tensor g p v -> operand opt e v x -> ~ var_tensor g gr x
}.

(** The parameters are updated from the last to the first.  Whatever reads one
    parameter's arrays for the gradient of a parameter listed before it is also used
    for its own gradient or for that of a parameter listed after it. *)
Definition shared_readers {O} (opt : optimizer) (e : env (arr R)) (g : graph O) (ps gs : list nat) : Prop :=
  forall k l p gr v j x, k < l -> nth_error ps l = Some p -> nth_error gs k = Some gr ->
    var_tensor g p v -> operand opt e v x -> depends g gr j -> reads_var g j x ->
    exists m gr', l <= m /\ nth_error gs m = Some gr' /\ depends g gr' j.

(** One step of an optimizer on the arrays of one parameter. *)
Definition opt_step (powf : R -> R -> R) (opt : optimizer) (p g : arr R) (sts : list (arr R))
  : option (arr R * list (arr R)) :=
  match opt, sts with
  | SGD alpha, [] => option_map (fun p' => (p', [])) (sgd_step alpha p g)
  | MomentumSGD lr mu _, [v] => option_map (fun r => (fst r, [snd r])) (momentum_step lr mu p g v)
  | AdaGrad lr _, [h] => option_map (fun r => (fst r, [snd r])) (adagrad_step lr p g h)
  | Adam alpha eps b1 b2 _, [m; v; t] =>
      option_map (fun r => match r with (p', m', v', t') => (p', [m'; v'; t']) end)
                 (adam_step powf alpha eps b1 b2 p g m v t)
  | _, _ => None
  end.

(** The writes of an update operation, by position. *)
Lemma opt_writes_step powf opt p g x sts : (x = NonVar g \/ x = RdOnly g) ->
  length sts = length (state_names opt 0) ->
  match opt_step powf opt p g sts with
  | None => opt_writes powf (update_op opt) (RdWr p :: x :: map RdWr sts) = None
  | Some (p', sts') => exists ws, opt_writes powf (update_op opt) (RdWr p :: x :: map RdWr sts) = Some ws /\
      length sts' = length sts /\ NoDup (map fst ws) /\
      (forall q v, In (q, v) ws <-> (q = 0 /\ v = p') \/ exists j, q = 2 + j /\ nth_error sts' j = Some v)
  end.
Proof.
  intros Hx Hl.
  assert (Hin : forall l, input (RdWr p :: x :: l) 1 = Some g) by (intros l; destruct Hx; subst x; reflexivity).
  destruct opt as [alpha|alpha mu ns|lr ns|alpha eps b1 b2 ns]; simpl in Hl.
  - destruct sts as [|? ?]; [|discriminate]. simpl opt_step. unfold opt_writes, update_op. rewrite Hin. simpl.
    destruct (sgd_step alpha p g) as [p'|]; simpl; [|reflexivity]. eexists. split; [reflexivity|].
    split; [reflexivity|]. split; [repeat constructor; simpl; intuition congruence|].
    intros q v. split.
    + intros [H|[]]. injection H as <- <-. auto.
    + intros [[-> ->]|(j & _ & Hj)]; [left; auto | destruct j; discriminate].
  - destruct sts as [|h [|? ?]]; try discriminate. simpl opt_step. unfold opt_writes, update_op. rewrite Hin. simpl.
    destruct (momentum_step alpha mu p g h) as [[p' v']|]; simpl; [|reflexivity]. eexists. split; [reflexivity|].
    split; [reflexivity|]. split; [repeat constructor; simpl; intuition congruence|].
    intros q v. split.
    + intros [H|[H|[]]]; injection H as <- <-; [right; exists 0|left]; auto.
    + intros [[-> ->]|(j & -> & Hj)]; [right; left; auto|]. destruct j as [|[|j]]; try discriminate.
      injection Hj as <-. left; auto.
  - destruct sts as [|h [|? ?]]; try discriminate. simpl opt_step. unfold opt_writes, update_op. rewrite Hin. simpl.
    destruct (adagrad_step lr p g h) as [[p' v']|]; simpl; [|reflexivity]. eexists. split; [reflexivity|].
    split; [reflexivity|]. split; [repeat constructor; simpl; intuition congruence|].
    intros q v. split.
    + intros [H|[H|[]]]; injection H as <- <-; [right; exists 0|left]; auto.
    + intros [[-> ->]|(j & -> & Hj)]; [right; left; auto|]. destruct j as [|[|j]]; try discriminate.
      injection Hj as <-. left; auto.
  - destruct sts as [|m [|v0 [|t [|? ?]]]]; try discriminate. simpl opt_step. unfold opt_writes, update_op. rewrite Hin.
    simpl. destruct (adam_step powf alpha eps b1 b2 p g m v0 t) as [[[[p' m'] v'] t']|]; simpl; [|reflexivity].
    eexists. split; [reflexivity|].
    split; [reflexivity|]. split; [repeat constructor; simpl; intuition congruence|].
    intros q v. split.
    + intros [H|[H|[H|[H|[]]]]]; injection H as <- <-; [right; exists 0|right; exists 1|left|right; exists 2]; auto.
    + intros [[-> ->]|(j & -> & Hj)]; [simpl; auto|]. destruct j as [|[|[|[|j]]]]; try discriminate;
      injection Hj as <-; simpl; auto.
Qed.

Section Writes.
  Context {O V : Type}.
  Variable g : graph O.

  Lemma writes_at_none ins ws (env : list V) vid : (forall q v, In (q, v) ws -> write_target g ins q <> Some vid) ->
    nth_error (apply_writes g ins ws env) vid = nth_error env vid.
  Proof.
    unfold apply_writes. revert env. induction ws as [|[q v] ws IH]; intros env H; simpl; [reflexivity|].
    rewrite IH by (intros; eapply H; right; eauto).
    destruct (write_target g ins q) as [vid'|] eqn:Hw; [|reflexivity].
    rewrite set_nth_nth. destruct (vid =? vid')%nat eqn:Hv; [|reflexivity].
    apply Nat.eqb_eq in Hv. subst. exfalso. apply (H q v); [left; reflexivity | exact Hw].
  Qed.

  Lemma writes_at ins ws (env : list V) q v vid : NoDup (map fst ws) -> In (q, v) ws ->
    write_target g ins q = Some vid ->
    (forall q' v', In (q', v') ws -> write_target g ins q' = Some vid -> q' = q) ->
    vid < length env -> nth_error (apply_writes g ins ws env) vid = Some v.
  Proof.
    revert env. induction ws as [|[q0 v0] ws IH]; intros env Hnd Hin Hq Hu Hl; [destruct Hin|].
    simpl in Hnd. inversion Hnd as [|? ? Hn Hnd']; subst.
    destruct Hin as [Heq|Hin].
    - injection Heq as -> ->. change (nth_error (apply_writes g ins ws (match write_target g ins q with
         Some vid0 => set_nth env vid0 v | None => env end)) vid = Some v).
      rewrite Hq. rewrite writes_at_none.
      + rewrite set_nth_nth, Nat.eqb_refl. destruct (nth_error env vid) eqn:He; [reflexivity|].
        apply nth_error_None in He. lia.
      + intros q' v' Hin' Hw. apply Hn. rewrite <- (Hu q' v' (or_intror Hin') Hw).
        apply (in_map fst) in Hin'. exact Hin'.
    - change (nth_error (apply_writes g ins ws (match write_target g ins q0 with
         Some vid0 => set_nth env vid0 v0 | None => env end)) vid = Some v).
      apply IH; auto.
      + intros q' v' Hin'. apply (Hu q' v'). right; auto.
      + destruct (write_target g ins q0); [rewrite set_nth_length|]; exact Hl.
  Qed.
End Writes.

Section Effect.
  Context {O E : Type}.
  Variable powf : R -> R -> R.
  Variable var_op : O.
  Variable inj : opt_op -> O.
  Variable compute : O -> list (opin (arr R)) -> cout (arr R) E.
  Variable debug : bool.
  Hypothesis Hcompute : forall o xs, compute (inj o) xs = opt_compute powf o xs.
  Notation update := (update var_op inj compute debug).
  Notation compute_updates := (compute_updates var_op inj).
  Notation tensor_value := (tensor_value a_shape compute debug).
  Notation value := (value a_shape compute debug).
  Notation arg := (arg a_shape compute debug).

  Variables (opt : optimizer) (e : env (arr R)) (c c' : context O) (ps gs us : list nat).
  Notation g := (c_graph c).
  Notation g' := (c_graph c').
  Hypothesis Hgood : good c.
  Hypothesis Hupd : updatable opt e g ps gs.
  Hypothesis Hshare : shared_readers opt e g ps gs.
  Hypothesis Hcu : compute_updates opt e c ps gs = Some (c', us).

  Lemma cu_facts :
    good c' /\ length ps = length gs /\ length us = length ps /\ NoDup us /\
    (exists new, g' = g ++ new) /\
    (forall i n, length g <= i -> nth_error g' i = Some n ->
       In i us \/ (n_inputs n = [] /\ exists v, n_var n = Some v)) /\
    (forall u, In u us -> length g <= u) /\
    (forall k p gr u vid, nth_error ps k = Some p -> nth_error gs k = Some gr -> nth_error us k = Some u ->
       var_tensor g p vid ->
       exists sids, state_ids opt e vid sids /\ update_tensor inj g' opt p gr u sids).
  Proof.
    apply (compute_updates_good var_op inj opt e ps gs c c' us Hgood); auto; apply Hupd.
  Qed.

  Lemma wf_g : wf_graph g.
  Proof. destruct Hgood as [H _]. eapply ctx_ok_wf; eauto. Qed.
  Lemma wf_g' : wf_graph g'.
  Proof. destruct cu_facts as ([H _] & _). eapply ctx_ok_wf; eauto. Qed.
  Lemma plain_g' : vars_plain g'.
  Proof. destruct cu_facts as ([_ H] & _). exact H. Qed.

  Lemma old_nth i : i < length g -> nth_error g' i = nth_error g i.
  Proof. intros Hi. destruct cu_facts as (_ & _ & _ & _ & (new & ->) & _). apply nth_error_app1. exact Hi. Qed.
  Lemma old_reads i j : i < length g -> (reads_from g' i j <-> reads_from g i j).
  Proof. intros Hi. unfold reads_from. rewrite old_nth by auto. reflexivity. Qed.
  Lemma g_reads_lt i j : reads_from g i j -> j < length g.
  Proof. apply wf_g. Qed.
  Lemma old_depends i j : i < length g -> depends g' i j -> depends g i j /\ j < length g.
  Proof.
    intros Hi H. apply clos_rt_rtn1 in H. induction H as [|a b Hab H IH].
    - split; auto. apply rt_refl.
    - destruct IH as [IH Ha]. apply old_reads in Hab; auto. split; [|apply (g_reads_lt _ _ Hab)].
      eapply rt_trans; [exact IH | apply rt_step; exact Hab].
  Qed.
  Lemma depends_lt i j : i < length g -> depends g i j -> j < length g.
  Proof.
    intros Hi H. apply clos_rt_rtn1 in H. induction H as [|a b Hab H IH]; auto. apply (g_reads_lt _ _ Hab).
  Qed.
  Lemma depends_new i j : i < length g -> depends g i j -> depends g' i j.
  Proof.
    intros Hi H. apply clos_rt_rtn1 in H.
    assert (Hd : depends g' i j /\ j < length g); [|apply Hd].
    induction H as [|a b Hab H [IH Ha]]; [split; [apply rt_refl | auto]|].
    split; [|apply (g_reads_lt _ _ Hab)].
    eapply rt_trans; [exact IH|]. apply rt_step. apply old_reads; auto.
  Qed.

  (** The data of parameter [k]. *)
  Lemma nth_in {X} (l : list X) k x : nth_error l k = Some x -> In x l.
  Proof. apply nth_error_In. Qed.
  Lemma param k u : nth_error us k = Some u -> exists p gr vid sids,
    nth_error ps k = Some p /\ nth_error gs k = Some gr /\ var_tensor g p vid /\
    state_ids opt e vid sids /\ update_tensor inj g' opt p gr u sids /\ gr < length g.
  Proof.
    intros Hu. destruct cu_facts as (_ & Hl1 & Hl2 & _ & _ & _ & _ & Hall).
    assert (Hk : k < length us) by (apply nth_error_Some; congruence).
    destruct (nth_error ps k) as [p|] eqn:Hp; [|apply nth_error_None in Hp; lia].
    destruct (nth_error gs k) as [gr|] eqn:Hgr; [|apply nth_error_None in Hgr; lia].
    destruct (u_params _ _ _ _ _ Hupd p (nth_in _ _ _ Hp)) as (vid & Hv).
    destruct (Hall k p gr u vid Hp Hgr Hu Hv) as (sids & Hs & Ht). exists p, gr, vid, sids.
    repeat (split; auto). apply (u_grads _ _ _ _ _ Hupd). eapply nth_in; eauto.
  Qed.

  Lemma state_ids_fun v s1 s2 : state_ids opt e v s1 -> state_ids opt e v s2 -> s1 = s2.
  Proof.
    unfold state_ids. intros H; revert s2. induction H as [|n s l l' Hns Hl IH]; intros s2 H2; inversion H2; subst; auto.
    f_equal; [congruence | auto].
  Qed.
  Lemma vt_fun (gg : graph O) t v w : var_tensor gg t v -> var_tensor gg t w -> v = w.
  Proof. intros (n & ? & ? & ?) (m & ? & ? & ?). congruence. Qed.
  Lemma in_states (gg : graph O) sts sids s : Forall2 (var_tensor gg) sts sids -> In s sts ->
    exists sid, In sid sids /\ var_tensor gg s sid.
  Proof.
    induction 1 as [|a b l l' Hab Hl IH]; intros Hin; [destruct Hin|]. destruct Hin as [->|Hin].
    - exists b. simpl; auto.
    - destruct (IH Hin) as (sid & ? & ?). exists sid. simpl; auto.
  Qed.

  Lemma vt_noreads (gg : graph O) t v j : wf_graph gg -> var_tensor gg t v -> ~ reads_from gg t j.
  Proof.
    intros [_ W] (n & Hn & Hp & Hv) (m & inc & Hm & Hin & _). assert (m = n) by congruence. subst.
    rewrite (W t n Hn) in Hin; [destruct Hin|]. unfold is_variable. rewrite Hv. reflexivity.
  Qed.

  Lemma update_reads p gr u sids j : update_tensor inj g' opt p gr u sids -> reads_from g' u j ->
    j = p \/ j = gr \/ exists sid, In sid sids /\ var_tensor g' j sid.
  Proof.
    intros (n & sts & (Hn & _) & _ & Hi & Hs) (m & inc & Hm & Hin & <-).
    assert (m = n) by congruence. subst m. rewrite Hi in Hin.
    destruct Hin as [<-|[<-|Hin]]; simpl; auto. right; right.
    apply in_map_iff in Hin. destruct Hin as (s & <- & Hin). simpl. eapply in_states; eauto.
  Qed.

  Lemma vt_new t v : var_tensor g t v -> var_tensor g' t v.
  Proof. intros H. destruct cu_facts as (_ & _ & _ & _ & (new & ->) & _). apply vt_ext. exact H. Qed.
  Lemma vt_old t v : t < length g -> var_tensor g' t v -> var_tensor g t v.
  Proof. intros Ht (n & Hn & H). rewrite old_nth in Hn by auto. exists n. auto. Qed.

  (** What an update tensor depends on. *)
  Lemma update_depends p gr u sids vid j : update_tensor inj g' opt p gr u sids -> var_tensor g p vid ->
    gr < length g -> depends g' u j ->
    j = u \/ depends g gr j \/ exists v, var_tensor g' j v.
  Proof.
    intros Hu Hp Hgr H. apply clos_rt_rt1n in H. inversion H as [|a b Hab Hr]; subst; [auto|].
    right. destruct (update_reads _ _ _ _ _ Hu Hab) as [->|[->|(sid & _ & Hs)]].
    - right. inversion Hr as [|a' b' Hab' Hr']; subst.
      + exists vid. apply vt_new. exact Hp.
      + exfalso. apply (vt_noreads g' p vid a' wf_g'); [apply vt_new; exact Hp | exact Hab'].
    - left. apply (old_depends gr j Hgr). apply clos_rt1n_rt. exact Hr.
    - right. inversion Hr as [|a' b' Hab' Hr']; subst; [eauto|].
      exfalso. apply (vt_noreads g' a sid a' wf_g' Hs Hab').
  Qed.

  Lemma vt_noreadvar (gg : graph O) t v x : wf_graph gg -> var_tensor gg t v -> ~ reads_var gg t x.
  Proof.
    intros W Hv (n & inc & m & Hn & Hin & _). apply (vt_noreads gg t v (in_id inc) W Hv). exists n, inc. auto.
  Qed.

  Lemma needed_cases i : needed g' us i -> In i us \/ (i < length g /\ exists gr, In gr gs /\ depends g gr i).
  Proof.
    intros (Hc & u & Hu & Hd). apply In_nth_error in Hu. destruct Hu as (k & Hu).
    destruct (param k u Hu) as (p & gr & vid & sids & Hp & Hgr & Hv & Hs & Ht & Hlt).
    destruct (update_depends _ _ _ _ _ _ Ht Hv Hlt Hd) as [->|[Hd'|(v & Hv')]].
    - left. eapply nth_in; eauto.
    - right. split; [eapply depends_lt; eauto|]. exists gr. split; auto. eapply nth_in; eauto.
    - exfalso. destruct Hc as (n & Hn & Hnp & Hnv). destruct Hv' as (m & Hm & _ & Hmv). congruence.
  Qed.

  Lemma old_reads_var j x : j < length g -> reads_var g' j x -> reads_var g j x.
  Proof.
    intros Hj (n & inc & m & Hn & Hin & Hm & H). rewrite old_nth in Hn by auto.
    exists n, inc, m. split; auto. split; auto. split; auto.
    rewrite <- old_nth; auto. apply (g_reads_lt j). exists n, inc. auto.
  Qed.
  Lemma old_changes i x : i < length g -> changes g' i x -> changes g i x.
  Proof.
    intros Hi (n & q & (Hn & Hr) & inc & m & Hinc & Hmut & Hm & H).
    rewrite old_nth in Hn by auto. exists n, q. split; [split; auto|]. exists inc, m. split; auto. split; auto. split; auto.
    rewrite <- old_nth; auto. apply (g_reads_lt i). exists n, inc. split; auto. split; auto. eapply nth_in; eauto.
  Qed.

  Lemma update_changes p gr u sids vid x : update_tensor inj g' opt p gr u sids -> var_tensor g p vid ->
    state_ids opt e vid sids -> changes g' u x -> operand opt e vid x.
  Proof.
    intros (n & sts & Hn & _ & Hi & Hs) Hp Hids (m & q & Hm & inc & mm & Hinc & Hmut & Hmm & Hmp & Hmv).
    assert (m = n) by (eapply op_node_fun; eauto). subst m. rewrite Hi in Hinc.
    destruct q as [|[|q]]; simpl in Hinc.
    - injection Hinc as <-. simpl in Hmm. left.
      apply (vt_fun g' p); [|apply vt_new; exact Hp]. exists mm. auto.
    - injection Hinc as <-. discriminate.
    - apply nth_error_In, in_map_iff in Hinc. destruct Hinc as (s & <- & Hin). simpl in Hmm.
      destruct (in_states _ _ _ _ Hs Hin) as (sid & Hsid & Hv).
      right. exists sids. split; auto. replace x with sid; auto. apply (vt_fun g' s); auto. exists mm. auto.
  Qed.

  (** Needed operations overwrite only the arrays of their own parameter. *)
  Lemma needed_changes u x : needed g' us u -> changes g' u x -> exists k p gr vid sids,
    nth_error us k = Some u /\ nth_error ps k = Some p /\ nth_error gs k = Some gr /\ var_tensor g p vid /\
    state_ids opt e vid sids /\ update_tensor inj g' opt p gr u sids /\ gr < length g /\ operand opt e vid x.
  Proof.
    intros Hn Hc. destruct (needed_cases u Hn) as [Hin|(Hlt & gr & Hgr & Hd)].
    - apply In_nth_error in Hin. destruct Hin as (k & Hk).
      destruct (param k u Hk) as (p & gr & vid & sids & Hp & Hgr & Hv & Hs & Ht & Hlt).
      exists k, p, gr, vid, sids. repeat (split; auto). eapply update_changes; eauto.
    - exfalso. apply (u_pure _ _ _ _ _ Hupd gr u x Hgr Hd). apply old_changes; auto.
  Qed.

  Lemma gr_step p gr u sids : update_tensor inj g' opt p gr u sids -> reads_from g' u gr.
  Proof.
    intros (n & sts & (Hn & _) & _ & Hi & _). exists n, (Incoming gr false 0). split; auto. split; auto.
    rewrite Hi. right; left; auto.
  Qed.

  Lemma us_computed u : In u us -> computed g' u.
  Proof.
    intros Hu. apply In_nth_error in Hu. destruct Hu as (k & Hk).
    destruct (param k u Hk) as (p & gr & vid & sids & Hp & Hgr & Hv & Hs & (n & sts & Hn & _) & Hlt). exists n. exact Hn.
  Qed.

  Lemma all_first i : needed g' us i -> comes_first g' us i.
  Proof.
    intros Hi j u x Hd Hr Hn Hc.
    destruct (needed_changes u x Hn Hc) as (l & q & gr' & w & sids' & Hul & Hql & Hgl & Hw & Hsl & Htl & Hltl & Hop).
    (* readers that some gradient depends on *)
    assert (Hlate : forall k gr, l <= k -> nth_error gs k = Some gr -> depends g gr j -> runs_before g' us j u).
    { intros k gr Hk Hgk Hdj. destruct (Nat.eq_dec k l) as [->|Hne].
      - left. assert (gr = gr') by congruence. subst gr. apply step_then with gr'; [eapply gr_step; eauto|]. apply depends_new; auto.
      - right. destruct cu_facts as (_ & Hl1 & Hl2 & Hnd & _ & _ & Hnew & _).
        assert (Hk2 : k < length us) by (rewrite Hl2, Hl1; apply nth_error_Some; congruence).
        destruct (nth_error us k) as [uk|] eqn:Huk; [|apply nth_error_None in Huk; lia].
        destruct (param k uk Huk) as (pk & gk & vk & sk & Hpk & Hgk' & Hvk & Hsk & Htk & Hltk).
        assert (gk = gr) by congruence. subst gk. exists k, uk. split; [exact Huk|]. split.
        + eapply rt_trans; [apply rt_step; eapply gr_step; eauto|]. apply depends_new; auto.
        + intros d td Hkd Htd Hdu. destruct (param d td Htd) as (pd & gd & vd & sd & Hpd & Hgd & Hvd & Hsd & Htd' & Hltd).
          destruct (update_depends _ _ _ _ _ _ Htd' Hvd Hltd Hdu) as [E1|[E1|(v & E1)]].
          * subst td. assert (d = l); [|lia]. apply (proj1 (NoDup_nth_error us) Hnd); [apply nth_error_Some; congruence|congruence].
          * apply depends_lt in E1; [|exact Hltd]. specialize (Hnew u (nth_in _ _ _ Hul)). lia.
          * destruct (us_computed u (nth_in _ _ _ Hul)) as (m & Hm & _ & Hmv). destruct E1 as (m' & Hm' & _ & Hmv'). congruence. }
    assert (Hold : forall k gr, nth_error gs k = Some gr -> depends g gr j -> runs_before g' us j u).
    { intros k gr Hk Hdj. destruct (Nat.le_gt_cases l k) as [Hle|Hlt]; [exact (Hlate k gr Hle Hk Hdj)|].
      assert (Hgr : gr < length g) by (apply (u_grads _ _ _ _ _ Hupd); eapply nth_in; eauto).
      destruct (Hshare k l q gr w j x) as (m & grm & Hm & Hgm & Hdm); auto.
      - apply old_reads_var; auto. eapply depends_lt; eauto.
      - exact (Hlate m grm Hm Hgm Hdm). }
    destruct (needed_cases i Hi) as [Hin|(Hlt & gr & Hgr & Hdi)].
    - apply In_nth_error in Hin. destruct Hin as (k & Hk).
      destruct (param k i Hk) as (p & gr & vid & sids & Hp & Hgr & Hv & Hs & Ht & Hltk).
      destruct (update_depends _ _ _ _ _ _ Ht Hv Hltk Hd) as [->|[Hdj|(v & Hvj)]].
      + (* the update tensor itself reads [x] *)
        destruct Hr as (n & inc & m & Hn' & Hinc & Hm & Hmp & Hmv).
        assert (Hrd : reads_from g' i (in_id inc)) by (exists n, inc; auto).
        assert (Hvx : var_tensor g' (in_id inc) x) by (exists m; auto).
        assert (Hopk : operand opt e vid x).
        { destruct (update_reads _ _ _ _ _ Ht Hrd) as [Hid|[Hid|(sid & Hsid & Hvs)]].
          - rewrite Hid in Hvx. left. apply (vt_fun g' p); auto. apply vt_new; auto.
          - exfalso. rewrite Hid in Hvx. apply vt_old in Hvx; auto.
            apply (u_notvar _ _ _ _ _ Hupd gr q w x); auto; eapply nth_in; eauto.
          - right. exists sids. split; auto. replace x with sid; auto. eapply vt_fun; eauto. }
        assert (k = l) by (apply (u_apart _ _ _ _ _ Hupd k l p q vid w x); auto). subst l.
        left. congruence.
      + right. right. eapply Hold; eauto.
      + exfalso. eapply vt_noreadvar; eauto. exact wf_g'.
    - right. right. apply In_nth_error in Hgr. destruct Hgr as (k & Hgr). apply (Hold k gr Hgr).
      destruct (old_depends i j Hlt Hd) as [Hd' _]. eapply rt_trans; eauto.
  Qed.

  (** ** Inputs of an update *)
  Variable feeder : list (ph_key * arr R).
  Notation env0 := (array_list e).

  Lemma arg_mut_var t v x : var_tensor g' t v -> arg g' feeder env0 (Incoming t true 0) x ->
    exists a, nth_error env0 v = Some a /\ x = RdWr a.
  Proof.
    intros (n & Hn & Hp & Hv) H.
    inversion H as [inc m a Hm Hf|inc m vid a Hm Hmp Hmv He|inc m ys a Hm Hval Hy]; subst; simpl in *.
    - destruct (fed_ph _ _ _ _ _ Hf). congruence.
    - assert (vid = v) by congruence. subst. eauto.
    - destruct Hm as (? & ? & ?). congruence.
  Qed.

  Lemma arg_grad t x : arg g' feeder env0 (Incoming t false 0) x ->
    exists a, (x = NonVar a \/ x = RdOnly a) /\ tensor_value g' feeder env0 t (inl a).
  Proof.
    intros H. inversion H as [inc m a Hm Hf|inc m vid a Hm Hmp Hmv He|inc m ys a Hm Hval Hy]; subst; simpl in *.
    - exists a. split; auto. apply tv_ph with m; auto.
      destruct (n_var m) as [vid|] eqn:Hv; auto. exfalso.
      destruct (fed_ph _ _ _ _ _ Hf). pose proof (plain_g' t m vid Hm Hv). congruence.
    - exists a. split; auto. eapply tv_var; eauto.
    - exists a. split; auto. destruct ys as [|y ys]; [discriminate|]. injection Hy as ->. eapply tv_ok; eauto.
  Qed.

  Lemma grad_arg t a : tensor_value g' feeder env0 t (inl a) ->
    exists x, (x = NonVar a \/ x = RdOnly a) /\ arg g' feeder env0 (Incoming t false 0) x.
  Proof.
    intros H. inversion H as [n vid v Hn Hv He|n v Hn Hv Hf|y ys Hval|]; subst.
    - exists (RdOnly a). split; auto.
      apply (arg_var a_shape compute debug g' feeder env0 (Incoming t false 0) n vid a); auto.
      apply (plain_g' t n vid); auto.
    - exists (NonVar a). split; auto. eapply arg_ph; eauto.
    - exists (NonVar a). split; auto.
      assert (Hn : exists n, op_node g' t n) by (inversion Hval; subst; eauto). destruct Hn as (n & Hn).
      eapply arg_op; eauto.
  Qed.

  Lemma args_states sts : forall sids xs, Forall2 (var_tensor g') sts sids ->
    Forall2 (arg g' feeder env0) (map (fun s => Incoming s true 0) sts) xs ->
    exists avs, xs = map RdWr avs /\ Forall2 (fun sid a => nth_error env0 sid = Some a) sids avs.
  Proof.
    induction sts as [|s sts IH]; intros sids xs Hs Hx; simpl in Hx; inv Hx; inv Hs.
    - exists []. split; auto.
    - destruct (IH _ _ H5 H3) as (avs & -> & Ha).
      destruct (arg_mut_var _ _ _ H2 H1) as (a & He & ->). exists (a :: avs). split; [reflexivity|]. constructor; auto.
  Qed.
  Lemma states_args sts : forall sids avs, Forall2 (var_tensor g') sts sids ->
    Forall2 (fun sid a => nth_error env0 sid = Some a) sids avs ->
    Forall2 (arg g' feeder env0) (map (fun s => Incoming s true 0) sts) (map RdWr avs).
  Proof.
    induction sts as [|s sts IH]; intros sids avs Hs Hx; inv Hs; inv Hx; simpl; constructor.
    - destruct H1 as (n & Hn & Hp & Hv).
      apply (arg_var a_shape compute debug g' feeder env0 (Incoming s true 0) n y y0); auto.
    - eapply IH; eauto.
  Qed.

  Lemma update_args p gr u sids vid n xs : update_tensor inj g' opt p gr u sids -> var_tensor g p vid ->
    op_node g' u n -> Forall2 (arg g' feeder env0) (n_inputs n) xs ->
    exists pv gv avs x, xs = RdWr pv :: x :: map RdWr avs /\ (x = NonVar gv \/ x = RdOnly gv) /\
      nth_error env0 vid = Some pv /\ Forall2 (fun sid a => nth_error env0 sid = Some a) sids avs /\
      tensor_value g' feeder env0 gr (inl gv).
  Proof.
    intros (n' & sts & Hn' & Hop & Hi & Hs) Hp Hn Hx.
    assert (n' = n) by (eapply op_node_fun; eauto). subst n'. rewrite Hi in Hx.
    inversion Hx as [|? x0 ? l1 H0 Hx1]; subst. inversion Hx1 as [|? x1 ? l2 H1 Hx2]; subst.
    destruct (arg_mut_var _ _ _ (vt_new _ _ Hp) H0) as (pv & Hpv & ->).
    destruct (arg_grad _ _ H1) as (gv & Hx1' & Hgv).
    destruct (args_states _ _ _ Hs Hx2) as (avs & -> & Ha).
    exists pv, gv, avs, x1. auto.
  Qed.

  Lemma state_len v sids : state_ids opt e v sids -> length sids = length (state_names opt 0).
  Proof.
    unfold state_ids. intros H. assert (Hl : length (state_names opt v) = length sids).
    { induction H; simpl; auto. }
    rewrite <- Hl. destruct opt; reflexivity.
  Qed.
  Lemma forall2_len {X Y} (P : X -> Y -> Prop) l l' : Forall2 P l l' -> length l = length l'.
  Proof. induction 1; simpl; auto. Qed.

  (** The writes of the update tensor reach the arrays of its parameter. *)
  Lemma update_written p gr u sids vid n ws (p' : arr R) sts' :
    update_tensor inj g' opt p gr u sids -> var_tensor g p vid -> op_node g' u n ->
    NoDup (vid :: sids) -> NoDup (map fst ws) -> length sts' = length sids ->
    (forall q v, In (q, v) ws <-> (q = 0 /\ v = p') \/ exists j, q = 2 + j /\ nth_error sts' j = Some v) ->
    (forall x, In x (vid :: sids) -> x < length env0) ->
    nth_error (apply_writes g' (n_inputs n) ws env0) vid = Some p' /\
    Forall2 (fun sid a => nth_error (apply_writes g' (n_inputs n) ws env0) sid = Some a) sids sts'.
  Proof.
    intros (n' & sts & Hn' & Hop & Hi & Hs) Hp Hn Hnd Hws Hlen Hw Hin.
    assert (n' = n) by (eapply op_node_fun; eauto). subst n'.
    assert (H0 : write_target g' (n_inputs n) 0 = Some vid).
    { unfold write_target. rewrite Hi. simpl. destruct (vt_new _ _ Hp) as (m & Hm & Hmp & Hmv). rewrite Hm, Hmp. exact Hmv. }
    assert (Hj : forall j sid, nth_error sids j = Some sid -> write_target g' (n_inputs n) (2 + j) = Some sid).
    { intros j sid Hsid. unfold write_target. rewrite Hi. simpl. rewrite nth_error_map.
      clear -Hs Hsid. revert sids Hs Hsid. revert j. induction sts as [|s sts IH]; intros j sids Hs Hsid; inv Hs.
      - destruct j; discriminate.
      - destruct j as [|j]; simpl in *.
        + injection Hsid as ->. destruct H1 as (m & Hm & Hmp & Hmv). rewrite Hm, Hmp. exact Hmv.
        + eapply IH; eauto. }
    assert (Htgt : forall q v, In (q, v) ws -> (q = 0 /\ write_target g' (n_inputs n) q = Some vid) \/
              exists j sid, q = 2 + j /\ nth_error sids j = Some sid /\ write_target g' (n_inputs n) q = Some sid).
    { intros q v Hq. apply Hw in Hq. destruct Hq as [[-> _]|(j & -> & Hjv)]; [left; auto|]. right.
      assert (Hjl : j < length sids) by (rewrite <- Hlen; apply nth_error_Some; congruence).
      destruct (nth_error sids j) as [sid|] eqn:Hsid; [|apply nth_error_None in Hsid; lia]. exists j, sid. auto. }
    inversion Hnd as [|? ? Hnv Hnd']; subst. split.
    - apply (writes_at g' (n_inputs n) ws env0 0 p' vid); auto.
      + apply Hw. left; auto.
      + intros q v Hq Ht. destruct (Htgt q v Hq) as [[-> _]|(j & sid & -> & Hsid & Ht')]; auto.
        exfalso. apply Hnv. rewrite Ht in Ht'. injection Ht' as ->. eapply nth_in; eauto.
      + apply Hin. left; auto.
    - assert (Hall : forall j sid a, nth_error sids j = Some sid -> nth_error sts' j = Some a ->
                nth_error (apply_writes g' (n_inputs n) ws env0) sid = Some a).
      { intros j sid a Hsid Ha. apply (writes_at g' (n_inputs n) ws env0 (2 + j) a sid); auto.
        - apply Hw. right. exists j. auto.
        - intros q v Hq Ht. destruct (Htgt q v Hq) as [[-> Ht']|(j' & sid' & -> & Hsid' & Ht')].
          + exfalso. apply Hnv. rewrite Ht in Ht'. injection Ht' as <-. eapply nth_in; eauto.
          + rewrite Ht in Ht'. injection Ht' as <-. f_equal. f_equal.
            apply (proj1 (NoDup_nth_error sids) Hnd').
            * apply nth_error_Some. congruence.
            * congruence.
        - apply Hin. right. eapply nth_in; eauto. }
      clear -Hall Hlen. revert sts' Hlen Hall. generalize (apply_writes g' (n_inputs n) ws env0). intros env1.
      induction sids as [|sid sids IH]; intros [|a sts'] Hlen Hall; try discriminate; constructor.
      + apply (Hall 0); reflexivity.
      + apply IH; [injection Hlen; auto|]. intros j. apply (Hall (S j)).
  Qed.

  (** [e'] holds the results of the step for parameter [vid]. *)
  Definition stepped (e' : env (arr R)) (gr vid : nat) : Prop :=
    exists sids pv gv svs p' svs',
      state_ids opt e vid sids /\ nth_error env0 vid = Some pv /\
      Forall2 (fun sid a => nth_error env0 sid = Some a) sids svs /\
      tensor_value g feeder env0 gr (inl gv) /\
      opt_step powf opt pv gv svs = Some (p', svs') /\
      nth_error (array_list e') vid = Some p' /\
      Forall2 (fun sid a => nth_error (array_list e') sid = Some a) sids svs'.

  Lemma all_ok_nth (l : list (arr R + E)) : all_ok l = true -> forall k, k < length l -> exists y, nth_error l k = Some (inl y).
  Proof.
    unfold all_ok. rewrite forallb_forall. intros H k Hk.
    destruct (nth_error l k) as [r|] eqn:Hr; [|apply nth_error_None in Hr; lia].
    apply nth_error_In in Hr. specialize (H r Hr). destruct r; [eauto | discriminate].
  Qed.

  Lemma us_range : in_range g' us.
  Proof.
    intros u Hu. apply In_nth_error in Hu. destruct Hu as (k & Hk).
    destruct (param k u Hk) as (p & gr & vid & sids & Hp & Hgr & Hv & Hs & (n & sts & (Hn & _) & _) & Hlt).
    apply nth_error_Some. congruence.
  Qed.

  (** Whatever an [update] call that returns did, it made one step for every
      parameter from the values before the call, and changed nothing else. *)
  Theorem update_sound fuel e' : update fuel opt e c ps gs feeder = Ok (c', e') ->
    name_to_id e' = name_to_id e /\ length (array_list e') = length env0 /\
    (forall k p gr vid, nth_error ps k = Some p -> nth_error gs k = Some gr -> var_tensor g p vid -> stepped e' gr vid) /\
    (forall x, (forall p vid, In p ps -> var_tensor g p vid -> ~ operand opt e vid x) ->
       nth_error (array_list e') x = nth_error env0 x).
  Proof.
    unfold Opt_Model.update. rewrite Hcu. unfold ev_run. cbn [ev_feeds ev_targets ev_extend ev_set_feeder new_evaluator app].
    destruct (eval _ _ _ _ _ _ _ _) as [oc| |] eqn:He; try discriminate.
    destruct (all_ok (oc_results oc)) eqn:Hok; [|discriminate]. intros H. injection H as <-. cbn [array_list name_to_id].
    destruct cu_facts as (Hg' & Hl1 & Hl2 & Hnd & (new & Hnew) & _).
    pose proof (eval_sound _ _ _ _ _ _ _ _ _ wf_g' us_range He) as (s & Hex & _ & _ & Hres).
    split; auto. split; [apply (execution_env_length _ _ _ _ _ _ _ _ _ Hex)|]. split.
    - intros k p gr vid Hp Hgr Hv.
      assert (Hk : k < length us) by (rewrite Hl2; apply nth_error_Some; congruence).
      destruct (nth_error us k) as [u|] eqn:Hu; [|apply nth_error_None in Hu; lia].
      destruct (param k u Hu) as (p1 & gr1 & vid1 & sids & Hp1 & Hgr1 & Hv1 & Hs & Ht & Hlt).
      assert (p1 = p) by congruence. assert (gr1 = gr) by congruence. subst p1 gr1.
      assert (vid1 = vid) by (eapply vt_fun; eauto). subst vid1.
      destruct (all_ok_nth _ Hok k) as (y & Hy).
      { rewrite <- (forall2_len _ _ _ Hres). exact Hk. }
      assert (Hcomp : computed g' u) by (apply us_computed; eapply nth_in; eauto).
      destruct (eval_ran _ _ _ _ _ _ _ _ _ _ _ _ wf_g' us_range He Hu Hy Hcomp) as (xs & Hran).
      pose proof Ht as Ht'. destruct Ht as (n & sts & Hn & Hop & Hi & Hst).
      destruct (ran_result _ _ _ _ _ _ _ _ _ Hex u xs Hran) as (n1 & ws & ys & status & Hn1 & Hc & _ & _).
      assert (n1 = n) by (eapply op_node_fun; eauto). subst n1.
      assert (Hnu : needed g' us u) by (split; [exact Hcomp | exists u; split; [eapply nth_in; eauto | apply rt_refl]]).
      destruct (eval_update _ _ _ _ _ _ _ _ _ _ _ _ wf_g' us_range He Hn (all_first u Hnu) Hran) as (Hargs & Heff).
      destruct (update_args p gr u sids vid n xs Ht' Hv Hn Hargs) as (pv & gv & avs & x & -> & Hx & Hpv & Havs & Hgv).
      rewrite Hop, Hcompute in Hc. unfold opt_compute in Hc.
      assert (Hlen : length avs = length (state_names opt 0)).
      { rewrite <- (forall2_len _ _ _ Havs). eapply state_len; eauto. }
      pose proof (opt_writes_step powf opt pv gv x avs Hx Hlen) as Hstep.
      destruct (opt_step powf opt pv gv avs) as [[p' svs']|] eqn:Hos; [|rewrite Hstep in Hc; discriminate].
      destruct Hstep as (ws' & Hws & Hl' & Hndw & Hpos). rewrite Hws in Hc. injection Hc as <- <- <-.
      assert (Hndv : NoDup (vid :: sids)) by (apply (u_within _ _ _ _ _ Hupd p); auto; eapply nth_in; eauto).
      assert (Hbound : forall z, In z (vid :: sids) -> z < length env0).
      { intros z [<-|Hz]; [apply nth_error_Some; congruence|].
        clear -Havs Hz. induction Havs as [|a b l l' Hab Hl IH]; [destruct Hz|].
        destruct Hz as [->|Hz]; [|auto]. apply nth_error_Some. congruence. }
      destruct (update_written p gr u sids vid n ws' p' svs' Ht' Hv Hn Hndv Hndw) as (Hw1 & Hw2); auto.
      { rewrite Hl', <- (forall2_len _ _ _ Havs). reflexivity. }
      assert (Hsole : forall z, operand opt e vid z -> forall u', needed g' us u' -> changes g' u' z -> u' = u).
      { intros z Hz u' Hu' Hc'.
        destruct (needed_changes u' z Hu' Hc') as (l & q & gr' & w & sids' & Hul & Hql & Hgl & Hw & _ & _ & _ & Hopz).
        assert (k = l) by (apply (u_apart _ _ _ _ _ Hupd k l p q vid w z); auto). subst l. congruence. }
      assert (Heff' : forall z, operand opt e vid z ->
                nth_error (oc_env oc) z = nth_error (apply_writes g' (n_inputs n) ws' env0) z).
      { intros z Hz. apply (Heff ws' [empty_output] None) with (env1 := apply_writes g' (n_inputs n) ws' env0).
        - rewrite Hop, Hcompute. unfold opt_compute. rewrite Hws. reflexivity.
        - apply apply_writes_updated.
        - apply Hsole. exact Hz. }
      exists sids, pv, gv, avs, p', svs'. split; auto. split; auto. split; auto. split.
      { destruct cu_facts as (_ & _ & _ & _ & (new' & Hnew') & _). rewrite Hnew' in Hgv.
        apply (ext_tensor_value_iff a_shape compute debug feeder env0 g new' wf_g gr (inl gv) Hlt). exact Hgv. }
      split; auto. split.
      + rewrite Heff' by (left; auto). exact Hw1.
      + clear -Hw2 Heff' Hs. assert (Hsub : forall z, In z sids -> operand opt e vid z).
        { intros z Hz. right. exists sids. auto. }
        clear Hs. induction Hw2 as [|a b l l' Hab Hl IH]; constructor.
        * rewrite Heff'; auto. apply Hsub. left; auto.
        * apply IH. intros z Hz. apply Hsub. right; auto.
    - intros x Hx. apply (eval_unchanged _ _ _ _ _ _ _ _ _ _ wf_g' us_range He).
      intros u Hnu Hc. destruct (needed_changes u x Hnu Hc) as (l & q & gr' & w & sids' & _ & Hql & _ & Hw & _ & _ & _ & Hop).
      apply (Hx q w); auto. eapply nth_in; eauto.
  Qed.

  (** ** The call returns when every gradient has a value and every step is possible *)
  Lemma no_inputs_depends (gg : graph O) t j : wf_graph gg -> ~ computed gg t -> depends gg t j -> j = t.
  Proof.
    intros W Hnc H. apply clos_rt_rt1n in H. inversion H as [|a b Hab _]; subst; auto.
    exfalso. apply Hnc. eapply reads_computed_; eauto.
  Qed.

  Lemma value_deps i r : value g feeder env0 i r -> forall ys, r = inl ys ->
    forall j, depends g i j -> computed g j -> exists ys', value g feeder env0 j (inl ys').
  Proof.
    refine (value_ind' a_shape compute debug g feeder env0
      (fun i r => forall ys, r = inl ys -> forall j, depends g i j -> computed g j -> exists ys', value g feeder env0 j (inl ys'))
      (fun inc x => forall j, depends g (in_id inc) j -> computed g j -> exists ys', value g feeder env0 j (inl ys'))
      _ _ _ _ _ i r).
    - clear i r. intros i n xs ws ys0 status Hn Hx HQ Hc Hd ys Hys j Hj Hcj.
      destruct status; [discriminate|]. injection Hys as <-.
      apply clos_rt_rt1n in Hj. inversion Hj as [|a b Hab Hr]; subst.
      + exists ys0. apply (value_run a_shape compute debug g feeder env0 j n xs ws ys0 None); auto.
      + destruct Hab as (n1 & inc & Hn1 & Hin & <-). assert (n1 = n) by (destruct Hn; congruence). subst n1.
        apply clos_rt1n_rt in Hr. clear -HQ Hin Hr Hcj. induction HQ as [|a b l l' Hab Hl IH]; [destruct Hin|].
        destruct Hin as [->|Hin]; eauto.
    - intros. discriminate.
    - clear i r. intros inc n v Hn Hf j Hj Hcj. exfalso. destruct (fed_ph _ _ _ _ _ Hf) as (name & Hname).
      assert (j = in_id inc).
      { apply (no_inputs_depends g); auto; [apply wf_g|]. intros (m & Hm & Hmp & _). congruence. }
      subst j. destruct Hcj as (m & Hm & Hmp & _). congruence.
    - clear i r. intros inc n vid v Hn Hp Hv He j Hj Hcj. exfalso.
      assert (j = in_id inc).
      { apply (no_inputs_depends g); auto; [apply wf_g|]. intros (m & Hm & Hmp & Hmv). congruence. }
      subst j. destruct Hcj as (m & Hm & Hmp & Hmv). congruence.
    - clear i r. intros inc n ys v Hn Hv IH Hy j Hj Hcj. eapply IH; eauto.
  Qed.

  Lemma grad_deps t a : tensor_value g feeder env0 t (inl a) ->
    forall j, depends g t j -> computed g j -> exists ys', value g feeder env0 j (inl ys').
  Proof.
    intros H j Hj Hcj. inversion H as [n vid v Hn Hv He|n v Hn Hv Hf|y ys Hval|]; subst.
    - exfalso. assert (j = t).
      { apply (no_inputs_depends g); auto; [apply wf_g|]. intros (m & Hm & Hmp & Hmv). congruence. }
      subst j. destruct Hcj as (m & Hm & Hmp & Hmv). congruence.
    - exfalso. destruct (fed_ph _ _ _ _ _ Hf) as (name & Hname). assert (j = t).
      { apply (no_inputs_depends g); auto; [apply wf_g|]. intros (m & Hm & Hmp & Hmv). congruence. }
      subst j. destruct Hcj as (m & Hm & Hmp & Hmv). congruence.
    - eapply value_deps; eauto.
  Qed.

  Lemma acyclic_g' : acyclic g -> acyclic g'.
  Proof.
    intros Hac i Hc. apply clos_trans_t1n in Hc.
    assert (Hb : exists b, reads_from g' i b /\ depends g' b i).
    { inversion Hc as [b Hab|b b' Hab Hr]; subst.
      - exists i. split; [assumption | apply rt_refl].
      - exists b. split; auto. apply clos_t1n_trans in Hr. clear -Hr. induction Hr; [apply rt_step; auto | eapply rt_trans; eauto]. }
    clear Hc. destruct Hb as (b & Hib & Hbi).
    destruct (Nat.lt_ge_cases i (length g)) as [Hi|Hi].
    - apply (Hac i). apply old_reads in Hib; auto. eapply step_then; eauto.
      apply old_depends in Hbi; [apply Hbi|]. apply (g_reads_lt _ _ Hib).
    - destruct cu_facts as (_ & _ & _ & _ & _ & Hcl & _).
      destruct Hib as (n & inc & Hn & Hin & Hid).
      destruct (Hcl i n Hi Hn) as [Hu|[Hnil _]]; [|rewrite Hnil in Hin; destruct Hin].
      apply In_nth_error in Hu. destruct Hu as (k & Hk).
      destruct (param k i Hk) as (p & gr & vid & sids & Hp & Hgr & Hv & Hs & Ht & Hlt).
      assert (Hib : reads_from g' i b) by (exists n, inc; auto).
      destruct (update_reads _ _ _ _ _ Ht Hib) as [->|[->|(sid & _ & Hsid)]].
      + assert (i = p); [|subst; apply vt_lt in Hv; lia].
        apply (no_inputs_depends g'); auto; [apply wf_g'|]. intros (m & Hm & Hmp & Hmv).
        destruct (vt_new _ _ Hv) as (m' & Hm' & _ & Hmv'). congruence.
      + apply old_depends in Hbi; [|auto]. lia.
      + assert (i = b).
        { apply (no_inputs_depends g'); auto; [apply wf_g'|]. intros (m & Hm & Hmp & Hmv).
          destruct Hsid as (m' & Hm' & _ & Hmv'). congruence. }
        subst b. destruct (us_computed i (nth_in _ _ _ Hk)) as (m & Hm & Hmp & Hmv).
        destruct Hsid as (m' & Hm' & _ & Hmv'). congruence.
  Qed.

  (** A step from the values before the call is possible. *)
  Definition can_step (gr vid : nat) : Prop :=
    exists sids pv gv svs r,
      state_ids opt e vid sids /\ nth_error env0 vid = Some pv /\
      Forall2 (fun sid a => nth_error env0 sid = Some a) sids svs /\
      tensor_value g feeder env0 gr (inl gv) /\ opt_step powf opt pv gv svs = Some r.

  Theorem update_returns fuel : acyclic g ->
    (forall k p gr vid, nth_error ps k = Some p -> nth_error gs k = Some gr -> var_tensor g p vid -> can_step gr vid) ->
    2 * (length us + edge_count g') < fuel ->
    exists e', update fuel opt e c ps gs feeder = Ok (c', e').
  Proof.
    intros Hac Hcan Hf.
    destruct cu_facts as (_ & Hl1 & Hl2 & Hnd & (new & Hnew) & _).
    assert (Hval_u : forall u, In u us -> value g' feeder env0 u (inl [empty_output])).
    { intros u Hu. apply In_nth_error in Hu. destruct Hu as (k & Hk).
      destruct (param k u Hk) as (p & gr & vid & sids & Hp & Hgr & Hv & Hs & Ht & Hlt).
      destruct (Hcan k p gr vid Hp Hgr Hv) as (sids' & pv & gv & svs & r & Hs' & Hpv & Hsv & Hgv & Hr).
      assert (sids' = sids) by (eapply state_ids_fun; eauto). subst sids'.
      destruct Ht as (n & sts & Hn & Hop & Hi & Hst).
      assert (Hgv' : tensor_value g' feeder env0 gr (inl gv)) by (rewrite Hnew; apply ext_tensor_value; exact Hgv).
      destruct (grad_arg gr gv Hgv') as (x & Hx & Hax).
      assert (Hlen : length svs = length (state_names opt 0)).
      { rewrite <- (forall2_len _ _ _ Hsv). eapply state_len; eauto. }
      pose proof (opt_writes_step powf opt pv gv x svs Hx Hlen) as Hstep. rewrite Hr in Hstep. destruct r as [p' svs'].
      destruct Hstep as (ws & Hws & _).
      change (inl [empty_output]) with (match (@None E) with None => @inl _ E [empty_output] | Some e => inr e end).
      apply (value_run a_shape compute debug g' feeder env0 u n (RdWr pv :: x :: map RdWr svs) ws [empty_output] None); auto.
      - rewrite Hi. constructor; [|constructor; [exact Hax|]].
        + destruct (vt_new _ _ Hv) as (m & Hm & Hmp & Hmv).
          apply (arg_var a_shape compute debug g' feeder env0 (Incoming p true 0) m vid pv); auto.
        + eapply states_args; eauto.
      - rewrite Hop, Hcompute. unfold opt_compute. rewrite Hws. reflexivity.
      - discriminate. }
    destruct (eval_first_complete a_shape compute debug g' feeder us env0 wf_g' all_first) with
      (fuel := fuel) (rs := map (fun _ : nat => @inl (arr R) E empty_output) us) as (oc & He & Hrs); auto.
    - intros i Hi. destruct (needed_cases i Hi) as [Hin|(Hlt & gr & Hgr & Hd)]; [eauto|].
      apply In_nth_error in Hgr. destruct Hgr as (k & Hgr).
      assert (Hk : k < length ps) by (rewrite Hl1; apply nth_error_Some; congruence).
      destruct (nth_error ps k) as [p|] eqn:Hp; [|apply nth_error_None in Hp; lia].
      destruct (u_params _ _ _ _ _ Hupd p (nth_in _ _ _ Hp)) as (vid & Hv).
      destruct (Hcan k p gr vid Hp Hgr Hv) as (sids' & pv & gv & svs & r & _ & _ & _ & Hgv & _).
      destruct Hi as ((n & Hn & Hr) & _). rewrite old_nth in Hn by auto.
      destruct (grad_deps gr gv Hgv i Hd) as (ys & Hys); [exists n; split; auto|].
      exists (inl ys). rewrite Hnew. apply ext_value. exact Hys.
    - apply acyclic_g'. exact Hac.
    - exact us_range.
    - exact us_computed.
    - assert (H : forall l, (forall u, In u l -> value g' feeder env0 u (inl [empty_output])) ->
        Forall2 (tensor_value g' feeder env0) l (map (fun _ => inl empty_output) l)).
      { clear. induction l as [|u l IH]; intros Hv; simpl; constructor.
        - eapply tv_ok. apply Hv. left; auto.
        - apply IH. intros v Hin. apply Hv. right; auto. }
      apply H. exact Hval_u.
    - exists (Env (oc_env oc) (name_to_id e)). unfold Opt_Model.update. rewrite Hcu. unfold ev_run.
      cbn [ev_feeds ev_targets ev_extend ev_set_feeder new_evaluator app]. rewrite He, Hrs.
      assert (Hok : all_ok (map (fun _ : nat => @inl (arr R) E empty_output) us) = true).
      { unfold all_ok. apply forallb_forall. intros r Hr. apply in_map_iff in Hr. destruct Hr as (? & <- & _). reflexivity. }
      rewrite Hok. reflexivity.
  Qed.
End Effect.
