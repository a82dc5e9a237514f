(** Training: any number of update calls, and what they leave in a parameter
    and its state. *)
From Coq Require Import String List Arith ZArith Bool Reals Lia Lra.
Import ListNotations.
From Verif Require Import Graph_Model Eval_Model Eval_Spec Eval_Proofs Eval_Proofs2 Eval_Update Graph_Proofs Var_Model Array_Model Array_Proofs Arith_Model Arith_Proofs Vjp_Spec Vjp_Proofs Opt_Model Opt_Proofs Opt_Effect Opt_Spec Opt_Steps Opt_State.

Section Training.
  Context {O E : Type}.
  Variable powf : R -> R -> R.
  Variable var_op : O.
  Variable inj : opt_op -> O.
  Variable compute : O -> list (opin (arr R)) -> cout (arr R) E.
  Variable debug : bool.
  Hypothesis Hcompute : forall o xs, compute (inj o) xs = opt_compute powf o xs.
  Notation update := (update var_op inj compute debug).
  Notation compute_updates := (compute_updates var_op inj).
  Notation tensor_value := (tensor_value a_shape compute debug).

  (** [training opt vid e gvs e']: from [e] to [e'] the parameter [vid] was
      updated by successive calls of [update], in whatever graphs and together
      with whatever other parameters; its gradients had the values [gvs].
      In between anything may happen that leaves the parameter and its state alone. *)
  Inductive training (opt : optimizer) (vid : nat) (e : env (arr R)) : list (arr R) -> env (arr R) -> Prop :=
  | train_start : training opt vid e [] e
  | train_update gvs e1 c c' ps gs us feeder fuel k p gr gv e2 :
      training opt vid e gvs e1 ->
      good c -> updatable opt e1 (c_graph c) ps gs -> shared_readers opt e1 (c_graph c) ps gs ->
      compute_updates opt e1 c ps gs = Some (c', us) ->
      update fuel opt e1 c ps gs feeder = Ok (c', e2) ->
      nth_error ps k = Some p -> nth_error gs k = Some gr -> var_tensor (c_graph c) p vid ->
      tensor_value (c_graph c) feeder (array_list e1) gr (inl gv) ->
      training opt vid e (gvs ++ [gv]) e2
  | train_other gvs e1 e2 :
      training opt vid e gvs e1 ->
      (forall sids, state_ids opt e1 vid sids -> state_ids opt e2 vid sids) ->
      (forall x, operand opt e1 vid x -> nth_error (array_list e2) x = nth_error (array_list e1) x) ->
      training opt vid e gvs e2.

  (** The parameter's array and its state arrays. *)
  Definition holds (opt : optimizer) (vid : nat) (sids : list nat) (e : env (arr R)) (s : arr R * list (arr R)) : Prop :=
    state_ids opt e vid sids /\ nth_error (array_list e) vid = Some (fst s) /\
    Forall2 (fun sid a => nth_error (array_list e) sid = Some a) sids (snd s).

  Lemma holds_fun l sids : forall (s1 s2 : list (arr R)), Forall2 (fun sid a => nth_error l sid = Some a) sids s1 ->
    Forall2 (fun sid a => nth_error l sid = Some a) sids s2 -> s1 = s2.
  Proof.
    induction sids as [|x sids IH]; intros s1 s2 H1 H2; inversion H1; inversion H2; subst; auto.
    f_equal; [congruence | auto].
  Qed.

  Theorem training_steps opt vid e gvs e' sids s : training opt vid e gvs e' -> holds opt vid sids e s ->
    exists s', run_steps powf opt s gvs = Some s' /\ holds opt vid sids e' s'.
  Proof.
    intros H Hs. induction H as [|gvs e1 c c' ps gs us feeder fuel k p gr gv e2 H IH Hg Hu Hsh Hcu Hupd Hp Hgr Hvt Hgv|gvs e1 e2 H IH Hid Harr].
    - exists s. auto.
    - destruct IH as ([pv svs] & Hr & Hid & Hpv & Hsv). simpl in Hpv, Hsv.
      destruct (update_sound powf var_op inj compute debug Hcompute opt e1 c c' ps gs us Hg Hu Hsh Hcu feeder fuel e2 Hupd)
        as (Hn & _ & Hall & _).
      destruct (Hall k p gr vid Hp Hgr Hvt) as (sids1 & pv1 & gv1 & svs1 & p' & svs' & S1 & S2 & S3 & S4 & S5 & S6 & S7).
      assert (sids1 = sids) by (eapply ids_fun; eauto). subst sids1.
      assert (pv1 = pv) by congruence. subst pv1.
      assert (svs1 = svs) by (eapply holds_fun; eauto). subst svs1.
      assert (gv1 = gv). { pose proof (tensor_value_fun _ _ _ _ _ _ _ _ _ S4 Hgv) as Heq. injection Heq; auto. } subst gv1.
      exists (p', svs'). rewrite run_steps_snoc, Hr. cbn [fst snd]. split; [exact S5|].
      split; [|split; [exact S6 | exact S7]]. unfold state_ids in *. rewrite Hn. exact Hid.
    - destruct IH as (s' & Hr & Hids & Hpv & Hsv). exists s'. split; auto. split; [apply Hid; exact Hids|]. split.
      + rewrite Harr; [exact Hpv | left; reflexivity].
      + assert (Hop : forall x, In x sids -> nth_error (array_list e2) x = nth_error (array_list e1) x).
        { intros x Hx. apply Harr. right. exists sids. auto. }
        clear - Hsv Hop. induction Hsv as [|x a l l' Hxa Hl IH]; constructor.
        * rewrite Hop by (left; reflexivity). exact Hxa.
        * apply IH. intros y Hy. apply Hop. right; exact Hy.
  Qed.

  (** Creating the optimizer provides the state to start from. *)
  Lemma created_holds opt vids e0 e vid p0 : created opt vids e0 e -> In vid vids -> nth_error (array_list e0) vid = Some p0 ->
    exists sids, holds opt vid sids e (p0, initial_states opt (a_shape p0)).
  Proof.
    intros [(new & Hnew & _) Hst _ _] Hin Hp. destruct (Hst vid p0 Hin Hp) as (sids & F1 & _ & _ & F4).
    exists sids. split; auto. split; auto. simpl. rewrite Hnew, nth_error_app1; auto. apply nth_error_Some. congruence.
  Qed.

  Lemma full_zero sh : has_shape sh (full sh 0%R) /\ forall i, in_bounds sh i -> aget 0%R (full sh 0%R) i = 0%R.
  Proof.
    split.
    - apply has_shape_wf. split; [apply tab_shape | apply tab_wf].
    - intros i Hi. apply aget_full. exact Hi.
  Qed.

  Local Open Scope R_scope.
  (** The state array found under a name. *)
  Definition state_of (opt : optimizer) (e : env (arr R)) (name : string) (a : arr R) : Prop :=
    get_array_by_name e (opt_namespace opt) name = Some (Some a).
  Lemma holds_names opt vid sids e p sts : holds opt vid sids e (p, sts) -> Forall2 (state_of opt e) (state_names opt vid) sts.
  Proof.
    intros (Hid & _ & Hs). unfold state_ids in Hid. simpl in Hs. revert sts Hs.
    induction Hid as [|nm sid l l' Hn Hl IH]; intros sts Hs; inversion Hs; subst; constructor; auto.
    unfold state_of, get_array_by_name. rewrite Hn. simpl. congruence.
  Qed.

  Variables (sh : list nat) (vids : list nat) (vid : nat) (p0 : arr R).
  Variables (e0 e e' : env (arr R)) (gvs : list (arr R)).
  Hypothesis Hshape : has_shape sh p0.
  Hypothesis Hgrads : Forall (has_shape sh) gvs.
  Hypothesis Hvid : In vid vids.
  Hypothesis Hp0 : nth_error (array_list e0) vid = Some p0.
  Hypothesis Hvids : forall v, In v vids -> (v < length (array_list e0))%nat.

  Lemma start opt : opt_new opt vids e0 = Some e -> exists sids, holds opt vid sids e (p0, initial_states opt sh).
  Proof.
    intros Hn. destruct (opt_new_spec opt vids e0 Hvids) as (e1 & Hn' & Hc).
    assert (e1 = e) by congruence. subst e1. destruct (created_holds opt vids e0 e vid p0 Hc Hvid Hp0) as (sids & H).
    destruct Hshape as [Hs _]. rewrite Hs in H. eauto.
  Qed.

  Theorem sgd_training alpha : opt_new (SGD alpha) vids e0 = Some e -> training (SGD alpha) vid e gvs e' ->
    exists p, nth_error (array_list e') vid = Some p /\ has_shape sh p /\
      forall i, in_bounds sh i -> aget 0 p i = aget 0 p0 i - alpha * sigma (length gvs) (fun k => grad_at gvs k i).
  Proof.
    intros Hn Ht. destruct (start _ Hn) as (sids & Hh). destruct (training_steps _ _ _ _ _ _ _ Ht Hh) as (s' & Hr & _ & Hp & _).
    destruct (sgd_history powf sh alpha p0 gvs Hshape Hgrads) as (p & Hr' & Hps & Hpv).
    simpl in Hr. rewrite Hr' in Hr. injection Hr as <-. exists p. auto.
  Qed.

  Theorem momentum_training lr mu ns : opt_new (MomentumSGD lr mu ns) vids e0 = Some e -> training (MomentumSGD lr mu ns) vid e gvs e' ->
    exists p v, nth_error (array_list e') vid = Some p /\ has_shape sh p /\
      get_array_by_name e' ns (decimal vid) = Some (Some v) /\ has_shape sh v /\
      forall i, in_bounds sh i ->
        aget 0 v i = velocity lr mu gvs (length gvs) i /\
        aget 0 p i = aget 0 p0 i + sigma (length gvs) (fun k => velocity lr mu gvs (S k) i).
  Proof.
    intros Hn Ht. destruct (start _ Hn) as (sids & Hh). destruct (training_steps _ _ _ _ _ _ _ Ht Hh) as (s' & Hr & Hh').
    destruct (full_zero sh) as [F1 F2].
    destruct (momentum_history powf sh lr mu ns p0 (full sh 0) gvs Hshape F1 F2 Hgrads) as (p & v & Hr' & Hps & Hvs & Hv).
    simpl in Hr. rewrite Hr' in Hr. injection Hr as <-. exists p, v.
    pose proof (holds_names _ _ _ _ _ _ Hh') as Hst. inversion Hst; subst.
    destruct Hh' as (_ & Hp & _). repeat (split; auto); apply Hv; auto.
  Qed.

  Theorem adagrad_training lr ns : opt_new (AdaGrad lr ns) vids e0 = Some e -> training (AdaGrad lr ns) vid e gvs e' ->
    exists p h, nth_error (array_list e') vid = Some p /\ has_shape sh p /\
      get_array_by_name e' ns (decimal vid) = Some (Some h) /\ has_shape sh h /\
      forall i, in_bounds sh i ->
        aget 0 h i = squares gvs (length gvs) i /\
        aget 0 p i = aget 0 p0 i + sigma (length gvs) (fun k => adagrad_move lr gvs k i).
  Proof.
    intros Hn Ht. destruct (start _ Hn) as (sids & Hh). destruct (training_steps _ _ _ _ _ _ _ Ht Hh) as (s' & Hr & Hh').
    destruct (full_zero sh) as [F1 F2].
    destruct (adagrad_history powf sh lr ns p0 (full sh 0) gvs Hshape F1 F2 Hgrads) as (p & v & Hr' & Hps & Hvs & Hv).
    simpl in Hr. rewrite Hr' in Hr. injection Hr as <-. exists p, v.
    pose proof (holds_names _ _ _ _ _ _ Hh') as Hst. inversion Hst; subst.
    destruct Hh' as (_ & Hp & _). repeat (split; auto); apply Hv; auto.
  Qed.

  Theorem adam_training alpha eps b1 b2 ns :
    (forall n, powf b1 (INR (S n)) = b1 ^ S n) -> (forall n, powf b2 (INR (S n)) = b2 ^ S n) ->
    opt_new (Adam alpha eps b1 b2 ns) vids e0 = Some e -> training (Adam alpha eps b1 b2 ns) vid e gvs e' ->
    exists p m v, nth_error (array_list e') vid = Some p /\ has_shape sh p /\
      get_array_by_name e' ns (decimal vid ++ "m") = Some (Some m) /\ has_shape sh m /\
      get_array_by_name e' ns (decimal vid ++ "v") = Some (Some v) /\ has_shape sh v /\
      get_array_by_name e' ns (decimal vid ++ "t") = Some (Some (Arr [] [INR (S (length gvs))])) /\
      forall i, in_bounds sh i ->
        aget 0 m i = first_moment b1 gvs (length gvs) i /\
        aget 0 v i = second_moment b2 gvs (length gvs) i /\
        aget 0 p i = aget 0 p0 i + sigma (length gvs) (fun k => adam_move alpha eps b1 b2 gvs k i).
  Proof.
    intros Hpow1 Hpow2 Hn Ht. destruct (start _ Hn) as (sids & Hh). destruct (training_steps _ _ _ _ _ _ _ Ht Hh) as (s' & Hr & Hh').
    destruct (full_zero sh) as [F1 F2].
    destruct (adam_history powf sh alpha eps b1 b2 ns p0 (full sh 0) (full sh 0) gvs Hpow1 Hpow2 Hshape F1 F1 F2 F2 Hgrads)
      as (p & m & v & Hr' & Hps & Hms & Hvs & Hv).
    simpl in Hr. rewrite Hr' in Hr. injection Hr as <-. exists p, m, v.
    pose proof (holds_names _ _ _ _ _ _ Hh') as Hst.
    inversion Hst as [|? ? ? ? M1 Hst1]; subst. inversion Hst1 as [|? ? ? ? M2 Hst2]; subst. inversion Hst2 as [|? ? ? ? M3 Hst3]; subst.
    destruct Hh' as (_ & Hp & _). unfold state_of in *. repeat (split; auto); apply Hv; auto.
  Qed.
End Training.
