(** [depends_on]: order of effects, preserved values, possible cycles. *)
From Coq Require Import String List Arith ZArith Bool Relations Lia.
Import ListNotations.
From Verif Require Import Graph_Model Eval_Model Eval_Spec Eval_Proofs Eval_Proofs2 Graph_Proofs.

Section Depends.
  Context {O V E : Type}.
  Variable shape_of : V -> list nat.
  Variable compute : O -> list (opin V) -> cout V E.
  Variable debug : bool.
  Variable g g' : graph O.
  Variable feeds : list (ph_key * V).
  Variable ctrl_op : O.
  Variables (x : nat) (deps : list nat).
  Hypothesis Hwf : wf_graph g.
  Hypothesis Hx : x < length g.
  Hypothesis Hdeps : forall d, In d deps -> d < length g.
  Hypothesis Hcd : control_dependencies ctrl_op g x deps = Some g'.

  Lemma cd_lookup_other i : i < length g -> i <> x -> nth_error g' i = nth_error g i.
  Proof.
    intros Hi Hne. apply control_dependencies_spec in Hcd.
    destruct Hcd as (n & i0 & rest & ctrl & Hn & Hin & Hop & Hph & Hv & Hci & ->).
    rewrite update_nth_nth. apply Nat.eqb_neq in Hne. rewrite Hne.
    apply nth_error_app1. exact Hi.
  Qed.

  Lemma cd_lookup : exists n i0 rest ctrl,
      nth_error g x = Some n /\ n_inputs n = i0 :: rest /\
      n_op ctrl = ctrl_op /\ n_ph ctrl = None /\ n_var ctrl = None /\
      n_inputs ctrl = Incoming (in_id i0) false 0 :: map (fun d => Incoming d false 0) deps /\
      nth_error g' (length g) = Some ctrl /\
      nth_error g' x = Some (redirect_first n (length g)).
  Proof.
    pose proof Hcd as H. apply control_dependencies_spec in H.
    destruct H as (n & i0 & rest & ctrl & Hn & Hin & Hop & Hph & Hv & Hci & Hg).
    exists n, i0, rest, ctrl. repeat (split; [assumption|]). rewrite Hg. split.
    - rewrite update_nth_nth. destruct (length g =? x)%nat eqn:He; [apply Nat.eqb_eq in He; lia|].
      rewrite nth_error_app2, Nat.sub_diag; auto.
    - rewrite update_nth_nth, Nat.eqb_refl, nth_error_app1, Hn; auto.
  Qed.

  Lemma cd_wf : wf_graph g'.
  Proof.
    destruct cd_lookup as (n & i0 & rest & ctrl & Hn & Hin & Hop & Hph & Hv & Hci & Hctrl & Hx').
    assert (Hlen : length g' = S (length g)).
    { pose proof Hcd as H. apply control_dependencies_spec in H.
      destruct H as (? & ? & ? & ? & _ & _ & _ & _ & _ & _ & ->).
      rewrite update_nth_length, app_length. simpl. lia. }
    destruct Hwf as [H1 H2].
    assert (Hcase : forall i m, nth_error g' i = Some m ->
              (i < length g /\ i <> x /\ nth_error g i = Some m) \/
              (i = x /\ m = redirect_first n (length g)) \/ (i = length g /\ m = ctrl)).
    { intros i m Hm. destruct (Nat.eq_dec i x) as [->|Hne]; [right; left; split; congruence|].
      destruct (Nat.lt_trichotomy i (length g)) as [Hlt|[->|Hgt]].
      - left. repeat split; auto. rewrite <- cd_lookup_other; auto.
      - right; right. split; congruence.
      - exfalso. assert (nth_error g' i <> None) by congruence. apply nth_error_Some in H. lia. }
    split.
    - intros i j (m & inc & Hm & Hi & <-). rewrite Hlen.
      destruct (Hcase i m Hm) as [(Hl & Hne & Hm')|[[-> ->]|[-> ->]]].
      + assert (in_id inc < length g) by (apply (H1 i); exists m, inc; auto). lia.
      + unfold redirect_first in Hi. rewrite Hin in Hi. simpl in Hi.
        destruct Hi as [<-|Hi]; simpl; [lia|].
        assert (in_id inc < length g); [|lia].
        apply (H1 x). exists n, inc. repeat split; auto. rewrite Hin. right; auto.
      + rewrite Hci in Hi. destruct Hi as [<-|Hi]; simpl.
        * assert (in_id i0 < length g); [|lia].
          apply (H1 x). exists n, i0. repeat split; auto. rewrite Hin. left; auto.
        * apply in_map_iff in Hi. destruct Hi as (d & <- & Hd). simpl. specialize (Hdeps d Hd). lia.
    - intros i m Hm Hs. destruct (Hcase i m Hm) as [(Hl & Hne & Hm')|[[-> ->]|[-> ->]]].
      + eapply H2; eauto.
      + exfalso. unfold is_variable, is_placeholder in Hs. rewrite redirect_var, redirect_ph in Hs.
        specialize (H2 x n Hn). unfold is_variable, is_placeholder in H2. rewrite H2 in Hin; auto. discriminate.
      + unfold is_variable, is_placeholder in Hs. rewrite Hv, Hph in Hs. discriminate.
  Qed.

  (** Every evaluation that computes [x] executes all of [deps] before it. *)
  Lemma depends_on_order targets env0 fuel oc : in_range g' targets ->
    eval shape_of compute debug g' feeds fuel targets env0 = Ok oc ->
    forall l1 ev l2, oc_log oc = l1 ++ ev :: l2 -> event_id ev = x ->
    forall d, In d deps -> computed g' d -> In d (map event_id l1).
  Proof.
    intros Hr He l1 ev l2 Hl Hid d Hd Hc.
    destruct cd_lookup as (n & i0 & rest & ctrl & Hn & Hin & Hop & Hph & Hv & Hci & Hctrl & Hx').
    destruct (eval_order shape_of compute debug g' feeds cd_wf targets env0 fuel oc Hr He) as (_ & _ & Hord).
    apply (Hord l1 ev l2 Hl d); auto. rewrite Hid.
    eapply t_trans; apply t_step.
    - exists (redirect_first n (length g)), (Incoming (length g) (in_mut i0) (in_sel i0)).
      split; [exact Hx'|]. split; [|reflexivity]. unfold redirect_first. rewrite Hin. left; reflexivity.
    - exists ctrl, (Incoming d false 0). split; [exact Hctrl|]. split; [|reflexivity].
      rewrite Hci. right. apply in_map_iff. eauto.
  Qed.

  (** Values are unchanged, provided the prerequisites succeed. *)
  Section Values.
    Variable env : list V.
    Hypothesis Hctrl_op : forall v rest, compute ctrl_op (NonVar v :: rest) = CRet [] [v] None /\
                                         compute ctrl_op (RdOnly v :: rest) = CRet [] [v] None.
    Hypothesis Hro : forall op v rest, compute op (RdOnly v :: rest) = compute op (NonVar v :: rest).
    Hypothesis Hsel : forall n i0 rest, nth_error g x = Some n -> n_inputs n = i0 :: rest ->
      in_mut i0 = false /\ in_sel i0 = 0.
    Hypothesis Hok : forall d, In d deps -> exists a, arg shape_of compute debug g' feeds env (Incoming d false 0) a.

    Lemma cd_op_node i n : op_node g i n -> i <> x -> op_node g' i n.
    Proof.
      intros (Hn & Hp & Hv) Hne. split; auto. rewrite cd_lookup_other; auto.
      apply nth_error_Some. congruence.
    Qed.
    Lemma cd_op_node_x n : op_node g x n -> op_node g' x (redirect_first n (length g)).
    Proof.
      destruct cd_lookup as (n0 & i0 & rest & ctrl & Hn & Hin & Hop & Hph & Hv & Hci & Hctrl & Hx').
      intros (Hn' & Hp & Hvn). assert (n0 = n) by congruence; subst. split; [exact Hx'|].
      rewrite redirect_ph, redirect_var. auto.
    Qed.
    Lemma cd_nth_src i n : nth_error g i = Some n -> n_inputs n = [] -> nth_error g' i = Some n.
    Proof.
      intros Hn Hi.
      destruct cd_lookup as (n0 & i0 & rest & ctrl & Hn0 & Hin & Hop & Hph & Hv & Hci & Hctrl & Hx').
      rewrite cd_lookup_other; auto.
      - apply nth_error_Some. congruence.
      - intros ->. congruence.
    Qed.

    Lemma depends_on_value i r : value shape_of compute debug g feeds env i r ->
      value shape_of compute debug g' feeds env i r.
    Proof.
      destruct cd_lookup as (n0 & i0 & rest & ctrl & Hn0 & Hin & Hop & Hph & Hv & Hci & Hctrl & Hx').
      destruct (Hsel n0 i0 rest Hn0 Hin) as [Hm0 Hs0].
      assert (Hcn : op_node g' (length g) ctrl) by (repeat split; auto).
      set (c0 := Incoming (in_id i0) false 0).
      assert (Hi0eq : i0 = c0).
      { unfold c0. destruct i0 as [a b c]; simpl in *. subst. reflexivity. }
      assert (Hda : exists ds, Forall2 (arg shape_of compute debug g' feeds env)
                (map (fun d => Incoming d false 0) deps) ds).
      { clear -Hok. induction deps as [|d l IH]; [exists []; constructor|].
        destruct IH as [ds Hds]; [intros; apply Hok; right; auto|].
        destruct (Hok d (or_introl eq_refl)) as [a Ha]. exists (a :: ds). simpl. constructor; auto. }
      destruct Hda as [ds Hds].
      assert (Hrd : redirect_first n0 (length g) =
                Node (n_op n0) (Incoming (length g) false 0 :: rest) (n_rank n0)
                  (n_shape n0) (n_ph n0) (n_diff n0) (n_backprop n0) (n_known n0) (n_var n0)).
      { unfold redirect_first. rewrite Hin, Hm0, Hs0. reflexivity. }
      (* the value of the control node *)
      assert (Hc1 : forall a, arg shape_of compute debug g' feeds env c0 a ->
                 exists v, (a = NonVar v \/ a = RdOnly v) /\
                   arg shape_of compute debug g' feeds env (Incoming (length g) false 0) (NonVar v)).
      { intros a Ha.
        assert (Hav : exists v, a = NonVar v \/ a = RdOnly v).
        { inversion Ha as [? ? v ? ? Hi1 Ha1|? ? ? v ? ? ? ? Hi1 Ha1|? ? ? v ? ? ? Hi1 Ha1]; exists v; auto. }
        destruct Hav as [v Hav]. exists v. split; auto.
        apply (arg_op _ _ _ _ _ _ (Incoming (length g) false 0) ctrl [v] v); simpl; auto.
        apply (value_run _ _ _ _ _ _ _ ctrl (a :: ds) [] [v] None); auto.
        - rewrite Hci. constructor; auto.
        - rewrite Hop. destruct (Hctrl_op v ds) as [H1 H2]. destruct Hav as [->| ->]; auto.
        - intros _; discriminate. }
      apply (value_ind' shape_of compute debug g feeds env
               (fun i r => value shape_of compute debug g' feeds env i r)
               (fun inc a => arg shape_of compute debug g' feeds env inc a)).
      - (* run *)
        intros k n xs ws ys status Hn _ HQ Hc Hd. destruct (Nat.eq_dec k x) as [->|Hne].
        + assert (n = n0) by (destruct Hn; congruence). subst n.
          rewrite Hin in HQ. inversion HQ as [|? a ? rs Ha Hrs]; subst xs.
          rewrite Hi0eq in Ha. destruct (Hc1 a Ha) as (v & Hav & Hnew).
          apply (value_run _ _ _ _ _ _ _ (redirect_first n0 (length g)) (NonVar v :: rs) ws ys status).
          * apply cd_op_node_x; auto.
          * rewrite Hrd. simpl. constructor; auto.
          * rewrite Hrd. simpl. destruct Hav as [->| ->]; auto. rewrite <- Hro. exact Hc.
          * exact Hd.
        + eapply value_run; eauto. apply cd_op_node; auto.
      - (* fail *)
        intros k n pre inc post m e Hn Hi Hp Hm _ IH. destruct (Nat.eq_dec k x) as [->|Hne].
        + assert (n = n0) by (destruct Hn; congruence). subst n.
          assert (Hm' : exists m', op_node g' (in_id inc) m').
          { destruct (Nat.eq_dec (in_id inc) x) as [Heq|Hne].
            - rewrite Heq in *. exists (redirect_first m (length g)). apply cd_op_node_x; auto.
            - exists m. apply cd_op_node; auto. }
          destruct Hm' as [m' Hm'].
          rewrite Hin in Hi. destruct pre as [|p pre]; simpl in Hi; injection Hi as Hia Hib.
          * apply (value_fail _ _ _ _ _ _ x (redirect_first n0 (length g)) [] (Incoming (length g) false 0) post ctrl e).
            -- apply cd_op_node_x; auto.
            -- rewrite Hrd. simpl. rewrite Hib. reflexivity.
            -- intros a [].
            -- exact Hcn.
            -- simpl. apply (value_fail _ _ _ _ _ _ (length g) ctrl [] c0 (map (fun d => Incoming d false 0) deps) m' e); auto.
               ++ intros a [].
               ++ rewrite <- Hi0eq, Hia. exact Hm'.
               ++ rewrite <- Hi0eq, Hia. exact IH.
          * apply (value_fail _ _ _ _ _ _ x (redirect_first n0 (length g)) (Incoming (length g) false 0 :: pre) inc post m' e); auto.
            -- apply cd_op_node_x; auto.
            -- rewrite Hrd. simpl. rewrite Hib. reflexivity.
            -- intros a [<-|Ha].
               ++ destruct (Hp p (or_introl eq_refl)) as (y & _ & Hy). rewrite <- Hia, Hi0eq in Hy.
                  destruct (Hc1 y Hy) as (v & _ & Hnew). eauto.
               ++ destruct (Hp a (or_intror Ha)) as (y & _ & Hy). eauto.
        + assert (Hm' : exists m', op_node g' (in_id inc) m').
          { destruct (Nat.eq_dec (in_id inc) x) as [Heq|Hne'].
            - rewrite Heq in *. exists (redirect_first m (length g)). apply cd_op_node_x; auto.
            - exists m. apply cd_op_node; auto. }
          destruct Hm' as [m' Hm'].
          eapply value_fail; [apply cd_op_node; eauto | exact Hi | | exact Hm' | exact IH].
          intros a Ha. destruct (Hp a Ha) as (y & _ & Hy). eauto.
      - (* placeholder *)
        intros inc n v Hn Hf. econstructor 1; eauto. apply cd_nth_src; auto.
        destruct (fed_ph _ _ _ _ _ Hf) as [name Hp].
        apply (proj2 Hwf _ n Hn). unfold is_variable, is_placeholder. rewrite Hp. apply orb_true_r.
      - intros inc n vid v Hn Hp Hvn He. econstructor 2; eauto. apply cd_nth_src; auto.
        apply (proj2 Hwf _ n Hn). unfold is_variable, is_placeholder. rewrite Hvn. reflexivity.
      - intros inc n ys v Hn _ IH Hy.
        destruct (Nat.eq_dec (in_id inc) x) as [Heq|Hne].
        + rewrite Heq in *. eapply arg_op; [rewrite Heq; apply cd_op_node_x; eauto | rewrite Heq; exact IH | exact Hy].
        + eapply arg_op; [apply cd_op_node; eauto | exact IH | exact Hy].
    Qed.
  End Values.
End Depends.
