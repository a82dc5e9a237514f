(** Evaluating the tensor [get_update_op] returns alone does what [update] does; when
    an evaluation together with other tensors succeeds. *)
From Coq Require Import String List Arith ZArith Bool Relations Reals Lia Lra.
Import ListNotations.
From Verif Require Import Graph_Model Eval_Model Eval_Spec Eval_Proofs Eval_Proofs2 Eval_Order Eval_Update Eval_Split Graph_Proofs Grad_Frame Var_Model Array_Model Arith_Model Shape_Model Opt_Model Opt_Proofs Opt_Effect Joint_Model Opt_Joint Opt_Joint2.

(** ** Nodes added to the graph do not matter to tensors that were there *)
Section Extend.
  Context {O V E : Type}.
  Variable shape_of : V -> list nat.
  Variable compute : O -> list (opin V) -> cout V E.
  Variable debug : bool.
  Variables (g more : graph O) (feeds : list (ph_key * V)).
  Hypothesis Hwf : wf_graph g.
  Notation G := (g ++ more).

  Definition low (st : @state V E) : Prop := forall i b, In (i, b) (st_stack st) -> i < length g.

  Lemma ext_nth i : i < length g -> nth_error G i = nth_error g i.
  Proof. apply nth_error_app1. Qed.
  Lemma ext_fetch (s : @storage V E) env inc : in_id inc < length g -> fetch shape_of G feeds s env inc = fetch shape_of g feeds s env inc.
  Proof. intros H. unfold fetch. rewrite ext_nth by exact H. reflexivity. Qed.
  Lemma ext_collect (s : @storage V E) env ins : (forall inc, In inc ins -> in_id inc < length g) ->
    collect shape_of G feeds s env ins = collect shape_of g feeds s env ins.
  Proof.
    induction ins as [|a l IH]; intros H; [reflexivity|]. cbn [collect]. rewrite ext_fetch by (apply H; left; reflexivity).
    rewrite IH; [reflexivity|]. intros inc Hi. apply H. right; exact Hi.
  Qed.
  Lemma ext_target ins pos : (forall inc, In inc ins -> in_id inc < length g) -> write_target G ins pos = write_target g ins pos.
  Proof.
    intros H. unfold write_target. destruct (nth_error ins pos) as [inc|] eqn:Hn; [|reflexivity].
    rewrite ext_nth; [reflexivity|]. apply H. eapply nth_error_In; eauto.
  Qed.
  Lemma ext_writes ins (ws : list (nat * V)) : (forall inc, In inc ins -> in_id inc < length g) ->
    forall env, apply_writes G ins ws env = apply_writes g ins ws env.
  Proof.
    intros H. unfold apply_writes. induction ws as [|w ws IH]; intros env; [reflexivity|]. cbn [fold_left].
    rewrite ext_target by exact H. apply IH.
  Qed.
  Lemma ext_push (s : @storage V E) ins : (forall inc, In inc ins -> in_id inc < length g) -> forall stack,
    push_children G s ins stack = push_children g s ins stack.
  Proof.
    induction ins as [|a l IH]; intros H stack; [reflexivity|]. cbn [push_children].
    rewrite ext_nth by (apply H; left; reflexivity). destruct (nth_error g (in_id a)); [|reflexivity].
    apply IH. intros inc Hi. apply H. right; exact Hi.
  Qed.
  Lemma push_low (s : @storage V E) ins : (forall inc, In inc ins -> in_id inc < length g) -> forall stack stack',
    (forall i b, In (i, b) stack -> i < length g) -> push_children g s ins stack = Ok stack' ->
    forall i b, In (i, b) stack' -> i < length g.
  Proof.
    induction ins as [|a l IH]; intros H stack stack' Hs; cbn [push_children].
    - intros E1. injection E1 as <-. exact Hs.
    - destruct (nth_error g (in_id a)); [|discriminate]. apply IH.
      + intros inc Hi. apply H. right; exact Hi.
      + destruct (would_not_visit _ _ _); [exact Hs|]. intros i b [Hin|Hin]; [|eapply Hs; eauto].
        injection Hin as <- <-. apply H. left; reflexivity.
  Qed.
  Lemma inputs_low i n : nth_error g i = Some n -> forall inc, In inc (n_inputs n) -> in_id inc < length g.
  Proof. intros Hn inc Hi. apply (proj1 Hwf i). exists n, inc. auto. Qed.

  Lemma ext_step (st : @state V E) : low st -> step shape_of compute debug G feeds st = step shape_of compute debug g feeds st /\
    (forall st', step shape_of compute debug g feeds st = Ok (Some st') -> low st').
  Proof.
    intros Hlow. unfold step. destruct (st_stack st) as [|[id b] rest] eqn:Hs.
    - split; [reflexivity|discriminate].
    - assert (Hid : id < length g) by (apply (Hlow id b); rewrite Hs; left; reflexivity).
      assert (Hrest : forall i b, In (i, b) rest -> i < length g).
      { intros i b' Hi. apply (Hlow i b'). rewrite Hs. right; exact Hi. }
      rewrite ext_nth by exact Hid. destruct (nth_error g id) as [n|] eqn:Hn; [|split; [reflexivity|discriminate]].
      pose proof (inputs_low id n Hn) as Hin. destruct b.
      + destruct (would_not_visit n id (st_store st)).
        * split; [reflexivity|]. intros st' H. injection H as <-. exact Hrest.
        * assert (Hv : visit shape_of compute debug G feeds st rest id n = visit shape_of compute debug g feeds st rest id n).
          { unfold visit. rewrite ext_collect by exact Hin. destruct (collect _ _ _ _ _ _); try reflexivity.
            destruct (compute (n_op n) l); [reflexivity|]. rewrite ext_writes by exact Hin. reflexivity. }
          rewrite Hv. split; [reflexivity|]. intros st'. unfold visit. destruct (collect _ _ _ _ _ _); try discriminate.
          -- intros H. injection H as <-. exact Hrest.
          -- destruct (compute (n_op n) l); [discriminate|]. destruct (debug && _); [discriminate|]. intros H. injection H as <-. exact Hrest.
      + rewrite ext_push by exact Hin. split; [reflexivity|]. intros st'.
        destruct (push_children g (st_store st) (n_inputs n) ((id, true) :: rest)) as [stack'| |] eqn:Hp; try discriminate.
        intros H. injection H as <-. unfold low. cbn [st_stack]. apply (push_low _ _ Hin _ _) with (2 := Hp).
        intros i b [Hi|Hi]; [injection Hi as <- <-; exact Hid | eapply Hrest; eauto].
  Qed.
  Lemma ext_loop fuel : forall st, low st -> loop shape_of compute debug G feeds fuel st = loop shape_of compute debug g feeds fuel st.
  Proof.
    induction fuel as [|fuel IH]; intros st Hl; [reflexivity|]. cbn [loop]. destruct (ext_step st Hl) as [-> Hn].
    destruct (step shape_of compute debug g feeds st) as [[st'|]| |] eqn:Hs; try reflexivity. apply IH, Hn. reflexivity.
  Qed.
  Lemma low_init us env0 : (forall u, In u us -> u < length g) -> low (init_state us env0).
  Proof.
    intros H i b Hi. cbn [init_state st_stack] in Hi. apply in_rev, in_map_iff in Hi. destruct Hi as (u & Hu & Hin).
    injection Hu as <- <-. apply H, Hin.
  Qed.
End Extend.

Section Alone.
  Context {O E : Type}.
  Variable powf : R -> R -> R.
  Variables (var_op : O) (inj : opt_op -> O) (shape_op addn_op : O).
  Variable compute : O -> list (opin (arr R)) -> cout (arr R) E.
  Variable debug : bool.
  Hypothesis Hcompute : forall o xs, compute (inj o) xs = opt_compute powf o xs.
  Hypothesis Haddn : forall xs, compute addn_op xs = addn_compute xs.
  Notation loop := (loop a_shape compute debug).
  Notation step := (step a_shape compute debug).
  Notation eval := (eval a_shape compute debug).
  Variable feeder : list (ph_key * arr R).

  Lemma collect_zeros (G : graph O) (s : @storage (arr R) E) env l : (forall u, In u l -> computed G u) ->
    (forall u, In u l -> s u = Some (inl [empty_output])) ->
    collect a_shape G feeder s env (map (fun u => Incoming u false 0) l) = XOk (map NonVar (repeat empty_output (length l))).
  Proof.
    induction l as [|u l IH]; intros Hc Hs; [reflexivity|]. cbn [map collect length repeat].
    destruct (Hc u (or_introl eq_refl)) as (n & Hn & Hp & Hv). unfold fetch. cbn [in_id in_sel]. rewrite Hn, Hp, Hv, (Hs u (or_introl eq_refl)). cbn [nth_error].
    rewrite IH; [reflexivity|intros; apply Hc; right; assumption|intros; apply Hs; right; assumption].
  Qed.
  Lemma collect_stored (G : graph O) (s : @storage (arr R) E) env l : (forall u, In u l -> computed G u) -> forall xs,
    collect a_shape G feeder s env (map (fun u => Incoming u false 0) l) = XOk xs ->
    forall u, In u l -> exists v vs, s u = Some (inl (v :: vs)).
  Proof.
    induction l as [|u l IH]; intros Hc xs Hx w Hw; [destruct Hw|]. cbn [map collect] in Hx.
    destruct (Hc u (or_introl eq_refl)) as (n & Hn & Hp & Hv). unfold fetch in Hx. cbn [in_id in_sel] in Hx. rewrite Hn, Hp, Hv in Hx.
    destruct (s u) as [[[|v vs]|e1]|] eqn:Hs; try discriminate.
    cbn [nth_error] in Hx. destruct (collect _ _ _ _ _ _) as [|e1|xs'] eqn:Hcl; try discriminate.
    destruct Hw as [<-|Hw]; [eauto|]. apply (IH (fun u Hu => Hc u (or_intror Hu)) xs' eq_refl w Hw).
  Qed.

  Variables (opt : optimizer) (e : env (arr R)) (c c2 : context O) (ps gs : list nat) (U : nat).
  Notation g := (c_graph c).
  Notation G := (c_graph c2).
  Notation env0 := (array_list e).
  Hypothesis Hgood : good c.
  Hypothesis Hupd : updatable opt e g ps gs.
  Hypothesis Hget : get_update_op var_op inj shape_op addn_op opt e c ps gs = Some (c2, U).

  Lemma none_readers : readers g [].
  Proof. split; [intros t []|intros t i x []]. Qed.

  Lemma last_steps us n st1 :
    nth_error G U = Some n -> n_op n = addn_op -> n_inputs n = map (fun u => Incoming u false 0) us -> n_ph n = None -> n_var n = None ->
    (forall u, In u us -> computed G u) -> (forall u, In u us -> st_store st1 u <> None) -> st_store st1 U = None -> st_stack st1 = [] ->
    forall f st', loop G feeder f (put_below [(U, false)] st1) = Ok st' ->
    (exists v vs, st_store st' U = Some (inl (v :: vs))) ->
    st_env st' = st_env st1 /\ forall u, In u us -> exists v vs, st_store st1 u = Some (inl (v :: vs)).
  Proof.
    intros Hn Hop Hi Hp Hv Hc Hs HU Hst f st' Hl (v & vs & HsU).
    destruct f as [|f]; [discriminate|]. cbn [Eval_Model.loop] in Hl.
    assert (E1 : step G feeder (put_below [(U, false)] st1) = Ok (Some (put_below [(U, true)] st1))).
    { unfold Eval_Model.step, put_below. cbn [st_stack st_store st_env st_log]. rewrite Hst. cbn [app].
      rewrite Hn, Hi, (push_none G (st_store st1) us _ Hc Hs). reflexivity. }
    rewrite E1 in Hl. destruct f as [|f]; [discriminate|]. cbn [Eval_Model.loop] in Hl.
    unfold Eval_Model.step, put_below in Hl. cbn [st_stack st_store st_env st_log] in Hl. rewrite Hst in Hl. cbn [app] in Hl. rewrite Hn in Hl.
    assert (Hw : would_not_visit n U (st_store st1) = false).
    { unfold would_not_visit, is_placeholder, is_variable. rewrite Hp, Hv, HU. reflexivity. }
    rewrite Hw in Hl. unfold visit in Hl. cbn [st_store st_env st_log] in Hl. rewrite Hi in Hl.
    destruct (collect a_shape G feeder (st_store st1) (st_env st1) (map (fun u => Incoming u false 0) us)) as [|e1|xs] eqn:Hcl; try discriminate.
    - destruct f as [|f]; [discriminate|]. rewrite loop_done in Hl by reflexivity. injection Hl as <-.
      cbn [st_store] in HsU. unfold st_insert in HsU. rewrite Nat.eqb_refl in HsU. discriminate.
    - rewrite Hop, Haddn in Hl. unfold addn_compute in Hl. destruct (bind (inputs xs) (add_n 0%R Rplus)) as [y|]; [|discriminate].
      rewrite andb_false_r in Hl. destruct f as [|f]; [discriminate|]. rewrite loop_done in Hl by reflexivity. injection Hl as <-.
      cbn [st_env]. split; [reflexivity|]. eapply collect_stored; eauto.
  Qed.
  Lemma first_steps us n st1 : 2 <= length us ->
    nth_error G U = Some n -> n_op n = addn_op -> n_inputs n = map (fun u => Incoming u false 0) us -> n_ph n = None -> n_var n = None ->
    (forall u, In u us -> computed G u) -> (forall u, In u us -> st_store st1 u = Some (inl [empty_output])) ->
    st_store st1 U = None -> st_stack st1 = [] ->
    forall f, exists st', loop G feeder (3 + f) (put_below [(U, false)] st1) = Ok st' /\
      st_env st' = st_env st1 /\ st_store st' U = Some (inl [empty_output]).
  Proof.
    intros Hlen Hn Hop Hi Hp Hv Hc Hs HU Hst f. cbn [Nat.add].
    assert (E1 : step G feeder (put_below [(U, false)] st1) = Ok (Some (put_below [(U, true)] st1))).
    { unfold Eval_Model.step, put_below. cbn [st_stack st_store st_env st_log]. rewrite Hst. cbn [app].
      rewrite Hn, Hi, (push_none G (st_store st1) us _ Hc) by (intros u Hu; rewrite (Hs u Hu); discriminate). reflexivity. }
    assert (Hw : would_not_visit n U (st_store st1) = false).
    { unfold would_not_visit, is_placeholder, is_variable. rewrite Hp, Hv, HU. reflexivity. }
    assert (Hz : add_n 0%R Rplus (repeat empty_output (length us)) = Some empty_output).
    { destruct (length us) as [|[|k]]; try lia. apply (addn_zeros k). }
    set (st2 := State [] (st_insert (st_store st1) U (inl [empty_output])) (st_env st1) (Ran U (map NonVar (repeat empty_output (length us))) :: st_log st1)).
    assert (E2 : step G feeder (put_below [(U, true)] st1) = Ok (Some st2)).
    { unfold Eval_Model.step, put_below. cbn [st_stack st_store st_env st_log]. rewrite Hst. cbn [app].
      rewrite Hn, Hw. unfold visit. cbn [st_store st_env st_log]. rewrite Hi, (collect_zeros G _ _ us Hc Hs), Hop, Haddn.
      unfold addn_compute. rewrite inputs_nonvar. cbn [bind]. rewrite Hz, andb_false_r. reflexivity. }
    exists st2. split; [|split].
    - cbn [Eval_Model.loop]. rewrite E1, E2. cbn [Eval_Model.loop]. unfold Eval_Model.step. reflexivity.
    - reflexivity.
    - cbn [st2 st_store]. unfold st_insert. rewrite Nat.eqb_refl. reflexivity.
  Qed.

  Lemma eval_inv (g0 : graph O) fuel ts oc : eval g0 feeder fuel ts env0 = Ok oc -> exists st,
    loop g0 feeder fuel (init_state ts env0) = Ok st /\
    aggregate a_shape g0 feeder ts (st_store st) (st_env st) = Ok (oc_results oc) /\ oc_env oc = st_env st.
  Proof.
    unfold Eval_Model.eval. destruct (Eval_Model.loop _ _ _ _ _ _ _) as [st| |]; try discriminate.
    destruct (aggregate _ _ _ _ _ _) as [rs| |] eqn:Ha; try discriminate. intros H. injection H as <-. eauto.
  Qed.
  Lemma eval_intro (g0 : graph O) fuel ts st rs : loop g0 feeder fuel (init_state ts env0) = Ok st ->
    aggregate a_shape g0 feeder ts (st_store st) (st_env st) = Ok rs ->
    exists oc, eval g0 feeder fuel ts env0 = Ok oc /\ oc_results oc = rs /\ oc_env oc = st_env st.
  Proof. intros Hl Ha. unfold Eval_Model.eval. rewrite Hl, Ha. eauto. Qed.
  Lemma one_result (s : @storage (arr R) E) env v vs : computed G U -> s U = Some (inl (v :: vs)) ->
    aggregate a_shape G feeder [U] s env = Ok [inl v].
  Proof. intros (n & Hn & Hp & Hv) Hs. cbn [aggregate]. rewrite Hn, Hv, Hp, Hs. reflexivity. Qed.
  Lemma us_results (g0 : graph O) us (s : @storage (arr R) E) env : NoDup us -> (forall u, In u us -> computed g0 u) ->
    (forall u, In u us -> exists v vs, s u = Some (inl (v :: vs))) ->
    exists rs, aggregate a_shape g0 feeder us s env = Ok rs /\ all_ok rs = true.
  Proof.
    intros Hnd Hc Hs.
    assert (H : exists rs, Forall2 (target_result a_shape g0 feeder s env) us rs /\ all_ok rs = true).
    { clear Hnd. induction us as [|u us IH].
      - exists []. split; [constructor|reflexivity].
      - destruct IH as (rs & H1 & H2); [intros; apply Hc; right; assumption|intros; apply Hs; right; assumption|].
        destruct (Hs u (or_introl eq_refl)) as (v & vs & Hsu). destruct (Hc u (or_introl eq_refl)) as (n & Hn).
        exists (inl v :: rs). split; [constructor; [eapply tr_ok; eauto|exact H1]|]. unfold all_ok in *. cbn. exact H2. }
    destruct H as (rs & H1 & H2). exists rs. split; [|exact H2].
    apply (aggregate_complete a_shape g0 feeder us s s env rs); auto.
    intros l1 t l2 Hl _ Hin. rewrite Hl in Hnd. apply NoDup_remove_2 in Hnd. apply Hnd, in_or_app. right. exact Hin.
  Qed.

  Notation update := (Opt_Model.update var_op inj compute debug).

  (** Evaluating only that tensor leaves the arrays [update] leaves. *)
  Theorem update_then_alone fuel c' e' : update fuel opt e c ps gs feeder = Ok (c', e') ->
    exists oc, eval G feeder (fuel + 2) [U] env0 = Ok oc /\ oc_results oc = [inl empty_output] /\ oc_env oc = array_list e'.
  Proof.
    destruct (update_layout var_op inj shape_op addn_op opt e c ps gs c2 U Hgood Hupd Hget)
      as (c1 & us & mid & Hcu & (more & Hmore) & Hg1 & Hrange & HUge & HL).
    unfold Opt_Model.update. rewrite Hcu. unfold ev_run. cbn [ev_feeds ev_targets ev_extend ev_set_feeder new_evaluator app].
    destruct (Eval_Model.eval a_shape compute debug (c_graph c1) feeder fuel us env0) as [oc| |] eqn:He; try discriminate.
    destruct (all_ok (oc_results oc)) eqn:Hao; [|discriminate]. intros H. injection H as <- <-. cbn [array_list].
    destruct (eval_inv _ _ _ _ He) as (st & Hl & Ha & Henv). rewrite Henv.
    destruct (compute_updates_good var_op inj opt e ps gs c c1 us Hgood (u_params _ _ _ _ _ Hupd) (u_grads _ _ _ _ _ Hupd) Hcu)
      as (_ & Hl1 & Hl2 & Hnd & Hext1 & _ & Hge & Hall1).
    assert (Hwf1 : wf_graph (c_graph c1)) by (destruct Hg1 as [Hk _]; eapply ctx_ok_wf; eauto).
    assert (Hc1 : forall u, In u us -> computed (c_graph c1) u) by (apply (us_computed inj opt e c c1 ps gs us Hupd Hl1 Hl2 Hall1)).
    assert (Hc2 : forall u, In u us -> computed G u).
    { intros u Hu. destruct (Hc1 u Hu) as (n & Hn & Hr). exists n. split; [|exact Hr]. rewrite Hmore, nth_error_app1 by auto. exact Hn. }
    pose proof (aggregate_sound a_shape (c_graph c1) feeder _ _ (st_store st) _ _ (fun i r H => H) Ha) as Hres.
    assert (Hok : forall u, In u us -> exists ys, st_store st u = Some (inl ys)).
    { intros u Hu. apply In_nth_error in Hu. destruct Hu as (k & Hk).
      assert (Hk' : k < length (oc_results oc)) by (rewrite <- (forall2_len _ _ _ Hres); apply nth_error_Some; congruence).
      destruct (nth_error (oc_results oc) k) as [r|] eqn:Hr; [|apply nth_error_None in Hr; lia].
      pose proof (target_at c1 feeder us (oc_results oc) _ _ k u r Hres Hk Hr) as Ht.
      destruct (target_stored c1 feeder _ _ _ _ (Hc1 u (nth_in _ _ _ Hk)) Ht) as [(v & vs & _ & Hs)|(e1 & -> & _)]; [eauto|].
      unfold all_ok in Hao. rewrite forallb_forall in Hao. specialize (Hao _ (nth_in _ _ _ Hr)). discriminate. }
    assert (Hl' : loop (c_graph c1) feeder fuel (init_state ([] ++ [] ++ us ++ []) env0) = Ok st) by (rewrite app_nil_r; exact Hl).
    assert (Hno : forall m, In m [] -> computed (c_graph c1) m /\ length g <= m /\ ~ In m us /\
      (forall j, reads_from (c_graph c1) m j -> In j us) /\ (forall x, ~ changes (c_graph c1) m x)) by (intros m []).
    pose proof (run_empty powf inj compute debug Hcompute opt e c c1 ps gs us [] [] [] Hg1 Hupd Hl1 Hl2 Hext1 Hall1 Hno none_readers none_readers feeder fuel st Hl' Hok) as Hemp.
    assert (HlG : loop G feeder fuel (init_state us env0) = Ok st).
    { rewrite Hmore, ext_loop; auto. apply low_init. exact Hrange. }
    destruct (ly_case _ _ _ _ _ _ _ _ _ _ _ HL) as [[_ Hu]|(_ & Hlen & n & (Hn & Hp & Hv) & Hop & Hi)].
    - rewrite Hu in HlG. destruct (eval_intro G (fuel + 2) [U] st [inl empty_output]) as (oc' & H1 & H2 & H3); eauto.
      + rewrite (loop_mono _ _ _ _ _ fuel); [exact HlG|rewrite HlG; discriminate|lia].
      + apply (one_result _ _ _ []); [apply Hc2; rewrite Hu; left; reflexivity|]. apply Hemp. rewrite Hu. left; reflexivity.
    - assert (HwfG : wf_graph G) by (apply (wf_G2 inj addn_op opt e c c2 ps gs us mid U HL)).
      assert (HUn : st_store st U = None).
      { destruct (st_store st U) as [r|] eqn:Hs; [|reflexivity]. exfalso.
        assert (Hr1 : in_range (c_graph c1) us) by exact Hrange.
        destruct (inv_loop _ _ _ _ _ _ _ Hwf1 _ _ _ (inv_init a_shape compute debug (c_graph c1) feeder us env0 Hr1) Hl) as [HI Hst].
        destruct (proj1 (inv_final _ _ _ _ _ _ _ Hwf1 _ HI Hst U)) as ((m & Hm & _) & _); [unfold stored; congruence|].
        destruct HUge as [Hu|HUge]; [rewrite Hu in Hlen; cbn in Hlen; lia|].
        assert (U < length (c_graph c1)) by (apply nth_error_Some; congruence). lia. }
      destruct (split_loop a_shape compute debug G feeder fuel (init_state us env0) [] st) as (k & st1 & Hk & Hst1 & F1).
      { rewrite put_nil. exact HlG. }
      assert (st1 = st).
      { specialize (F1 [] (fuel - k)). rewrite !put_nil in F1. replace (k + (fuel - k)) with fuel in F1 by lia. rewrite HlG in F1.
        destruct (fuel - k) as [|d] eqn:Ed; [lia|]. rewrite loop_done in F1 by exact Hst1. injection F1 as ->. reflexivity. }
      subst st1.
      destruct (first_steps us n st Hlen Hn Hop Hi Hp Hv Hc2 Hemp HUn Hst1 (fuel - k - 1)) as (st' & Hst' & Hse & HsU).
      destruct (eval_intro G (fuel + 2) [U] st' [inl empty_output]) as (oc' & H1 & H2 & H3).
      + change [U] with ([] ++ [U] ++ []). apply (inputs_as_targets a_shape compute debug G feeder HwfG [] us [] U n env0 Hn Hi Hc2 (fun t F => False_ind _ F) (fun t u F => False_ind _ F)).
        rewrite app_nil_r. cbn [app]. change (U :: us) with ([U] ++ us). rewrite init_app.
          replace (fuel + 2) with (k + (3 + (fuel - k - 1))) by lia. rewrite F1. exact Hst'.
      + apply (one_result _ _ _ []); [exists n; repeat split; assumption | exact HsU].
      + exists oc'. rewrite H3. auto.
  Qed.

  Theorem alone_then_update fuel oc y : eval G feeder fuel [U] env0 = Ok oc -> oc_results oc = [inl y] ->
    exists c' e', update fuel opt e c ps gs feeder = Ok (c', e') /\ array_list e' = oc_env oc /\ name_to_id e' = name_to_id e.
  Proof.
    intros He Hr.
    destruct (update_layout var_op inj shape_op addn_op opt e c ps gs c2 U Hgood Hupd Hget)
      as (c1 & us & mid & Hcu & (more & Hmore) & Hg1 & Hrange & HUge & HL).
    destruct (eval_inv _ _ _ _ He) as (st & Hl & Ha & Henv). rewrite Hr in Ha.
    destruct (compute_updates_good var_op inj opt e ps gs c c1 us Hgood (u_params _ _ _ _ _ Hupd) (u_grads _ _ _ _ _ Hupd) Hcu)
      as (_ & Hl1 & Hl2 & Hnd & Hext1 & _ & Hge & Hall1).
    assert (Hwf1 : wf_graph (c_graph c1)) by (destruct Hg1 as [Hk _]; eapply ctx_ok_wf; eauto).
    assert (Hc1 : forall u, In u us -> computed (c_graph c1) u) by (apply (us_computed inj opt e c c1 ps gs us Hupd Hl1 Hl2 Hall1)).
    assert (Hc2 : forall u, In u us -> computed G u).
    { intros u Hu. destruct (Hc1 u Hu) as (n & Hn & Hrr). exists n. split; [|exact Hrr]. rewrite Hmore, nth_error_app1 by auto. exact Hn. }
    pose proof (aggregate_sound a_shape G feeder _ _ (st_store st) _ _ (fun i r H => H) Ha) as Hres.
    assert (HsU : exists v vs, st_store st U = Some (inl (v :: vs))).
    { inversion Hres as [|? ? ? ? Ht _]; subst.
      destruct (target_stored c2 feeder _ _ _ _ (U_computed inj addn_op opt e c c2 ps gs us mid U Hupd HL) Ht) as [(v & vs & _ & Hs)|(e1 & Hq & _)]; [eauto|discriminate]. }
    assert (Hfin : exists st1, loop (c_graph c1) feeder fuel (init_state us env0) = Ok st1 /\ st_env st = st_env st1 /\
      forall u, In u us -> exists v vs, st_store st1 u = Some (inl (v :: vs))).
    { destruct (ly_case _ _ _ _ _ _ _ _ _ _ _ HL) as [[_ Hu]|(_ & Hlen & n & (Hn & Hp & Hv) & Hop & Hi)].
      - exists st. split; [|split; [reflexivity|]].
        + rewrite <- (ext_loop a_shape compute debug (c_graph c1) more feeder Hwf1 fuel (init_state us env0)) by (apply low_init; exact Hrange).
          rewrite <- Hmore, Hu. exact Hl.
        + intros u Hin. rewrite Hu in Hin. destruct Hin as [<-|[]]. exact HsU.
      - assert (HwfG : wf_graph G) by (apply (wf_G2 inj addn_op opt e c c2 ps gs us mid U HL)).
        change [U] with ([] ++ [U] ++ []) in Hl. apply (inputs_as_targets a_shape compute debug G feeder HwfG [] us [] U n env0 Hn Hi Hc2 (fun t F => False_ind _ F) (fun t u F => False_ind _ F)) in Hl.
        rewrite app_nil_r in Hl. cbn [app] in Hl. change (U :: us) with ([U] ++ us) in Hl. rewrite init_app in Hl.
        destruct (split_loop a_shape compute debug G feeder fuel (init_state us env0) _ st Hl) as (k & st1 & Hk & Hst1 & F1).
        assert (HlG : loop G feeder fuel (init_state us env0) = Ok st1).
        { rewrite <- (put_nil (init_state us env0)). replace fuel with (k + S (fuel - k - 1)) by lia. rewrite F1, put_nil. apply loop_done. exact Hst1. }
        assert (Hlg : loop (c_graph c1) feeder fuel (init_state us env0) = Ok st1).
        { rewrite <- HlG, Hmore. symmetry. apply ext_loop; [exact Hwf1|]. apply low_init. exact Hrange. }
        assert (Hr1 : in_range (c_graph c1) us) by exact Hrange.
        destruct (inv_loop _ _ _ _ _ _ _ Hwf1 _ _ _ (inv_init a_shape compute debug (c_graph c1) feeder us env0 Hr1) Hlg) as [HI Hst].
        assert (HUn : st_store st1 U = None).
        { destruct (st_store st1 U) as [r|] eqn:Hs; [|reflexivity]. exfalso.
          destruct (proj1 (inv_final _ _ _ _ _ _ _ Hwf1 _ HI Hst U)) as ((m & Hm & _) & _); [unfold stored; congruence|].
          destruct HUge as [Hu|HUge]; [rewrite Hu in Hlen; cbn in Hlen; lia|].
          assert (U < length (c_graph c1)) by (apply nth_error_Some; congruence). lia. }
        assert (Hsome : forall u, In u us -> st_store st1 u <> None).
        { intros u Hu. apply (proj2 (inv_final _ _ _ _ _ _ _ Hwf1 _ HI Hst u)). split; [apply Hc1; exact Hu|]. exists u. split; [exact Hu|apply rt_refl]. }
        replace fuel with (k + (fuel - k)) in Hl by lia. rewrite F1 in Hl.
        destruct (last_steps us n st1 Hn Hop Hi Hp Hv Hc2 Hsome HUn Hst1 _ _ Hl HsU) as [H1 H2].
        exists st1. auto. }
    destruct Hfin as (st1 & Hlg & Hse & Hs1).
    destruct (us_results (c_graph c1) us (st_store st1) (st_env st1) Hnd Hc1 Hs1) as (rs & Hrs & Hao).
    destruct (eval_intro (c_graph c1) fuel us st1 rs Hlg Hrs) as (oc1 & H1 & H2 & H3).
    exists c1, (Env (oc_env oc1) (name_to_id e)). unfold Opt_Model.update. rewrite Hcu. unfold ev_run.
    cbn [ev_feeds ev_targets ev_extend ev_set_feeder new_evaluator app]. rewrite H1, H2, Hao. split; [reflexivity|].
    split; [|reflexivity]. cbn [array_list]. congruence.
  Qed.
End Alone.

(** ** Evaluations together with other tensors succeed *)
Lemma app_split {A} (l1 l1' l2 l2' : list A) : length l1 = length l1' -> l1 ++ l2 = l1' ++ l2' -> l1 = l1' /\ l2 = l2'.
Proof.
  revert l1'. induction l1 as [|x l IH]; intros [|y l'] Hl H; try discriminate; [auto|].
  cbn in *. injection H as -> H. injection Hl as Hl. destruct (IH l' Hl H) as [-> ->]. auto.
Qed.
Section Returns.
  Context {O E : Type}.
  Variable powf : R -> R -> R.
  Variables (inj : opt_op -> O) (addn_op : O).
  Variable compute : O -> list (opin (arr R)) -> cout (arr R) E.
  Variable debug : bool.
  Hypothesis Hcompute : forall o xs, compute (inj o) xs = opt_compute powf o xs.
  Hypothesis Haddn : forall xs, compute addn_op xs = addn_compute xs.
  Notation tensor_value := (tensor_value a_shape compute debug).
  Notation value := (value a_shape compute debug).
  Notation eval := (eval a_shape compute debug).

  Variables (opt : optimizer) (e : env (arr R)) (c c2 : context O) (ps gs us mid pre post : list nat) (U : nat).
  Notation g := (c_graph c).
  Notation G := (c_graph c2).
  Notation env0 := (array_list e).
  Hypothesis Hgood : good c.
  Hypothesis Hupd : updatable opt e g ps gs.
  Hypothesis HL : layout inj addn_op opt e c c2 ps gs us mid U.
  Hypothesis Hpre : readers g pre.
  Hypothesis Hpost : readers g post.
  Variable feeder : list (ph_key * arr R).
  Notation ts := (pre ++ mid ++ us ++ post).

  Lemma values_ok l : (forall u, In u l -> value G feeder env0 u (inl [empty_output])) ->
    Forall2 (tensor_value G feeder env0) l (map (fun _ => inl empty_output) l).
  Proof.
    induction l as [|u l IH]; intros Hv; simpl; constructor.
    - eapply tv_ok. apply Hv. left; auto.
    - apply IH. intros v Hin. apply Hv. right; auto.
  Qed.
  Theorem joint_returns fuel (avs bvs : list (arr R)) :
    acyclic g -> NoDup (pre ++ post) -> (forall t, In t (pre ++ post) -> computed g t) ->
    (forall k gr, nth_error gs k = Some gr -> sees_old opt e g ps gs post (S k) gr) ->
    (forall t, In t pre -> sees_old opt e g ps gs post 0 t) ->
    (forall k p gr vid, nth_error ps k = Some p -> nth_error gs k = Some gr -> var_tensor g p vid ->
       can_step powf compute debug opt e c feeder gr vid) ->
    Forall2 (fun t a => tensor_value g feeder env0 t (inl a)) pre avs ->
    Forall2 (fun t a => tensor_value g feeder env0 t (inl a)) post bvs ->
    2 * (length pre + length post + length ps + 1 + edge_count G) < fuel ->
    exists oc, eval G feeder fuel (pre ++ [U] ++ post) env0 = Ok oc /\
      oc_results oc = map inl avs ++ [inl empty_output] ++ map inl bvs.
  Proof.
    intros Hac Hnd Hcomp Hshare Hsp Hcan Hav Hbv Hf.
    pose proof (same_run inj addn_op compute debug opt e c c2 ps gs us mid pre post U Hgood Hupd HL Hpost feeder) as Hsame.
    pose proof (fun u => us_computed2 inj addn_op opt e c c2 ps gs us mid U Hupd HL u) as Hcu.
    pose proof (U_computed inj addn_op opt e c c2 ps gs us mid U Hupd HL) as HcU.
    pose proof (wf_G2 inj addn_op opt e c c2 ps gs us mid U HL) as HwfG.
    pose proof HL as HL'. destruct HL' as [Hgood2 Hl1 Hl2 HndU Hext Hge HallU Hmid Hcase Hacy].
    destruct Hext as (new & Hnew). assert (Hext : exists new, G = g ++ new) by eauto.
    assert (Hval_u : forall u, In u us -> value G feeder env0 u (inl [empty_output])).
    { intros u Hu. apply In_nth_error in Hu. destruct Hu as (k & Hk).
      destruct (param inj opt e c c2 ps gs us Hupd Hl1 Hl2 HallU k u Hk) as (p & gr & vid & sids & Hp & Hgr & Hv & Hs & Ht & Hlt).
      destruct (Hcan k p gr vid Hp Hgr Hv) as (sids' & pv & gv & svs & r & Hs' & Hpv & Hsv & Hgv & Hr).
      assert (sids' = sids) by (eapply state_ids_fun; eauto). subst sids'.
      destruct Ht as (n & sts & Hn & Hop & Hi & Hst).
      assert (Hgv' : tensor_value G feeder env0 gr (inl gv)) by (rewrite Hnew; apply ext_tensor_value; exact Hgv).
      destruct (grad_arg compute debug e c2 Hgood2 feeder gr gv Hgv') as (x & Hx & Hax).
      assert (Hlen : length svs = length (state_names opt 0)).
      { rewrite <- (forall2_len _ _ _ Hsv). eapply (names_len inj opt e c c2 ps gs us post); eauto. }
      pose proof (opt_writes_step powf opt pv gv x svs Hx Hlen) as Hstep. rewrite Hr in Hstep. destruct r as [p' svs'].
      destruct Hstep as (ws & Hws & _).
      change (inl [empty_output]) with (match (@None E) with None => @inl _ E [empty_output] | Some e => inr e end).
      apply (value_run a_shape compute debug G feeder env0 u n (RdWr pv :: x :: map RdWr svs) ws [empty_output] None); auto.
      - rewrite Hi. constructor; [|constructor; [exact Hax|]].
        + destruct (vt_new c c2 Hext _ _ Hv) as (m & Hm & Hmp & Hmv).
          apply (arg_var a_shape compute debug G feeder env0 (Incoming p true 0) m vid pv); auto.
        + eapply states_args; eauto.
      - rewrite Hop, Hcompute. unfold opt_compute. rewrite Hws. reflexivity.
      - discriminate. }
    assert (Hval_U : value G feeder env0 U (inl [empty_output])).
    { destruct Hcase as [[_ Hu]|(_ & Hlen & n & Hn & Hop & Hi)].
      - apply Hval_u. rewrite Hu. left; reflexivity.
      - change (inl [empty_output]) with (match (@None E) with None => @inl _ E [empty_output] | Some e => inr e end).
        apply (value_run a_shape compute debug G feeder env0 U n (map NonVar (repeat empty_output (length us))) [] [empty_output] None); auto.
        + rewrite Hi. clear -Hval_u Hcu. induction us as [|u l IH]; cbn [map length repeat]; constructor.
          * destruct (Hcu u (or_introl eq_refl)) as (m & Hm).
            apply (arg_op a_shape compute debug G feeder env0 (Incoming u false 0) m [empty_output] empty_output); auto.
            apply Hval_u. left; reflexivity.
          * apply IH; intros; [apply Hcu | apply Hval_u]; right; assumption.
        + rewrite Hop, Haddn. unfold addn_compute. rewrite inputs_nonvar. cbn [bind].
          destruct (length us) as [|[|k]]; try lia. pose proof (addn_zeros k) as Hz. cbn [Nat.add] in Hz. rewrite Hz. reflexivity.
        + discriminate. }
    assert (Hmu : forall m, In m mid -> m = U).
    { intros m Hm. destruct Hcase as [[Hm0 _]|(Hm0 & _)]; rewrite Hm0 in Hm; [destruct Hm|]. destruct Hm as [->|[]]. reflexivity. }
    assert (Hold : forall t a i, tensor_value g feeder env0 t (inl a) -> depends g t i -> i < length g -> computed G i ->
      exists r, value G feeder env0 i r).
    { intros t a i Ht Hd Hi (n & Hn & Hr). rewrite (old_nth c c2 Hext) in Hn by exact Hi.
      destruct (grad_deps compute debug e c Hgood feeder t a Ht i Hd) as (ys & Hys); [exists n; split; auto|].
      exists (inl ys). rewrite Hnew. apply ext_value. exact Hys. }
    assert (Hin2 : forall l vs t, Forall2 (fun t a => tensor_value g feeder env0 t (inl a)) l vs -> In t l -> exists a : arr R, tensor_value g feeder env0 t (inl a)).
    { intros l vs t H. induction H as [|x y l l' Hxy H IH]; intros Ht; [destruct Ht|]. destruct Ht as [->|Ht]; eauto. }
    set (rs := map inl avs ++ map (fun _ => inl empty_output) mid ++ map (fun _ => inl empty_output) us ++ map inl bvs : list (arr R + E)).
    destruct (eval_first_complete a_shape compute debug G feeder ts env0 HwfG) with (fuel := fuel) (rs := rs) as (oc & He & Hrs).
    - intros i. apply (all_first inj opt e c c2 ps gs us mid pre post Hgood Hgood2 Hupd Hshare Hl1 Hl2 HndU Hext Hge HallU Hmid Hpre Hpost i Hsp).
    - intros i Hi. destruct (needed_cases inj opt e c c2 ps gs us mid pre post Hgood Hgood2 Hupd Hl1 Hl2 Hext HallU Hmid Hpre Hpost i Hi)
        as [Hu|[Hm|(Hlt & t & Ht & Hd)]].
      + eauto.
      + rewrite (Hmu i Hm). eauto.
      + assert (Hta : exists a, tensor_value g feeder env0 t (inl a)).
        { destruct Ht as [Ht|[Ht|Ht]]; [|eauto|eauto]. apply In_nth_error in Ht. destruct Ht as (k & Hgr).
          assert (Hk : k < length ps) by (rewrite Hl1; apply nth_error_Some; congruence).
          destruct (nth_error ps k) as [p|] eqn:Hp; [|apply nth_error_None in Hp; lia].
          destruct (u_params _ _ _ _ _ Hupd p (nth_in _ _ _ Hp)) as (vid & Hv).
          destruct (Hcan k p t vid Hp Hgr Hv) as (sids' & pv & gv & svs & r & _ & _ & _ & Hgv & _). eauto. }
        destruct Hta as (a & Hta). apply (Hold t a i Hta Hd Hlt). apply Hi.
    - apply Hacy, Hac.
    - apply (ts_range inj opt e c c2 ps gs us mid pre post Hupd Hl1 Hl2 Hext HallU Hmid Hpre Hpost).
    - assert (Hnew_id : forall t, In t (mid ++ us) -> length g <= t).
      { intros t Ht. apply in_app_iff in Ht. destruct Ht as [Ht|Ht]; [apply (Hmid t Ht)|apply Hge; exact Ht]. }
      assert (Hndm : NoDup (mid ++ us)).
      { destruct Hcase as [[Hm0 _]|(Hm0 & _)].
        - rewrite Hm0. exact HndU.
        - assert (HUn : ~ In U us) by (apply (Hmid U); rewrite Hm0; left; reflexivity). rewrite Hm0. constructor; assumption. }
      assert (Hlow : forall t, In t (pre ++ post) -> t < length g).
      { intros t Ht. apply in_app_iff in Ht. destruct Ht as [Ht|Ht]; [apply (proj1 Hpre)|apply (proj1 Hpost)]; exact Ht. }
      rewrite (app_assoc mid). clear -Hnd Hndm Hnew_id Hlow. revert Hnd Hlow Hndm Hnew_id. generalize (mid ++ us). intros l Hnd Hlow Hndm Hnew.
      induction pre as [|x pre' IH].
      + cbn [app] in *. clear -Hnd Hlow Hndm Hnew. induction l as [|y l IH]; [exact Hnd|]. inversion Hndm as [|? ? Hy Hl]; subst. cbn [app]. constructor.
        * rewrite in_app_iff. intros [H|H]; [contradiction|]. specialize (Hlow y H). specialize (Hnew y (or_introl eq_refl)). lia.
        * apply IH; auto. intros t Ht. apply Hnew. right; exact Ht.
      + cbn [app] in *. inversion Hnd as [|? ? Hx Hr]; subst. constructor.
        * rewrite !in_app_iff in *. intros [H|[H|H]]; [tauto| |tauto]. specialize (Hlow x (or_introl eq_refl)). specialize (Hnew x H). lia.
        * apply IH; auto. intros t Ht. apply Hlow. right; exact Ht.
    - assert (Hup : forall t, In t (pre ++ post) -> computed G t).
      { intros t Ht. destruct (Hcomp t Ht) as (n & Hn & Hr). exists n. split; [|exact Hr]. rewrite (old_nth c c2 Hext); [exact Hn|].
        apply nth_error_Some. congruence. }
      intros t Ht. rewrite !in_app_iff in Ht. destruct Ht as [Ht|[Ht|[Ht|Ht]]].
      + apply Hup, in_or_app. auto.
      + rewrite (Hmu t Ht). exact HcU.
      + apply Hcu, Ht.
      + apply Hup, in_or_app. auto.
    - assert (Hlift : forall l vs, Forall2 (fun t a => tensor_value g feeder env0 t (inl a)) l vs ->
        Forall2 (tensor_value G feeder env0) l (map inl vs)).
      { intros l vs H. rewrite Hnew. clear -H. induction H; cbn [map]; constructor; auto. apply ext_tensor_value. assumption. }
      unfold rs. apply Forall2_app; [apply Hlift; exact Hav|]. apply Forall2_app; [apply values_ok|].
      + intros m Hm. rewrite (Hmu m Hm). exact Hval_U.
      + apply Forall2_app; [apply values_ok; exact Hval_u|]. apply Hlift. exact Hbv.
    - rewrite !app_length. assert (length mid <= 1) by (destruct Hcase as [[Hm0 _]|(Hm0 & _)]; rewrite Hm0; cbn; lia). lia.
    - destruct (eval_inv compute debug feeder e G fuel ts oc He) as (st & Hl & Ha & _). rewrite Hrs in Ha.
      apply Hsame in Hl.
      pose proof (aggregate_sound a_shape G feeder _ _ (st_store st) _ _ (fun i r H => H) Ha) as Hres. unfold rs in Hres.
      apply Forall2_app_inv_l in Hres. destruct Hres as (r1 & r2 & R1 & R2 & Er).
      apply Forall2_app_inv_l in R2. destruct R2 as (r3 & r4 & R3 & R4 & Er2).
      apply Forall2_app_inv_l in R4. destruct R4 as (r5 & r6 & R5 & R6 & Er4). subst r2 r4.
      assert (Elen : length (map (@inl (arr R) E) avs) = length r1).
      { rewrite map_length, <- (forall2_len _ _ _ R1). symmetry. apply (forall2_len _ _ _ Hav). }
      apply app_split in Er; [|exact Elen]. destruct Er as [<- Er].
      apply app_split in Er; [|rewrite map_length; apply (forall2_len _ _ _ R3)]. destruct Er as [<- Er].
      apply app_split in Er; [|rewrite map_length; apply (forall2_len _ _ _ R5)]. destruct Er as [<- <-].
      destruct (eval_intro compute debug feeder e G fuel (pre ++ [U] ++ post) st (map inl avs ++ [inl empty_output] ++ map inl bvs) Hl)
        as (oc' & H1 & H2 & _).
      + apply (aggregate_complete a_shape G feeder _ (st_store st) (st_store st)); auto.
        * intros l1 t l2 Hsplit _ Hin. assert (HN : NoDup (pre ++ [U] ++ post)).
          { apply NoDup_Add with (a := U) (l := pre ++ post); [apply Add_app|]. split; [exact Hnd|]. intros Hu. apply Hcomp in Hu.
            destruct Hu as (n & Hn & _). assert (U < length g) by (apply nth_error_Some; congruence).
            assert (length g <= U); [|lia].
            destruct Hcase as [[_ Hu0]|(Hm0 & _)]; [apply Hge; rewrite Hu0; left; reflexivity|]. apply (Hmid U). rewrite Hm0. left; reflexivity. }
          rewrite Hsplit in HN. apply NoDup_remove_2 in HN. apply HN, in_or_app. auto.
        * apply Forall2_app; [exact R1|]. apply Forall2_app; [|exact R6].
          destruct Hcase as [[_ Hu0]|(Hm0 & _)]; [rewrite Hu0 in R5; exact R5|rewrite Hm0 in R3; exact R3].
      + exists oc'. auto.
  Qed.
End Returns.
