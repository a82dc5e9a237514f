(** Evaluating the tensor [get_update_op] returns, alone or with other tensors. *)
From Coq Require Import String List Arith ZArith Bool Relations Reals Lia Lra.
Import ListNotations.
From Verif Require Import Graph_Model Eval_Model Eval_Spec Eval_Proofs Eval_Proofs2 Eval_Order Eval_Update Eval_Split Graph_Proofs Grad_Frame Var_Model Array_Model Arith_Model Shape_Model Opt_Model Opt_Proofs Opt_Effect Joint_Model Opt_Joint.

Lemma acyclic_snoc {O} (g : graph O) n : wf_graph g -> acyclic g ->
  (forall inc, In inc (n_inputs n) -> in_id inc < length g) -> acyclic (g ++ [n]).
Proof.
  intros Hwf Hac Hn.
  assert (Hold : forall i j, i < length g -> reads_from (g ++ [n]) i j -> reads_from g i j /\ j < length g).
  { intros i j Hi (m & inc & Hm & Hin & Hid). rewrite nth_error_app1 in Hm by exact Hi.
    assert (H : reads_from g i j) by (exists m, inc; auto). split; [exact H|]. apply (proj1 Hwf i). exact H. }
  assert (Hall : forall i j, i < length g -> clos_trans nat (reads_from (g ++ [n])) i j -> clos_trans nat (reads_from g) i j /\ j < length g).
  { intros i j Hi H. apply clos_trans_tn1 in H. induction H as [b Hb|b d Hbd H [IH1 IH2]].
    - destruct (Hold i b Hi Hb). split; [apply t_step|]; assumption.
    - destruct (Hold b d IH2 Hbd). split; [eapply t_trans; [exact IH1|apply t_step; assumption]|assumption]. }
  intros i Hc. destruct (Nat.lt_ge_cases i (length g)) as [Hi|Hi].
  - destruct (Hall i i Hi Hc) as [H _]. exact (Hac i H).
  - apply clos_trans_t1n in Hc.
    assert (Hfirst : forall j, reads_from (g ++ [n]) i j -> j < length g).
    { intros j (m & inc & Hm & Hin & <-). rewrite nth_error_app2 in Hm by exact Hi. destruct (i - length g) as [|d]; [|destruct d; discriminate].
      cbn in Hm. injection Hm as <-. apply Hn. exact Hin. }
    inversion Hc as [b Hb|b d Hb Hr]; subst.
    + specialize (Hfirst i Hb). lia.
    + specialize (Hfirst b Hb). apply clos_t1n_trans in Hr. destruct (Hall b i Hfirst Hr). lia.
Qed.

(** The sum of zero scalars. *)
Definition addn_zeros_stmt := forall k, add_n 0%R Rplus (repeat empty_output (2 + k)) = Some empty_output.
Lemma zero_plus_zero : zip_mut 0%R 0%R Rplus empty_output empty_output = Some empty_output.
Proof. cbv -[Rplus IZR]. rewrite Rplus_0_l. reflexivity. Qed.
Lemma addn_zeros : addn_zeros_stmt.
Proof.
  intros k. cbn [Nat.add repeat add_n].
  assert (H0 : zip_bc 0%R 0%R Rplus empty_output empty_output = Some empty_output).
  { cbv -[Rplus IZR]. rewrite Rplus_0_l. reflexivity. }
  rewrite H0. induction k as [|k IH]; [reflexivity|]. cbn [repeat fold_left bind]. rewrite zero_plus_zero. exact IH.
Qed.
Lemma inputs_nonvar l : inputs (map NonVar l) = Some l.
Proof. induction l as [|x l IH]; [reflexivity|]. cbn. rewrite IH. reflexivity. Qed.

(** What [get_update_op] adds to the graph. *)
Record layout {O} (inj : opt_op -> O) (addn_op : O) (opt : optimizer) (e : env (arr R)) (c c2 : context O)
  (ps gs us mid : list nat) (U : nat) : Prop := {
  ly_good : good c2;
  ly_l1 : length ps = length gs;
  ly_l2 : length us = length ps;
  ly_nd : NoDup us;
  ly_ext : exists new, c_graph c2 = c_graph c ++ new;
  ly_ge : forall u, In u us -> length (c_graph c) <= u;
  ly_all : forall k p gr u vid, nth_error ps k = Some p -> nth_error gs k = Some gr -> nth_error us k = Some u ->
    var_tensor (c_graph c) p vid -> exists sids, state_ids opt e vid sids /\ update_tensor inj (c_graph c2) opt p gr u sids;
  ly_mid : forall m, In m mid -> computed (c_graph c2) m /\ length (c_graph c) <= m /\ ~ In m us /\
    (forall j, reads_from (c_graph c2) m j -> In j us) /\ (forall x, ~ changes (c_graph c2) m x);
  ly_case : (mid = [] /\ us = [U]) \/
    (mid = [U] /\ 2 <= length us /\ exists n, op_node (c_graph c2) U n /\ n_op n = addn_op /\
       n_inputs n = map (fun u => Incoming u false 0) us);
  ly_acyclic : acyclic (c_graph c) -> acyclic (c_graph c2)
}.

Section Build.
  Context {O : Type}.
  Variables (var_op : O) (inj : opt_op -> O) (shape_op addn_op : O).

  Lemma fold_inputs xs : forall b, fold_left (fun b x => append_input b x false 0) xs b =
    Builder (b_shape b) (b_inputs b ++ map (fun u => Incoming u false 0) xs) (b_diff b) (b_backprop b) (b_known b) (b_var b) (b_ph b).
  Proof.
    induction xs as [|s xs IH]; intros b; simpl.
    - rewrite app_nil_r. destruct b; reflexivity.
    - rewrite IH. simpl. rewrite <- app_assoc. reflexivity.
  Qed.

  Lemma shape_tensor_good c x c1 s : good c -> acyclic (c_graph c) \/ True -> shape_tensor shape_op c x = Some (c1, s) ->
    good c1 /\ (exists new, c_graph c1 = c_graph c ++ new) /\ (acyclic (c_graph c) -> acyclic (c_graph c1)).
  Proof.
    intros [Hok Hpl] _. unfold shape_tensor. destruct (nth_error (c_graph c) x) as [n|] eqn:Hn; [|discriminate].
    destruct (n_shape n) as [s'|].
    - intros H. injection H as <- <-. split; [split; assumption|]. split; [exists []; rewrite app_nil_r; reflexivity|auto].
    - destruct (build _ _ _) as [[g' s']|] eqn:Hb; [|discriminate]. intros H. injection H as <- <-.
      apply build_spec in Hb. destruct Hb as (_ & _ & ->). cbn [c_graph].
      assert (Hx : x < length (c_graph c)) by (apply nth_error_Some; congruence).
      match goal with |- context[[?m]] => set (nd := m) end.
      assert (Hin : forall inc, In inc (n_inputs nd) -> in_id inc < length (c_graph c)).
      { intros inc [<-|[]]. exact Hx. }
      split; [|split].
      + split; [apply ctx_ok_snoc; auto; cbn; discriminate | apply plain_snoc; auto].
      + eauto.
      + intros Hac. apply acyclic_snoc; auto. eapply ctx_ok_wf; eauto.
  Qed.

  Lemma update_layout opt e c ps gs c2 U : good c -> updatable opt e (c_graph c) ps gs ->
    get_update_op var_op inj shape_op addn_op opt e c ps gs = Some (c2, U) ->
    exists c' us mid, compute_updates var_op inj opt e c ps gs = Some (c', us) /\
      (exists more, c_graph c2 = c_graph c' ++ more) /\ good c' /\
      (forall u, In u us -> u < length (c_graph c')) /\ (us = [U] \/ length (c_graph c') <= U) /\
      layout inj addn_op opt e c c2 ps gs us mid U.
  Proof.
    intros Hg Hupd. unfold get_update_op. destruct (compute_updates var_op inj opt e c ps gs) as [[c' us]|] eqn:Hcu; [|discriminate].
    intros H. exists c', us.
    destruct (compute_updates_good var_op inj opt e ps gs c c' us Hg (u_params _ _ _ _ _ Hupd) (u_grads _ _ _ _ _ Hupd) Hcu)
      as (Hg' & Hl1 & Hl2 & Hnd & (new & Hnew) & _ & Hge & Hall).
    pose proof (acyclic_g' var_op inj opt e c c' ps gs us Hg Hupd Hcu) as Hac.
    assert (Hrange : forall u, In u us -> u < length (c_graph c')).
    { intros u Hu. apply In_nth_error in Hu. destruct Hu as (k & Hk).
      destruct (Opt_Effect.param var_op inj opt e c c' ps gs us Hg Hupd Hcu k u Hk) as (p & gr & vid & sids & _ & _ & _ & _ & (n & sts & (Hn & _) & _) & _).
      apply nth_error_Some. congruence. }
    destruct us as [|u0 us]; [discriminate|]. destruct us as [|u1 us].
    - cbn in H. injection H as -> ->. exists []. split; [reflexivity|]. split; [exists []; rewrite app_nil_r; reflexivity|].
      split; [assumption|]. split; [assumption|]. split; [left; reflexivity|]. constructor; auto.
      + eauto.
      + intros m [].
    - cbn [add_n_tensor] in H. remember (u0 :: u1 :: us) as vs eqn:Evs.
      destruct (shape_tensor shape_op c' u0) as [[c1 s]|] eqn:Hs; [|discriminate].
      destruct (shape_tensor_good c' u0 c1 s Hg' (or_intror I) Hs) as (Hg1 & (new1 & Hnew1) & Hac1).
      destruct (build _ _ _) as [[g' u']|] eqn:Hb; [|discriminate]. injection H as <- <-.
      rewrite fold_inputs in Hb. apply build_spec in Hb. cbn [b_inputs b_shape b_ph b_diff b_backprop b_known b_var set_shape app] in Hb.
      destruct Hb as (-> & _ & ->). cbn [app].
      match goal with |- context[[?m]] => set (nd := m) end.
      assert (Hlen : length (c_graph c') <= length (c_graph c1)) by (rewrite Hnew1, app_length; lia).
      assert (Hlen0 : length (c_graph c) <= length (c_graph c')) by (rewrite Hnew, app_length; lia).
      assert (Hin : forall inc, In inc (n_inputs nd) -> in_id inc < length (c_graph c1)).
      { cbn. intros inc Hin. apply in_map_iff in Hin. destruct Hin as (u & <- & Hu). cbn. specialize (Hrange u Hu). lia. }
      assert (HU : nth_error (c_graph c1 ++ [nd]) (length (c_graph c1)) = Some nd).
      { rewrite nth_error_app2, Nat.sub_diag by lia. reflexivity. }
      assert (Hgood : good (Context (c_graph c1 ++ [nd]) (c_vars c1))).
      { destruct Hg1 as [Hok1 Hpl1]. split; [apply ctx_ok_snoc; auto; cbn; discriminate | apply plain_snoc; auto]. }
      assert (Hext : c_graph c1 ++ [nd] = c_graph c' ++ (new1 ++ [nd])) by (rewrite Hnew1, app_assoc; reflexivity).
      assert (Hop : op_node (c_graph c1 ++ [nd]) (length (c_graph c1)) nd) by (split; [exact HU|split; reflexivity]).
      exists [length (c_graph c1)]. split; [reflexivity|]. split; [cbn [c_graph]; rewrite Hext; eauto|].
      split; [assumption|]. split; [assumption|]. split; [right; exact Hlen|].
      constructor; cbn [c_graph]; auto.
      + exists (new ++ new1 ++ [nd]). rewrite Hext, Hnew. symmetry. apply app_assoc.
      + intros k p gr u vid Hp Hgr Hu Hv. destruct (Hall k p gr u vid Hp Hgr Hu Hv) as (sids & Hs1 & Ht). exists sids. split; [exact Hs1|].
        rewrite Hext. apply update_tensor_ext. exact Ht.
      + intros m [<-|[]]. split; [exists nd; exact Hop|]. split; [lia|]. split; [intros Hu; specialize (Hrange _ Hu); lia|]. split.
        * intros j (n1 & inc & Hn1 & Hi & <-). rewrite HU in Hn1. injection Hn1 as <-. cbn in Hi. apply in_map_iff in Hi.
          destruct Hi as (u & <- & Hu). exact Hu.
        * intros x (n1 & q & (Hn1 & _) & inc & mm & Hinc & Hmut & _). rewrite HU in Hn1. injection Hn1 as <-.
          apply nth_error_In in Hinc. cbn in Hinc. apply in_map_iff in Hinc. destruct Hinc as (u & <- & _). discriminate.
      + right. split; [reflexivity|]. split; [subst vs; cbn; lia|]. exists nd. split; [exact Hop|]. split; reflexivity.
      + intros Ha. apply acyclic_snoc; auto. eapply ctx_ok_wf. apply Hg1.
  Qed.
End Build.

Section Eval.
  Context {O E : Type}.
  Variable powf : R -> R -> R.
  Variables (var_op : O) (inj : opt_op -> O) (shape_op addn_op : O).
  Variable compute : O -> list (opin (arr R)) -> cout (arr R) E.
  Variable debug : bool.
  Hypothesis Hcompute : forall o xs, compute (inj o) xs = opt_compute powf o xs.
  Hypothesis Haddn : forall xs, compute addn_op xs = addn_compute xs.
  Notation tensor_value := (tensor_value a_shape compute debug).
  Notation value := (value a_shape compute debug).
  Notation loop := (loop a_shape compute debug).
  Notation eval := (eval a_shape compute debug).

  Variables (opt : optimizer) (e : env (arr R)) (c c2 : context O) (ps gs us mid pre post : list nat) (U : nat).
  Notation g := (c_graph c).
  Notation G := (c_graph c2).
  Notation env0 := (array_list e).
  Hypothesis Hgood : good c.
  Hypothesis Hupd : updatable opt e g ps gs.
  Hypothesis HL : layout inj addn_op opt e c c2 ps gs us mid U.
  Hypothesis Hpre : readers g pre.
  Hypothesis Hpost : readers g post.
  Variable feeder : list (ph_key * arr R).
  Notation ts := (pre ++ mid ++ us ++ post).

  Lemma wf_G2 : wf_graph G.
  Proof. destruct (ly_good _ _ _ _ _ _ _ _ _ _ _ HL) as [H _]. eapply ctx_ok_wf; eauto. Qed.
  Lemma us_computed2 u : In u us -> computed G u.
  Proof.
    destruct HL as [H1 H2 H3 H4 H5 H6 H7 H8 H9 H10].
    apply (us_computed inj opt e c c2 ps gs us Hupd H2 H3 H7).
  Qed.
  Lemma U_computed : computed G U.
  Proof.
    destruct (ly_case _ _ _ _ _ _ _ _ _ _ _ HL) as [[_ Hu]|(_ & _ & n & Hn & _)].
    - apply us_computed2. rewrite Hu. left. reflexivity.
    - exists n. exact Hn.
  Qed.
  Lemma g_le_G : length g <= length G.
  Proof. destruct (ly_ext _ _ _ _ _ _ _ _ _ _ _ HL) as (new & ->). rewrite app_length. lia. Qed.
  Lemma post_range : in_range G post.
  Proof. intros t Ht. pose proof (proj1 Hpost t Ht). pose proof g_le_G. lia. Qed.

  Lemma same_run fuel st :
    loop G feeder fuel (init_state (pre ++ [U] ++ post) env0) = Ok st <-> loop G feeder fuel (init_state ts env0) = Ok st.
  Proof.
    destruct (ly_case _ _ _ _ _ _ _ _ _ _ _ HL) as [[Hm Hu]|(Hm & _ & n & Hn & _ & Hi)]; rewrite Hm.
    - rewrite Hu. reflexivity.
    - apply (inputs_as_targets a_shape compute debug G feeder wf_G2 pre us post U n env0); auto.
      + apply Hn.
      + apply us_computed2.
      + apply post_range.
      + intros t u Ht Hu. destruct HL as [H1 H2 H3 H4 H5 H6 H7 H8 H9 H10].
        apply (old_not_us c c2 ps gs us Hgood H2 H3 H5 H6); auto. apply (proj1 Hpost). exact Ht.
  Qed.

  Lemma U_reads u : In u us -> depends G U u.
  Proof.
    intros Hu. destruct (ly_case _ _ _ _ _ _ _ _ _ _ _ HL) as [[_ Hu']|(_ & _ & n & Hn & _ & Hi)].
    - rewrite Hu' in Hu. destruct Hu as [->|[]]. apply rt_refl.
    - apply rt_step. exists n, (Incoming u false 0). split; [apply Hn|]. split; [|reflexivity].
      rewrite Hi. apply in_map with (f := fun u => Incoming u false 0). exact Hu.
  Qed.

  Lemma value_inl env i n ys : op_node G i n -> value G feeder env i (inl ys) ->
    exists xs ws, Forall2 (arg a_shape compute debug G feeder env) (n_inputs n) xs /\ compute (n_op n) xs = CRet ws ys None.
  Proof.
    intros Hn H. remember (@inl (list (arr R)) E ys) as r eqn:Er.
    destruct H as [i m xs ws ys' status Hm Hx Hc Hd|i m pre' inc post' m' e' Hm _ _ _ _]; [|discriminate].
    assert (m = n) by (eapply op_node_fun; eauto). subst m. destruct status; [discriminate|]. injection Er as <-. eauto.
  Qed.

  (** The value of the sum of updates that succeed. *)
  Lemma U_value env ys : (forall u, In u us -> value G feeder env u (inl [empty_output])) ->
    value G feeder env U (inl ys) -> ys = [empty_output].
  Proof.
    intros Hus HU. destruct (ly_case _ _ _ _ _ _ _ _ _ _ _ HL) as [[_ Hu']|(_ & Hlen & n & Hn & Hop & Hi)].
    - assert (H : value G feeder env U (inl [empty_output])) by (apply Hus; rewrite Hu'; left; reflexivity).
      pose proof (value_fun _ _ _ _ _ _ _ _ _ HU H) as Heq. injection Heq as ->. reflexivity.
    - destruct (value_inl env U n ys Hn HU) as (xs & ws & Hx & Hc). rewrite Hop, Haddn in Hc. rewrite Hi in Hx.
      assert (Hxs : xs = map NonVar (repeat empty_output (length us))).
      { clear -Hx Hus Hupd HL Hpre Hpost. revert xs Hx Hus. assert (Hc : forall u, In u us -> computed G u) by apply us_computed2.
        revert Hc. generalize us as l. induction l as [|u l IH]; intros Hc xs Hx Hus.
        - inversion Hx. reflexivity.
        - inversion Hx as [|? x ? xs' Ha Hx']; subst. cbn [length repeat map]. f_equal.
          + destruct (Hc u (or_introl eq_refl)) as (k & Hk & Hkp & Hkv).
            inversion Ha as [inc m' v Hm' Hf|inc m' vid v Hm' Hv Hlk|inc m' zs v Hm' Hz Hsel]; subst; cbn [in_id in_sel in_mut] in *.
            * destruct (fed_ph _ _ _ _ _ Hf). congruence.
            * congruence.
            * pose proof (value_fun _ _ _ _ _ _ _ _ _ Hz (Hus u (or_introl eq_refl))) as Heq. injection Heq as ->.
              cbn in Hsel. injection Hsel as <-. reflexivity.
          + apply IH; auto. intros v Hv. apply Hc. right; exact Hv. intros v Hv. apply Hus. right; exact Hv. }
      subst xs. unfold addn_compute in Hc. rewrite inputs_nonvar in Hc. cbn [bind] in Hc.
      destruct (length us) as [|[|k]] eqn:El; try lia. pose proof (addn_zeros k) as Hz. cbn [Nat.add] in Hz.
      rewrite Hz in Hc. injection Hc as _ <-. reflexivity.
  Qed.

  Lemma target_at l (rs : list (arr R + E)) s env k t y : Forall2 (target_result a_shape G feeder s env) l rs ->
    nth_error l k = Some t -> nth_error rs k = Some y -> target_result a_shape G feeder s env t y.
  Proof.
    intros H. revert k. induction H as [|a b l l' Hab Hl IH]; intros [|k] Ht Hy; try discriminate.
    - cbn in *. injection Ht as <-. injection Hy as <-. exact Hab.
    - apply (IH k); auto.
  Qed.
  Lemma target_stored s env t (y : arr R + E) : computed G t -> target_result a_shape G feeder s env t y ->
    (exists v vs, y = inl v /\ s t = Some (inl (v :: vs))) \/ (exists e1, y = inr e1 /\ s t = Some (inr e1)).
  Proof.
    intros (n & Hn & Hp & Hv) [n' vid v Hn' Hv' He|n' v Hn' Hv' Hf|n' y0 ys Hn' Hs|n' e1 Hn' Hs].
    - congruence.
    - destruct (fed_ph _ _ _ _ _ Hf). congruence.
    - left. eauto.
    - right. eauto.
  Qed.

  (** A call in which the update succeeds. *)
  Definition made_step (oc : @Eval_Model.outcome (arr R) E) : Prop :=
    (forall k p gr vid, nth_error ps k = Some p -> nth_error gs k = Some gr -> var_tensor g p vid ->
       stepped powf compute debug opt e c feeder (Env (oc_env oc) (name_to_id e)) gr vid) /\
    (forall x, (forall p vid, In p ps -> var_tensor g p vid -> ~ operand opt e vid x) ->
       nth_error (oc_env oc) x = nth_error env0 x) /\
    length (oc_env oc) = length env0.

  Theorem joint_sound fuel oc y :
    (forall k gr, nth_error gs k = Some gr -> sees_old opt e g ps gs post (S k) gr) ->
    eval G feeder fuel (pre ++ [U] ++ post) env0 = Ok oc ->
    nth_error (oc_results oc) (length pre) = Some (inl y) ->
    y = empty_output /\ made_step oc /\
    (forall k t r, nth_error (pre ++ [U] ++ post) k = Some t -> k <> length pre -> nth_error (oc_results oc) k = Some r ->
       computed g t -> (In t post \/ sees_old opt e g ps gs post 0 t) -> tensor_value g feeder env0 t r).
  Proof.
    intros Hshare He Hy. unfold Eval_Model.eval in He.
    destruct (Eval_Model.loop a_shape compute debug G feeder fuel (init_state (pre ++ [U] ++ post) env0)) as [st| |] eqn:Hloop; try discriminate.
    destruct (aggregate a_shape G feeder (pre ++ [U] ++ post) (st_store st) (st_env st)) as [rs| |] eqn:Ha; try discriminate.
    injection He as <-. cbn [oc_results oc_env] in *.
    pose proof (aggregate_sound a_shape G feeder _ _ (st_store st) _ _ (fun i r H => H) Ha) as Hres.
    apply same_run in Hloop.
    destruct HL as [Hgood2 Hl1 Hl2 HndU Hext Hge HallU Hmid Hcase _].
    destruct (run_facts inj compute debug opt e c c2 ps gs us mid pre post Hgood2 Hupd Hl1 Hl2 Hext HallU Hmid Hpre Hpost feeder fuel st Hloop)
      as (Hex & Htm & Hneed & _).
    assert (HU : nth_error (pre ++ [U] ++ post) (length pre) = Some U).
    { rewrite nth_error_app2, Nat.sub_diag by lia. reflexivity. }
    pose proof (target_at _ _ _ _ _ _ _ Hres HU Hy) as HtU.
    destruct (target_stored _ _ _ _ U_computed HtU) as [(v & vs & Hv & HsU)|(e1 & Hv & _)]; [|discriminate]. injection Hv as <-.
    assert (Hok : forall u, In u us -> exists ys, st_store st u = Some (inl ys)).
    { intros u Hu. apply (ok_deps_ok _ _ _ _ _ wf_G2 _ _ _ _ Hex U u (U_reads u Hu) (us_computed2 u Hu) _ HsU). }
    assert (Hemp := run_empty powf inj compute debug Hcompute opt e c c2 ps gs us mid pre post Hgood2 Hupd Hl1 Hl2 Hext HallU Hmid Hpre Hpost feeder fuel st Hloop Hok).
    assert (Hval : forall i r, comes_first G ts i -> st_store st i = Some r -> value G feeder env0 i r).
    { apply (first_value _ _ _ _ _ _ _ wf_G2 _ _ _ Hex Htm (fun k Hk => proj1 (Hneed k) Hk)). }
    assert (Husf : forall u, In u us -> comes_first G ts u).
    { apply (us_first inj opt e c c2 ps gs us mid pre post Hgood Hgood2 Hupd Hshare Hl1 Hl2 HndU Hext Hge HallU Hmid Hpre Hpost). }
    assert (HUf : comes_first G ts U).
    { destruct Hcase as [[_ Hu']|(Hm & _)].
      - apply Husf. rewrite Hu'. left. reflexivity.
      - apply (mid_first inj opt e c c2 ps gs us mid pre post Hgood Hgood2 Hupd Hshare Hl1 Hl2 HndU Hext Hge HallU Hmid Hpre Hpost).
        rewrite Hm. left. reflexivity. }
    split; [|split].
    - assert (H : y :: vs = [empty_output]).
      { apply (U_value env0). - intros u Hu. apply Hval; auto. - apply Hval; auto. }
      injection H as -> _. reflexivity.
    - unfold made_step. cbn [oc_env]. split; [|split].
      + intros k p gr vid. apply (run_stepped powf inj compute debug Hcompute opt e c c2 ps gs us mid pre post Hgood Hgood2 Hupd Hshare Hl1 Hl2 HndU Hext Hge HallU Hmid Hpre Hpost feeder fuel st Hloop Hok k p gr vid).
      + apply (run_untouched inj compute debug opt e c c2 ps gs us mid pre post Hgood Hgood2 Hupd Hl1 Hl2 Hext HallU Hmid Hpre Hpost feeder fuel st Hloop).
      + apply (run_length inj compute debug opt e c c2 ps gs us mid pre post Hgood2 Hupd Hl1 Hl2 Hext HallU Hmid Hpre Hpost feeder fuel st Hloop).
    - intros k t r Ht Hne Hr Hc Hsee.
      assert (Hlt : t < length g) by (destruct Hc as (n & Hn & _); apply nth_error_Some; congruence).
      assert (HcG : computed G t).
      { destruct Hc as (n & Hn & Hnn). exists n. split; [|exact Hnn]. rewrite (old_nth c c2 Hext) by exact Hlt. exact Hn. }
      pose proof (target_at _ _ _ _ _ _ _ Hres Ht Hr) as Htr.
      assert (Hold : sees_old opt e g ps gs post 0 t).
      { destruct Hsee as [Hin|H]; [|exact H]. apply (post_sees opt e c ps gs post). exact Hin. }
      assert (Hv' : forall r, st_store st t = Some r -> value g feeder env0 t r).
      { intros r'. apply (run_value inj compute debug opt e c c2 ps gs us mid pre post Hgood Hgood2 Hupd Hl1 Hl2 HndU Hext Hge HallU Hmid Hpre Hpost feeder fuel st Hloop t r' Hlt Hold). }
      destruct (target_stored _ _ _ _ HcG Htr) as [(v & vs' & -> & Hs)|(e1 & -> & Hs)].
      + eapply tv_ok. apply Hv'. exact Hs.
      + apply tv_err. apply Hv'. exact Hs.
  Qed.
End Eval.
