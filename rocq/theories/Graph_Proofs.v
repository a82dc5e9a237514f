(** Invariants of graph construction. *)
From Coq Require Import String List Arith ZArith Bool Relations Lia.
Import ListNotations.
From Verif Require Import Graph_Model Eval_Model Eval_Spec Eval_Proofs.

Lemma update_nth_length {A} (l : list A) i f : length (update_nth l i f) = length l.
Proof. revert i; induction l as [|x l IH]; intros [|i]; simpl; auto. Qed.
Lemma update_nth_nth {A} (l : list A) i f k :
  nth_error (update_nth l i f) k =
  if (k =? i)%nat then option_map f (nth_error l k) else nth_error l k.
Proof.
  revert i k; induction l as [|x l IH]; intros i k; simpl.
  - destruct k as [|k]; destruct i as [|i]; simpl; try reflexivity.
    destruct (k =? i)%nat; reflexivity.
  - destruct i as [|i]; destruct k as [|k]; simpl; auto.
Qed.

Section GraphProofs.
  Context {O : Type}.
  Implicit Types g : graph O.

  (** Edges point to existing tensors, sources have no inputs. *)
  Definition edges_ok g : Prop :=
    forall i n inc, nth_error g i = Some n -> In inc (n_inputs n) -> in_id inc < length g.
  Definition sources_ok g : Prop :=
    forall i n, nth_error g i = Some n -> is_variable n || is_placeholder n = true -> n_inputs n = [].

  Lemma wf_graph_intro g : edges_ok g -> sources_ok g -> wf_graph g.
  Proof.
    intros H1 H2. split; auto.
    intros i j (n & inc & Hn & Hin & <-). eapply H1; eauto.
  Qed.

  (** Every tensor's inputs are older and of smaller rank. *)
  Definition ordered g : Prop :=
    forall i n inc, nth_error g i = Some n -> In inc (n_inputs n) ->
      in_id inc < i /\ rank_of g (in_id inc) < n_rank n.

  Lemma ordered_acyclic g : ordered g -> acyclic g.
  Proof.
    intros Ho i Hc.
    assert (H : forall a b, clos_trans nat (reads_from g) a b -> b < a).
    { intros a b Hab. induction Hab as [a b (n & inc & Hn & Hin & <-)|a b c _ IH1 _ IH2]; [|lia].
      apply (Ho a n inc); auto. }
    specialize (H i i Hc). lia.
  Qed.

  Lemma acyclic_by_rank g (r : nat -> nat) :
    (forall i j, reads_from g i j -> r j < r i) -> acyclic g.
  Proof.
    intros Ho i Hc.
    assert (H : forall a b, clos_trans nat (reads_from g) a b -> r b < r a).
    { intros a b Hab. induction Hab as [a b Hr|a b c _ IH1 _ IH2]; [auto|lia]. }
    specialize (H i i Hc). lia.
  Qed.

  Lemma nth_error_snoc {A} (l : list A) x i y :
    nth_error (l ++ [x]) i = Some y <-> (nth_error l i = Some y /\ i < length l) \/ (i = length l /\ y = x).
  Proof.
    split.
    - intros H. destruct (Nat.lt_ge_cases i (length l)) as [Hi|Hi].
      + left. rewrite nth_error_app1 in H; auto.
      + right. rewrite nth_error_app2 in H; auto.
        destruct (i - length l) as [|k] eqn:Hk; simpl in H; [|destruct k; discriminate].
        inv H. split; auto. lia.
    - intros [[H Hi]|[-> ->]].
      + rewrite nth_error_app1; auto.
      + rewrite nth_error_app2, Nat.sub_diag; auto.
  Qed.

  Lemma build_spec g b op g' id : build g b op = Some (g', id) ->
    id = length g /\ (N.of_nat (length g) <= NUM_NODES_CRITICAL)%N /\
    g' = g ++ [Node op (b_inputs b) (new_rank g (b_inputs b)) (b_shape b) (b_ph b)
                    (b_diff b) (b_backprop b) (b_known b) (b_var b)].
  Proof.
    unfold build, install. destruct (_ <? _)%N eqn:Hc; [discriminate|].
    intros H; inv H. apply N.ltb_ge in Hc. auto.
  Qed.

  Lemma build_none g b op : build g b op = None <-> (NUM_NODES_CRITICAL < N.of_nat (length g))%N.
  Proof.
    unfold build, install. destruct (_ <? _)%N eqn:Hc.
    - apply N.ltb_lt in Hc. tauto.
    - apply N.ltb_ge in Hc. split; [discriminate | lia].
  Qed.

  Lemma rank_of_app g n i : i < length g -> rank_of (g ++ [n]) i = rank_of g i.
  Proof. intros H. unfold rank_of. rewrite nth_error_app1; auto. Qed.

  Lemma list_max_ge l x : In x l -> x <= list_max l.
  Proof.
    induction l as [|a l IH]; intros H; [destruct H|]. simpl. destruct H as [->|H]; [lia|].
    specialize (IH H). lia.
  Qed.

  Lemma new_rank_gt g ins inc : In inc ins -> rank_of g (in_id inc) < new_rank g ins.
  Proof.
    intros H. unfold new_rank. destruct ins as [|a ins]; [destruct H|].
    assert (rank_of g (in_id inc) <= list_max (map (fun a => rank_of g (in_id a)) (a :: ins))).
    { apply list_max_ge. apply (in_map (fun a => rank_of g (in_id a))). exact H. }
    lia.
  Qed.

  Lemma ordered_snoc g op ins sh ph d bp k v :
    ordered g -> (forall inc, In inc ins -> in_id inc < length g) ->
    ordered (g ++ [Node op ins (new_rank g ins) sh ph d bp k v]).
  Proof.
    intros Ho Hi i n inc Hn Hin. apply nth_error_snoc in Hn. destruct Hn as [[Hn Hl]|[-> ->]].
    - destruct (Ho i n inc Hn Hin) as [H1 H2]. split; auto. rewrite rank_of_app; auto. lia.
    - simpl in Hin. split; [auto|]. rewrite rank_of_app; auto. apply new_rank_gt. exact Hin.
  Qed.

  Lemma edges_snoc g n : edges_ok g -> (forall inc, In inc (n_inputs n) -> in_id inc < length g) ->
    edges_ok (g ++ [n]).
  Proof.
    intros He Hi i m inc Hn Hin. rewrite app_length. simpl.
    apply nth_error_snoc in Hn. destruct Hn as [[Hn _]|[-> ->]].
    - specialize (He i m inc Hn Hin). lia.
    - specialize (Hi inc Hin). lia.
  Qed.

  Lemma sources_snoc g n : sources_ok g -> (is_variable n || is_placeholder n = true -> n_inputs n = []) ->
    sources_ok (g ++ [n]).
  Proof.
    intros Hs Hi i m Hn. apply nth_error_snoc in Hn. destruct Hn as [[Hn _]|[-> ->]]; eauto.
  Qed.

  Variables (var_op ph_op ctrl_op : O) (const_op : list Z -> O).
  Notation run_cmd := (run_cmd var_op ph_op ctrl_op const_op).
  Notation run_cmds := (run_cmds var_op ph_op ctrl_op const_op).

  (** The variable cache is exact. *)
  Definition cache_ok (c : context O) : Prop :=
    (forall vid tid, find_var vid (c_vars c) = Some tid ->
       exists n, nth_error (c_graph c) tid = Some n /\ n_var n = Some vid) /\
    (forall tid n vid, nth_error (c_graph c) tid = Some n -> n_var n = Some vid ->
       find_var vid (c_vars c) = Some tid).

  Record ctx_ok (c : context O) : Prop := {
    ok_edges : edges_ok (c_graph c);
    ok_sources : sources_ok (c_graph c);
    ok_cache : cache_ok c
  }.

  Lemma find_var_cons vid vid' tid m :
    find_var vid' ((vid, tid) :: m) = if (vid =? vid')%nat then Some tid else find_var vid' m.
  Proof. unfold find_var. simpl. destruct (vid =? vid')%nat; reflexivity. Qed.

  Lemma cache_snoc c n : cache_ok c -> n_var n = None ->
    cache_ok (Context (c_graph c ++ [n]) (c_vars c)).
  Proof.
    intros [H1 H2] Hn. split; simpl.
    - intros vid tid Hf. destruct (H1 _ _ Hf) as (m & Hm & Hv). exists m. split; auto.
      rewrite nth_error_app1; auto. apply nth_error_Some. congruence.
    - intros tid m vid Hm Hv. apply nth_error_snoc in Hm. destruct Hm as [[Hm _]|[-> ->]]; [eauto|congruence].
  Qed.

  Lemma ids_ok_spec g ids : ids_ok g ids = true <-> forall i, In i ids -> i < length g.
  Proof.
    unfold ids_ok. rewrite forallb_forall. split; intros H i Hi; specialize (H i Hi);
      [apply Nat.ltb_lt | apply Nat.ltb_lt]; auto.
  Qed.

  Lemma redirect_var (n : node O) i : n_var (redirect_first n i) = n_var n.
  Proof. unfold redirect_first. destruct (n_inputs n); reflexivity. Qed.
  Lemma redirect_ph (n : node O) i : n_ph (redirect_first n i) = n_ph n.
  Proof. unfold redirect_first. destruct (n_inputs n); reflexivity. Qed.

  Lemma fold_append_inputs deps b :
    b_inputs (fold_left (fun b d => append_input b d false 0) deps b)
      = b_inputs b ++ map (fun d => Incoming d false 0) deps /\
    b_var (fold_left (fun b d => append_input b d false 0) deps b) = b_var b /\
    b_ph (fold_left (fun b d => append_input b d false 0) deps b) = b_ph b.
  Proof.
    revert b; induction deps as [|d deps IH]; intros b; simpl.
    - rewrite app_nil_r. auto.
    - destruct (IH (append_input b d false 0)) as (-> & -> & ->). simpl.
      rewrite <- app_assoc. auto.
  Qed.

  (** Shape of the graph after [depends_on]. *)
  Lemma control_dependencies_spec g x deps g' :
    control_dependencies ctrl_op g x deps = Some g' ->
    exists n i0 rest ctrl,
      nth_error g x = Some n /\ n_inputs n = i0 :: rest /\
      n_op ctrl = ctrl_op /\ n_ph ctrl = None /\ n_var ctrl = None /\
      n_inputs ctrl = Incoming (in_id i0) false 0 :: map (fun d => Incoming d false 0) deps /\
      g' = update_nth (g ++ [ctrl]) x (fun n => redirect_first n (length g)).
  Proof.
    unfold control_dependencies.
    destruct (nth_error g x) as [n|] eqn:Hn; [|discriminate].
    destruct (n_inputs n) as [|i0 rest] eqn:Hi; [discriminate|].
    set (b := fold_left _ _ _).
    assert (Hb : b_inputs b = Incoming (in_id i0) false 0 :: map (fun d => Incoming d false 0) deps
                 /\ b_var b = None /\ b_ph b = None).
    { unfold b. destruct (fold_append_inputs deps (append_input new_builder (in_id i0) false 0)) as (-> & -> & ->).
      simpl. auto. }
    destruct Hb as (Hb1 & Hb2 & Hb3).
    destruct (build g b ctrl_op) as [[g1 id]|] eqn:Hb; [|discriminate].
    apply build_spec in Hb. destruct Hb as (-> & _ & ->).
    intros H; inv H. eexists n, i0, rest, _. split; [reflexivity|]. split; [exact Hi|].
    split; [|split; [|split; [|split; [|reflexivity]]]]; simpl; auto.
  Qed.

  Lemma ctx_ok_new : ctx_ok new_context.
  Proof.
    split.
    - intros i n inc H. destruct i; discriminate.
    - intros i n H. destruct i; discriminate.
    - split; [intros vid tid H; discriminate | intros tid n vid H; destruct tid; discriminate].
  Qed.

  Lemma ctx_ok_snoc c n : ctx_ok c -> (forall inc, In inc (n_inputs n) -> in_id inc < length (c_graph c)) ->
    (is_variable n || is_placeholder n = true -> n_inputs n = []) -> n_var n = None ->
    ctx_ok (Context (c_graph c ++ [n]) (c_vars c)).
  Proof.
    intros [H1 H2 H3] Hi Hs Hv. split; simpl.
    - apply edges_snoc; auto.
    - apply sources_snoc; auto.
    - apply cache_snoc; auto.
  Qed.

  Lemma run_cmd_ok c k c' r : ctx_ok c -> run_cmd c k = Some (c', r) -> ctx_ok c'.
  Proof.
    intros Hok. destruct k as [sh ins diff bp op|vid|name shape|x deps|]; simpl.
    - destruct (ids_ok (c_graph c) (map in_id ins)) eqn:Hids; [|discriminate].
      destruct (build _ _ _) as [[g' id]|] eqn:Hb; [|discriminate].
      apply build_spec in Hb. destruct Hb as (_ & _ & ->). intros H; inv H.
      apply ctx_ok_snoc; auto; simpl; try discriminate.
      intros inc Hin. apply (proj1 (ids_ok_spec _ _) Hids). apply in_map. exact Hin.
    - unfold variable_by_id. destruct (find_var vid (c_vars c)) as [tid|] eqn:Hf.
      + intros H; inv H. exact Hok.
      + destruct (build _ _ _) as [[g' id]|] eqn:Hb; [|discriminate].
        apply build_spec in Hb. destruct Hb as (-> & _ & ->). intros H; inv H.
        destruct Hok as [H1 H2 [H3 H4]]. split; simpl.
        * apply edges_snoc; auto. simpl. intros inc [].
        * apply sources_snoc; auto.
        * split; simpl.
          -- intros v t. rewrite find_var_cons. destruct (vid =? v)%nat eqn:Hv.
             ++ intros H; inv H. apply Nat.eqb_eq in Hv; subst v. eexists.
                rewrite nth_error_app2, Nat.sub_diag by lia. simpl. auto.
             ++ intros Hfv. destruct (H3 _ _ Hfv) as (m & Hm & Hmv). exists m. split; auto.
                rewrite nth_error_app1; auto. apply nth_error_Some. congruence.
          -- intros t m v Hm Hv. rewrite find_var_cons.
             apply nth_error_snoc in Hm. destruct Hm as [[Hm _]|[-> ->]].
             ++ specialize (H4 _ _ _ Hm Hv). destruct (vid =? v)%nat eqn:Hvv; auto.
                apply Nat.eqb_eq in Hvv; subst. congruence.
             ++ simpl in Hv. inv Hv. rewrite Nat.eqb_refl. reflexivity.
    - unfold placeholder.
      assert (Hfin : forall c0 sh, ctx_ok c0 ->
        match known_shape_new shape with
        | None => None
        | Some k => match build (c_graph c0) (Builder sh [] true None (Some k) None (Some name)) ph_op with
                    | None => None
                    | Some (g', id) => Some (Context g' (c_vars c0), id)
                    end
        end = Some (c', match r with Some i => i | None => 0 end) -> ctx_ok c').
      { intros c0 sh Hc0. destruct (known_shape_new shape); [|discriminate].
        destruct (build _ _ _) as [[g' id]|] eqn:Hb; [|discriminate].
        apply build_spec in Hb. destruct Hb as (_ & _ & ->). intros H; inv H.
        apply ctx_ok_snoc; auto; simpl; auto. intros inc []. }
      destruct (match shape with [] => true | d :: _ => negb (d =? -1)%Z end).
      + destruct (build (c_graph c) new_builder (const_op shape)) as [[g1 sid]|] eqn:Hb1; [|discriminate].
        apply build_spec in Hb1. destruct Hb1 as (_ & _ & ->).
        set (g1 := c_graph c ++ _).
        destruct (known_shape_new shape) eqn:Hk; [|discriminate].
        destruct (build g1 _ ph_op) as [[g' id]|] eqn:Hb; [|discriminate].
        intros H; inv H. apply (Hfin (Context g1 (c_vars c)) (Some sid)).
        * apply ctx_ok_snoc; auto; simpl; auto. intros inc [].
        * simpl. rewrite Hb. reflexivity.
      + destruct (known_shape_new shape) eqn:Hk; [|discriminate].
        destruct (build (c_graph c) _ ph_op) as [[g' id]|] eqn:Hb; [|discriminate].
        intros H; inv H. apply (Hfin c None Hok). rewrite Hb. reflexivity.
    - destruct (ids_ok (c_graph c) (x :: deps)) eqn:Hids; [|simpl in Hids; rewrite Hids; discriminate].
      simpl in Hids. rewrite Hids.
      destruct (control_dependencies ctrl_op (c_graph c) x deps) as [g'|] eqn:Hc; [|discriminate].
      intros H; inv H.
      pose proof (proj1 (ids_ok_spec (c_graph c) (x :: deps)) Hids) as Hr.
      apply control_dependencies_spec in Hc.
      destruct Hc as (n & i0 & rest & ctrl & Hn & Hi & Hop & Hph & Hv & Hci & ->).
      assert (Hi0 : in_id i0 < length (c_graph c)).
      { apply (ok_edges _ Hok x n i0); auto. rewrite Hi. left; auto. }
      assert (Hok1 : ctx_ok (Context (c_graph c ++ [ctrl]) (c_vars c))).
      { apply ctx_ok_snoc; auto.
        - rewrite Hci. intros inc [<-|Hin]; auto. apply in_map_iff in Hin.
          destruct Hin as (d & <- & Hd). simpl. apply Hr. right; auto.
        - unfold is_variable, is_placeholder. rewrite Hv, Hph. discriminate. }
      destruct Hok1 as [H1 H2 [H3 H4]]. simpl in *.
      set (g1 := c_graph c ++ [ctrl]) in *.
      assert (Hlen : length g1 = S (length (c_graph c))) by (unfold g1; rewrite app_length; simpl; lia).
      assert (Hlook : forall i m, nth_error (update_nth g1 x (fun n => redirect_first n (length (c_graph c)))) i = Some m ->
                exists m0, nth_error g1 i = Some m0 /\
                  (m = m0 \/ (i = x /\ m = redirect_first m0 (length (c_graph c))))).
      { intros i m. rewrite update_nth_nth. destruct (i =? x)%nat eqn:Hx.
        - apply Nat.eqb_eq in Hx. subst i. destruct (nth_error g1 x) as [m0|]; [|discriminate].
          intros H; inv H. exists m0. auto.
        - intros H. exists m. auto. }
      split; simpl.
      + intros i m inc Hm Hin. rewrite update_nth_length. destruct (Hlook i m Hm) as (m0 & Hm0 & [->|[-> ->]]).
        * eapply H1; eauto.
        * unfold redirect_first in Hin. destruct (n_inputs m0) as [|a l] eqn:Hm0i.
          -- rewrite Hm0i in Hin. destruct Hin.
          -- destruct Hin as [<-|Hin]; simpl; [lia|]. apply (H1 x m0 inc); auto. rewrite Hm0i. right; auto.
      + intros i m Hm Hs. destruct (Hlook i m Hm) as (m0 & Hm0 & [->|[-> ->]]).
        * eapply H2; eauto.
        * unfold is_variable, is_placeholder in Hs. rewrite redirect_var, redirect_ph in Hs.
          unfold redirect_first. rewrite (H2 x m0 Hm0 Hs). apply (H2 x m0 Hm0 Hs).
      + split; simpl.
        * intros vid tid Hf. destruct (H3 _ _ Hf) as (m & Hm & Hmv).
          rewrite update_nth_nth. destruct (tid =? x)%nat; [|eauto].
          rewrite Hm. simpl. eexists. split; [reflexivity|]. rewrite redirect_var. exact Hmv.
        * intros tid m vid Hm Hmv. destruct (Hlook tid m Hm) as (m0 & Hm0 & [->|[-> ->]]); [eauto|].
          rewrite redirect_var in Hmv. eauto.
    - intros H; inv H. apply ctx_ok_new.
  Qed.

  Lemma run_cmds_ok c ks c' : ctx_ok c -> run_cmds c ks = Some c' -> ctx_ok c'.
  Proof.
    revert c; induction ks as [|k ks IH]; intros c Hok; cbn [Graph_Model.run_cmds].
    - intros H; inv H; auto.
    - destruct (run_cmd c k) as [[c1 r]|] eqn:Hk; [|discriminate].
      intros H. apply (IH c1); auto. eapply run_cmd_ok; eauto.
  Qed.

  Lemma ctx_ok_wf c : ctx_ok c -> wf_graph (c_graph c).
  Proof. intros [H1 H2 _]. apply wf_graph_intro; auto. Qed.

  (** Without [depends_on] the construction order is a topological order. *)
  Definition no_depends (k : cmd O) : Prop := match k with CDependsOn _ _ => False | _ => True end.

  Lemma run_cmd_ordered c k c' r : no_depends k -> ordered (c_graph c) ->
    run_cmd c k = Some (c', r) -> ordered (c_graph c').
  Proof.
    intros Hnd Ho. destruct k as [sh ins diff bp op|vid|name shape|x deps|]; simpl; try contradiction.
    - destruct (ids_ok (c_graph c) (map in_id ins)) eqn:Hids; [|discriminate].
      destruct (build _ _ _) as [[g' id]|] eqn:Hb; [|discriminate].
      apply build_spec in Hb. destruct Hb as (_ & _ & ->). intros H; inv H. simpl.
      apply ordered_snoc; auto.
      intros inc Hin. apply (proj1 (ids_ok_spec _ _) Hids). apply in_map. exact Hin.
    - unfold variable_by_id. destruct (find_var vid (c_vars c)) as [tid|] eqn:Hf.
      + intros H; inv H. exact Ho.
      + destruct (build _ _ _) as [[g' id]|] eqn:Hb; [|discriminate].
        apply build_spec in Hb. destruct Hb as (-> & _ & ->). intros H; inv H. simpl.
        apply ordered_snoc; auto. intros inc [].
    - unfold placeholder.
      destruct (match shape with [] => true | d :: _ => negb (d =? -1)%Z end).
      + destruct (build (c_graph c) new_builder (const_op shape)) as [[g1 sid]|] eqn:Hb1; [|discriminate].
        apply build_spec in Hb1. destruct Hb1 as (_ & _ & ->).
        destruct (known_shape_new shape) eqn:Hk; [|discriminate].
        destruct (build _ _ ph_op) as [[g' id]|] eqn:Hb; [|discriminate].
        apply build_spec in Hb. destruct Hb as (_ & _ & ->).
        intros H; inv H. apply ordered_snoc; [apply ordered_snoc; auto|]; intros inc [].
      + destruct (known_shape_new shape) eqn:Hk; [|discriminate].
        destruct (build _ _ ph_op) as [[g' id]|] eqn:Hb; [|discriminate].
        apply build_spec in Hb. destruct Hb as (_ & _ & ->).
        intros H; inv H. apply ordered_snoc; auto; intros inc [].
    - intros H; inv H. intros i n inc Hn. destruct i; discriminate.
  Qed.

  Lemma run_cmds_ordered c ks c' : Forall no_depends ks -> ordered (c_graph c) ->
    run_cmds c ks = Some c' -> ordered (c_graph c').
  Proof.
    revert c; induction ks as [|k ks IH]; intros c Hnd Ho; cbn [Graph_Model.run_cmds].
    - intros H; inv H; auto.
    - inv Hnd. destruct (run_cmd c k) as [[c1 r]|] eqn:Hk; [|discriminate].
      intros H. apply (IH c1); auto. eapply run_cmd_ordered; eauto.
  Qed.

  (** Existing tensors survive every command but [depends_on] and [clear]. *)
  Definition extends_cmd (k : cmd O) : Prop :=
    match k with CDependsOn _ _ | CClear => False | _ => True end.
  Lemma run_cmd_extends c k c' r : extends_cmd k -> run_cmd c k = Some (c', r) ->
    exists new, c_graph c' = c_graph c ++ new.
  Proof.
    intros Hnd. destruct k as [sh ins diff bp op|vid|name shape|x deps|]; simpl; try contradiction.
    - destruct (ids_ok (c_graph c) (map in_id ins)) eqn:Hids; [|discriminate].
      destruct (build _ _ _) as [[g' id]|] eqn:Hb; [|discriminate].
      apply build_spec in Hb. destruct Hb as (_ & _ & ->). intros H; inv H. simpl. eauto.
    - unfold variable_by_id. destruct (find_var vid (c_vars c)) as [tid|] eqn:Hf.
      + intros H; inv H. exists []. rewrite app_nil_r. reflexivity.
      + destruct (build _ _ _) as [[g' id]|] eqn:Hb; [|discriminate].
        apply build_spec in Hb. destruct Hb as (-> & _ & ->). intros H; inv H. simpl. eauto.
    - unfold placeholder.
      destruct (match shape with [] => true | d :: _ => negb (d =? -1)%Z end).
      + destruct (build (c_graph c) new_builder (const_op shape)) as [[g1 sid]|] eqn:Hb1; [|discriminate].
        apply build_spec in Hb1. destruct Hb1 as (_ & _ & ->).
        destruct (known_shape_new shape) eqn:Hk; [|discriminate].
        destruct (build _ _ ph_op) as [[g' id]|] eqn:Hb; [|discriminate].
        apply build_spec in Hb. destruct Hb as (_ & _ & ->).
        intros H; inv H. simpl. rewrite <- app_assoc. eauto.
      + destruct (known_shape_new shape) eqn:Hk; [|discriminate].
        destruct (build _ _ ph_op) as [[g' id]|] eqn:Hb; [|discriminate].
        apply build_spec in Hb. destruct Hb as (_ & _ & ->).
        intros H; inv H. simpl. eauto.
  Qed.

  (** The cache only grows until the next [clear]. *)
  Definition no_clear (k : cmd O) : Prop := match k with CClear => False | _ => True end.
  Lemma run_cmd_cache c k c' r vid tid : no_clear k -> find_var vid (c_vars c) = Some tid ->
    run_cmd c k = Some (c', r) -> find_var vid (c_vars c') = Some tid.
  Proof.
    intros Hnd Hf. destruct k as [sh ins diff bp op|vid'|name shape|x deps|]; simpl; try contradiction.
    - destruct (ids_ok (c_graph c) (map in_id ins)) eqn:Hids; [|discriminate].
      destruct (build _ _ _) as [[g' id]|] eqn:Hb; [|discriminate]. intros H; inv H; auto.
    - unfold variable_by_id. destruct (find_var vid' (c_vars c)) as [tid'|] eqn:Hf'.
      + intros H; inv H; auto.
      + destruct (build _ _ _) as [[g' id]|] eqn:Hb; [|discriminate].
        intros H; inv H. simpl. rewrite find_var_cons. destruct (vid' =? vid)%nat eqn:Hv; auto.
        apply Nat.eqb_eq in Hv; subst. congruence.
    - unfold placeholder.
      destruct (match shape with [] => true | d :: _ => negb (d =? -1)%Z end).
      + destruct (build (c_graph c) new_builder (const_op shape)) as [[g1 sid]|] eqn:Hb1; [|discriminate].
        destruct (known_shape_new shape) eqn:Hk; [|discriminate].
        destruct (build _ _ ph_op) as [[g' id]|] eqn:Hb; [|discriminate]. intros H; inv H; auto.
      + destruct (known_shape_new shape) eqn:Hk; [|discriminate].
        destruct (build _ _ ph_op) as [[g' id]|] eqn:Hb; [|discriminate]. intros H; inv H; auto.
    - destruct ((x <? length (c_graph c))%nat && ids_ok (c_graph c) deps); [|discriminate].
      destruct (control_dependencies _ _ _ _); [|discriminate]. intros H; inv H; auto.
  Qed.

  Lemma run_cmds_cache c ks c' vid tid : Forall no_clear ks -> find_var vid (c_vars c) = Some tid ->
    run_cmds c ks = Some c' -> find_var vid (c_vars c') = Some tid.
  Proof.
    revert c; induction ks as [|k ks IH]; intros c Hnd Hf; cbn [Graph_Model.run_cmds].
    - intros H; inv H; auto.
    - inv Hnd. destruct (run_cmd c k) as [[c1 r]|] eqn:Hk; [|discriminate].
      intros H. apply (IH c1); auto. eapply run_cmd_cache; eauto.
  Qed.

  Lemma variable_by_id_cached c vid c' t : variable_by_id var_op c vid = Some (c', t) ->
    find_var vid (c_vars c') = Some t.
  Proof.
    unfold variable_by_id. destruct (find_var vid (c_vars c)) as [tid|] eqn:Hf.
    - intros H; inv H. exact Hf.
    - destruct (build _ _ _) as [[g' id]|] eqn:Hb; [|discriminate].
      intros H; inv H. simpl. rewrite find_var_cons, Nat.eqb_refl. reflexivity.
  Qed.

  Lemma variable_same c vid c1 t ks c2 : variable_by_id var_op c vid = Some (c1, t) ->
    Forall no_clear ks -> run_cmds c1 ks = Some c2 -> variable_by_id var_op c2 vid = Some (c2, t).
  Proof.
    intros H1 Hnc Hr. apply variable_by_id_cached in H1.
    pose proof (run_cmds_cache _ _ _ _ _ Hnc H1 Hr) as Hf.
    unfold variable_by_id. rewrite Hf. reflexivity.
  Qed.

  Lemma variable_tensor c vid c' t : ctx_ok c -> variable_by_id var_op c vid = Some (c', t) ->
    exists n, nth_error (c_graph c') t = Some n /\ n_var n = Some vid /\ n_inputs n = [].
  Proof.
    intros Hok H. assert (Hok' : ctx_ok c').
    { apply (run_cmd_ok c (CVariable vid) c' (Some t)); auto. simpl. rewrite H. reflexivity. }
    apply variable_by_id_cached in H.
    destruct (proj1 (ok_cache _ Hok') _ _ H) as (n & Hn & Hv). exists n. split; auto. split; auto.
    apply (ok_sources _ Hok' t n Hn). unfold is_variable. rewrite Hv. reflexivity.
  Qed.

  Lemma variable_distinct c vid1 vid2 c1 t1 ks c2 c3 t2 : ctx_ok c ->
    variable_by_id var_op c vid1 = Some (c1, t1) -> Forall no_clear ks -> run_cmds c1 ks = Some c2 ->
    variable_by_id var_op c2 vid2 = Some (c3, t2) -> vid1 <> vid2 -> t1 <> t2.
  Proof.
    intros Hok H1 Hnc Hr H2 Hne ->.
    assert (Hok1 : ctx_ok c1).
    { apply (run_cmd_ok c (CVariable vid1) c1 (Some t2)); auto. simpl. rewrite H1. reflexivity. }
    pose proof (run_cmds_ok _ _ _ Hok1 Hr) as Hok2.
    destruct (variable_tensor _ _ _ _ Hok2 H2) as (n & Hn & Hv & _).
    assert (Hf : find_var vid1 (c_vars c3) = Some t2).
    { apply (run_cmd_cache c2 (CVariable vid2) c3 (Some t2)); simpl; auto.
      - eapply run_cmds_cache; eauto. eapply variable_by_id_cached; eauto.
      - rewrite H2. reflexivity. }
    assert (Hok3 : ctx_ok c3).
    { apply (run_cmd_ok c2 (CVariable vid2) c3 (Some t2)); auto. simpl. rewrite H2. reflexivity. }
    destruct (proj1 (ok_cache _ Hok3) _ _ Hf) as (m & Hm & Hmv). congruence.
  Qed.
End GraphProofs.

(** ** Statements used directly by the property files *)
Section GraphFinal.
  Context {O : Type}.
  Variables (var_op ph_op ctrl_op : O) (const_op : list Z -> O).
  Notation run_cmd := (run_cmd var_op ph_op ctrl_op const_op).
  Notation run_cmds := (run_cmds var_op ph_op ctrl_op const_op).

  Lemma build_fresh (c : context O) sh ins diff bp op :
    (forall inc, In inc ins -> in_id inc < length (c_graph c)) ->
    ((N.of_nat (length (c_graph c)) <= 500000)%N ->
       exists c' n, run_cmd c (CBuild sh ins diff bp op) = Some (c', Some (length (c_graph c))) /\
         c_graph c' = c_graph c ++ [n] /\ n_op n = op /\ n_inputs n = ins /\
         (forall inc, In inc ins -> rank_of (c_graph c) (in_id inc) < n_rank n)) /\
    ((500000 < N.of_nat (length (c_graph c)))%N -> run_cmd c (CBuild sh ins diff bp op) = None).
  Proof.
    intros Hin. cbn [Graph_Model.run_cmd].
    assert (Hids : ids_ok (c_graph c) (map in_id ins) = true).
    { apply ids_ok_spec. intros i Hi. apply in_map_iff in Hi. destruct Hi as (inc & <- & Hi). auto. }
    rewrite Hids. unfold build, install, NUM_NODES_CRITICAL. split; intros H.
    - destruct (_ <? _)%N eqn:Hc; [apply N.ltb_lt in Hc; lia|].
      eexists _, _. split; [reflexivity|]. split; [reflexivity|]. split; [reflexivity|]. split; [reflexivity|].
      intros inc Hi. simpl. apply new_rank_gt. exact Hi.
    - destruct (_ <? _)%N eqn:Hc; [reflexivity | apply N.ltb_ge in Hc; lia].
  Qed.

  Lemma reachable_ordered ks (c : context O) :
    Forall no_depends ks -> run_cmds new_context ks = Some c -> ordered (c_graph c).
  Proof.
    intros H1 H2. eapply run_cmds_ordered; eauto.
    intros i n inc Hn. destruct i; discriminate.
  Qed.

  Lemma reachable_acyclic ks (c : context O) :
    Forall no_depends ks -> run_cmds new_context ks = Some c -> acyclic (c_graph c).
  Proof. intros H1 H2. apply ordered_acyclic. eapply reachable_ordered; eauto. Qed.

  Lemma reachable_ok ks (c : context O) : run_cmds new_context ks = Some c -> ctx_ok c.
  Proof. intros H. apply (run_cmds_ok var_op ph_op ctrl_op const_op new_context ks c); auto. apply ctx_ok_new. Qed.

  Lemma reachable_wf ks (c : context O) : run_cmds new_context ks = Some c -> wf_graph (c_graph c).
  Proof. intros H. apply ctx_ok_wf. eapply reachable_ok; eauto. Qed.

  Lemma run_cmds_extends ks : forall c c', Forall extends_cmd ks -> run_cmds c ks = Some c' ->
    exists new, c_graph c' = c_graph c ++ new.
  Proof.
    induction ks as [|k ks IH]; intros c c' Hall; cbn [Graph_Model.run_cmds].
    - intros H; inv H. exists []. rewrite app_nil_r. reflexivity.
    - inv Hall. destruct (run_cmd c k) as [[c1 r]|] eqn:Hk; [|discriminate]. intros H.
      destruct (run_cmd_extends _ _ _ _ _ _ _ _ H1 Hk) as (n1 & E1).
      destruct (IH _ _ H2 H) as (n2 & E2). exists (n1 ++ n2). rewrite E2, E1, app_assoc. reflexivity.
  Qed.

  Lemma clear_forgets ks (c : context O) vid c' r :
    run_cmds new_context ks = Some c -> run_cmd c CClear = Some (c', r) ->
    c_graph c' = [] /\ variable_by_id var_op c' vid =
      Some (Context [Node var_op [] 0 None None true None None (Some vid)] [(vid, 0)], 0).
  Proof. intros _ H. cbn in H. inv H. split; reflexivity. Qed.

  Lemma variable_same_reachable ks0 c vid c1 t ks c2 :
    run_cmds new_context ks0 = Some c -> variable_by_id var_op c vid = Some (c1, t) ->
    Forall no_clear ks -> run_cmds c1 ks = Some c2 ->
    variable_by_id var_op c2 vid = Some (c2, t) /\
    exists n, nth_error (c_graph c2) t = Some n /\ n_var n = Some vid /\ n_inputs n = [].
  Proof.
    intros H0 H1 H2 H3.
    pose proof (variable_same _ _ _ _ _ _ _ _ _ _ H1 H2 H3) as H4. split; auto.
    apply (variable_tensor var_op ph_op ctrl_op const_op c2 vid c2 t); auto.
    apply (run_cmds_ok var_op ph_op ctrl_op const_op c1 ks); auto.
    apply (run_cmd_ok var_op ph_op ctrl_op const_op c (CVariable vid) c1 (Some t)).
    - eapply reachable_ok; eauto.
    - cbn. rewrite H1. reflexivity.
  Qed.

  Lemma one_tensor_per_variable ks (c : context O) t1 t2 n1 n2 vid :
    run_cmds new_context ks = Some c ->
    nth_error (c_graph c) t1 = Some n1 -> nth_error (c_graph c) t2 = Some n2 ->
    n_var n1 = Some vid -> n_var n2 = Some vid -> t1 = t2.
  Proof.
    intros H H1 H2 V1 V2. apply reachable_ok in H. destruct (ok_cache _ H) as [_ Hc].
    pose proof (Hc _ _ _ H1 V1). pose proof (Hc _ _ _ H2 V2). congruence.
  Qed.
End GraphFinal.
