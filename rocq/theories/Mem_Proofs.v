(** The evaluator with memory against the copying evaluator. *)
From Coq Require Import String List Arith ZArith Bool Lia.
Import ListNotations.
From Verif Require Import Graph_Model Eval_Model Eval_Spec Mem_Model Mem_Spec.

Lemma F2_len {A B} (P : A -> B -> Prop) l k : Forall2 P l k -> length l = length k.
Proof. induction 1; cbn; congruence. Qed.

Section Sim.
  Context {O V E : Type}.
  Variable shape_of : V -> list nat.
  Variable mcompute : O -> list (opin V) -> mout V E.
  Variable debug : bool.
  Variable g : graph O.
  Variable feeds : list (ph_key * V).
  Notation compute := (copying mcompute).

  (** What an output is worth. *)
  Definition worth (m : memory (V := V)) (o : out V) (v : V) : Prop := read_out m o = Some v.
  Definition entry_worth (m : memory (V := V)) (x : list (out V) + E) (y : list V + E) : Prop :=
    match x, y with inl os, inl vs => Forall2 (worth m) os vs | inr e, inr e' => e = e' | _, _ => False end.
  Definition store_worth (m : memory (V := V)) (s : mstorage (V := V) (E := E)) (s' : storage) : Prop :=
    forall k, match s k, s' k with Some x, Some y => entry_worth m x y | None, None => True | _, _ => False end.
  (** Only used addresses are in use. *)
  Definition below (m : memory (V := V)) (next : nat) : Prop := forall a v, m a = Some v -> a < next.

  Record sim (ms : mstate (V := V) (E := E)) (st : @state V E) : Prop := {
    sim_stack : ms_stack ms = st_stack st;
    sim_store : store_worth (ms_mem ms) (ms_store ms) (st_store st);
    sim_env : ms_env ms = st_env st;
    sim_log : ms_log ms = st_log st;
    sim_below : below (ms_mem ms) (ms_next ms)
  }.

  (** Memory only grows during the traversal. *)
  Definition extends (m m' : memory (V := V)) : Prop := forall a v, m a = Some v -> m' a = Some v.
  Lemma extends_refl m : extends m m. Proof. intros a v H; exact H. Qed.
  Lemma extends_trans m1 m2 m3 : extends m1 m2 -> extends m2 m3 -> extends m1 m3.
  Proof. intros A B a v H. apply B, A, H. Qed.
  Lemma worth_extends m m' o v : extends m m' -> worth m o v -> worth m' o v.
  Proof.
    intros X. unfold worth, read_out. destruct o as [a|[w|a] f]; cbn; auto;
      (destruct (m a) as [u|] eqn:Q; [|discriminate]; rewrite (X _ _ Q); auto).
  Qed.
  Lemma entry_extends m m' x y : extends m m' -> entry_worth m x y -> entry_worth m' x y.
  Proof.
    intros X. destruct x as [os|e], y as [vs|e']; cbn; auto. intros H. induction H; constructor; auto. eapply worth_extends; eauto.
  Qed.
  Lemma store_extends m m' s s' : extends m m' -> store_worth m s s' -> store_worth m' s s'.
  Proof.
    intros X H k. specialize (H k). destruct (s k), (s' k); auto. eapply entry_extends; eauto.
  Qed.
  Lemma alloc_extends m next v : below m next -> extends m (alloc m next v).
  Proof. intros B a w H. unfold alloc. destruct (Nat.eqb_spec a next); auto. apply B in H. lia. Qed.
  Lemma alloc_below m next v : below m next -> below (alloc m next v) (S next).
  Proof. intros B a w. unfold alloc. destruct (Nat.eqb_spec a next); [lia|]. intros H. apply B in H. lia. Qed.

  (** Inputs. *)
  Definition placed (m : memory (V := V)) (x : minput V) : Prop :=
    match snd x with
    | Some (b, f) => exists v, read_base m b = Some v /\ f v = opin_value (fst x)
    | None => is_var_input x = true
    end.
  Lemma sim_fetch m s s' env inc : store_worth m s s' ->
    match fetch shape_of g feeds s' env inc with
    | FPanic => mfetch shape_of g feeds s m env inc = Panics
    | FErr e => mfetch shape_of g feeds s m env inc = Done (inl e)
    | FVal x => exists p, mfetch shape_of g feeds s m env inc = Done (inr (x, p)) /\ placed m (x, p)
    end.
  Proof.
    intros H. unfold fetch, mfetch. destruct (nth_error g (in_id inc)) as [n|]; auto.
    destruct (n_ph n) as [name|].
    - destruct (find_placeholder shape_of feeds (in_id inc) n name) as [v|]; auto. eexists. split; [reflexivity|]. exists v. auto.
    - destruct (n_var n) as [vid|].
      + destruct (nth_error env vid) as [v|]; auto. exists None. split; [reflexivity|]. unfold placed, is_var_input. cbn. destruct (in_mut inc); reflexivity.
      + specialize (H (in_id inc)). destruct (s (in_id inc)) as [[os|e]|], (s' (in_id inc)) as [[vs|e']|]; cbn in H; try contradiction; auto.
        2: { subst; reflexivity. }
        destruct (nth_error vs (in_sel inc)) as [v|] eqn:Q.
        * assert (X : exists o, nth_error os (in_sel inc) = Some o /\ worth m o v).
          { revert Q. generalize (in_sel inc). induction H as [|o w os vs Hw _ IH]; intros [|k] Q; try discriminate; cbn in *.
            - injection Q as <-. eauto.
            - apply IH; exact Q. }
          destruct X as (o & Eo & Wo). rewrite Eo. unfold worth in Wo. rewrite Wo. eexists. split; [reflexivity|].
          unfold placed. cbn. unfold read_out in Wo. destruct (out_base o) as [b f]. cbn in *.
          destruct (read_base m b) as [u|] eqn:R; [|discriminate]. injection Wo as <-. exists u; auto.
        * assert (X : nth_error os (in_sel inc) = None).
          { apply nth_error_None. apply nth_error_None in Q. rewrite (F2_len _ _ _ H). exact Q. }
          rewrite X. reflexivity.
  Qed.
  Lemma sim_collect m s s' env : store_worth m s s' -> forall ins,
    match collect shape_of g feeds s' env ins with
    | XPanic => mcollect shape_of g feeds s m env ins = Panics
    | XErr e => mcollect shape_of g feeds s m env ins = Done (inl e)
    | XOk l => exists xs, mcollect shape_of g feeds s m env ins = Done (inr xs) /\ map fst xs = l /\ Forall (placed m) xs
    end.
  Proof.
    intros H. induction ins as [|i ins IH]; cbn.
    - exists []. auto.
    - pose proof (sim_fetch m s s' env i H) as F. destruct (fetch shape_of g feeds s' env i) as [|e|x].
      + rewrite F. reflexivity.
      + rewrite F. reflexivity.
      + destruct F as (p & -> & Pp). cbn. destruct (collect shape_of g feeds s' env ins) as [|e|l].
        * rewrite IH. reflexivity.
        * rewrite IH. reflexivity.
        * destruct IH as (xs & -> & <- & Px). exists ((x, p) :: xs). auto.
  Qed.

  (** Outputs. *)
  Lemma placed_extends m m' x : extends m m' -> placed m x -> placed m' x.
  Proof.
    intros X. unfold placed. destruct (snd x) as [[[w|a] f]|]; auto. intros (v & R & Q). exists v. split; auto. cbn in *. auto.
  Qed.
  Lemma sim_append xs m next y : below m next -> Forall (placed m) xs ->
    match app_value (map fst xs) y with
    | None => mappend xs m next y = Panics
    | Some v => exists o m' n', mappend xs m next y = Done (o, m', n') /\ worth m' o v /\ extends m m' /\ below m' n'
    end.
  Proof.
    intros B P. destruct y as [v|p f]; cbn.
    - exists (Owned next), (alloc m next v), (S next). split; [reflexivity|]. split; [|split; [apply alloc_extends|apply alloc_below]; auto].
      unfold worth, read_out, alloc. cbn. rewrite Nat.eqb_refl. reflexivity.
    - destruct (nth_error xs p) as [[x w]|] eqn:Q.
      2: { assert (Z : nth_error (map fst xs) p = None) by (apply nth_error_None; rewrite map_length; apply nth_error_None; exact Q). rewrite Z. reflexivity. }
      rewrite (map_nth_error fst p xs Q). cbn.
      destruct (existsb is_var_input xs) eqn:X.
      + eexists _, _, _. split; [reflexivity|]. split; [|split; [apply alloc_extends|apply alloc_below]; auto].
        unfold worth, read_out, alloc. cbn. rewrite Nat.eqb_refl. reflexivity.
      + assert (Px : placed m (x, w)) by (rewrite Forall_forall in P; apply P; eapply nth_error_In; eauto).
        assert (Nx : is_var_input (x, w) = false).
        { destruct (is_var_input (x, w)) eqn:Z; auto. rewrite <- X. symmetry. apply existsb_exists. exists (x, w). split; auto. eapply nth_error_In; eauto. }
        unfold placed in Px. cbn in Px. destruct w as [[b h]|]; [|congruence]. destruct Px as (u & R & U).
        eexists _, _, _. split; [reflexivity|]. split; [|split; [apply extends_refl|exact B]].
        unfold worth, read_out. cbn. rewrite R. cbn. rewrite U. reflexivity.
  Qed.
  Lemma sim_appends ys : forall xs m next, below m next -> Forall (placed m) xs ->
    match app_values (map fst xs) ys with
    | None => mappends xs m next ys = Panics
    | Some vs => exists os m' n', mappends xs m next ys = Done (os, m', n') /\ Forall2 (worth m') os vs /\ extends m m' /\ below m' n'
    end.
  Proof.
    induction ys as [|y ys IH]; intros xs m next B P; cbn.
    - exists [], m, next. split; [reflexivity|]. split; [constructor|]. split; [apply extends_refl|exact B].
    - pose proof (sim_append xs m next y B P) as A. destruct (app_value (map fst xs) y) as [v|].
      + destruct A as (o & m1 & n1 & -> & Wo & X1 & B1). cbn.
        assert (P1 : Forall (placed m1) xs) by (eapply Forall_impl; [|exact P]; intros; eapply placed_extends; eauto).
        specialize (IH xs m1 n1 B1 P1). destruct (app_values (map fst xs) ys) as [vs|].
        * destruct IH as (os & m2 & n2 & -> & Ws & X2 & B2). cbn. exists (o :: os), m2, n2. split; [reflexivity|].
          split; [constructor; [eapply worth_extends; eauto|exact Ws]|]. split; [eapply extends_trans; eauto|exact B2].
        * rewrite IH. reflexivity.
      + rewrite A. reflexivity.
  Qed.

  (** Steps. *)
  Lemma sim_skip m s s' (n : node O) id : store_worth m s s' -> mskip n id s = would_not_visit n id s'.
  Proof.
    intros H. unfold mskip, would_not_visit. f_equal. specialize (H id). destruct (s id), (s' id); auto; contradiction.
  Qed.
  Lemma sim_push m s s' : store_worth m s s' -> forall ins stack, mpush g s ins stack = as_mres (push_children g s' ins stack).
  Proof.
    intros H. induction ins as [|i ins IH]; intros stack; cbn; auto. destruct (nth_error g (in_id i)) as [c|]; auto.
    rewrite (sim_skip m s s' c (in_id i) H). apply IH.
  Qed.
  Lemma store_insert m s s' id x y : store_worth m s s' -> entry_worth m x y ->
    store_worth m (minsert s id x) (st_insert s' id y).
  Proof. intros H W k. unfold minsert, st_insert. destruct (k =? id)%nat; auto. apply H. Qed.

  Definition related (r : mres (option mstate)) (r' : res (option (@state V E))) : Prop :=
    match r' with
    | Ok (Some st) => exists ms, r = Done (Some ms) /\ sim ms st
    | Ok None => r = Done None
    | Panic => r = Panics
    | OutOfFuel => r = NoFuel
    end.
  Lemma sim_step ms st : sim ms st -> related (mstep shape_of mcompute debug g feeds ms) (step shape_of compute debug g feeds st).
  Proof.
    intros [Hk Hs He Hl Hb]. unfold mstep, step. rewrite Hk. destruct (st_stack st) as [|[id b] rest]; [reflexivity|].
    destruct (nth_error g id) as [n|]; [|reflexivity]. destruct b.
    - rewrite (sim_skip _ _ _ n id Hs). destruct (would_not_visit n id (st_store st)).
      + eexists. split; [reflexivity|]. constructor; auto.
      + unfold mvisit, visit. rewrite He. pose proof (sim_collect _ _ _ (st_env st) Hs (n_inputs n)) as C.
        destruct (collect shape_of g feeds (st_store st) (st_env st) (n_inputs n)) as [|e|xs'].
        * rewrite C. reflexivity.
        * rewrite C. cbn. eexists. split; [reflexivity|]. constructor; cbn; auto; [|congruence]. apply store_insert; [exact Hs|reflexivity].
        * destruct C as (xs & -> & <- & Px). cbn. unfold copying. destruct (mcompute (n_op n) (map fst xs)) as [|ws ys status]; [reflexivity|].
          pose proof (sim_appends ys xs (ms_mem ms) (ms_next ms) Hb Px) as A. destruct (app_values (map fst xs) ys) as [vs|].
          -- destruct A as (os & m' & n' & -> & Wo & X & B). cbn.
             assert (Q : match os with [] => true | _ => false end = match vs with [] => true | _ => false end) by (inversion Wo; reflexivity).
             rewrite Q. destruct (debug && match vs with [] => true | _ => false end); [reflexivity|]. cbn.
             eexists. split; [reflexivity|]. constructor; cbn; auto; [|congruence].
             apply store_insert; [eapply store_extends; eauto|]. destruct status; [reflexivity|exact Wo].
          -- rewrite A. reflexivity.
    - rewrite (sim_push _ _ _ Hs). destruct (push_children g (st_store st) (n_inputs n) ((id, true) :: rest)); cbn; auto.
      eexists. split; [reflexivity|]. constructor; auto.
  Qed.
  Lemma sim_loop fuel : forall ms st, sim ms st ->
    match loop shape_of compute debug g feeds fuel st with
    | Ok st' => exists ms', mloop shape_of mcompute debug g feeds fuel ms = Done ms' /\ sim ms' st'
    | Panic => mloop shape_of mcompute debug g feeds fuel ms = Panics
    | OutOfFuel => mloop shape_of mcompute debug g feeds fuel ms = NoFuel
    end.
  Proof.
    induction fuel as [|fuel IH]; intros ms st H; cbn; auto. pose proof (sim_step ms st H) as S.
    destruct (step shape_of compute debug g feeds st) as [[st'|]| |]; cbn in S.
    - destruct S as (ms' & -> & H'). cbn. apply IH; exact H'.
    - rewrite S. cbn. exists ms. auto.
    - rewrite S. reflexivity.
    - rewrite S. reflexivity.
  Qed.
  Lemma sim_init targets env : sim (minit targets env) (init_state targets env).
  Proof. constructor; cbn; auto; [intros k; exact I|intros a v; discriminate]. Qed.

  (** Taking results out, as long as nothing is released. *)
  Definition single (s : mstorage (V := V) (E := E)) (t : nat) : Prop :=
    forall os, s t = Some (inl os) -> length os <= 1.
  Lemma sim_aggregate env m : forall targets s s', store_worth m s s' ->
    (forall t, In t (removelast targets) -> single s t) ->
    maggregate shape_of g feeds targets s m env = as_mres (aggregate shape_of g feeds targets s' env).
  Proof.
    induction targets as [|t rest IH]; intros s s' H Hn; cbn; auto. destruct (nth_error g t) as [n|]; auto.
    assert (Hn' : forall s1, (forall k, s1 k = None \/ s1 k = s k) -> forall u, In u (removelast rest) -> single s1 u).
    { intros s1 A u Hu os Q. destruct (A u) as [Z|Z]; [congruence|]. apply (Hn u); [|congruence]. destruct rest; [destruct Hu|]. right. exact Hu. }
    destruct (n_var n) as [vid|].
    { destruct (nth_error env vid) as [v|]; auto. rewrite (IH s s' H (Hn' s (fun k => or_intror eq_refl))).
      destruct (aggregate shape_of g feeds rest s' env); reflexivity. }
    destruct (n_ph n) as [name|].
    { destruct (find_placeholder shape_of feeds t n name) as [v|]; auto. rewrite (IH s s' H (Hn' s (fun k => or_intror eq_refl))).
      destruct (aggregate shape_of g feeds rest s' env); reflexivity. }
    assert (Hr : store_worth m (mremove s t) (st_remove s' t)).
    { intros k. unfold mremove, st_remove. destruct (k =? t)%nat; auto. apply H. }
    assert (HA : forall k, mremove s t k = None \/ mremove s t k = s k).
    { intros k. unfold mremove. destruct (k =? t)%nat; auto. }
    unfold mtake. pose proof (H t) as Ht. destruct (s t) as [[os|e]|] eqn:Es, (s' t) as [[vs|e']|]; cbn in Ht; try contradiction; auto.
    - inversion Ht as [|o v os1 vs1 Wo Ws]; subst; [reflexivity|]. unfold worth in Wo. rewrite Wo. cbn.
      destruct rest as [|u rest].
      + reflexivity.
      + assert (os1 = []). { specialize (Hn t (or_introl eq_refl) _ Es). cbn in Hn. destruct os1; auto. cbn in Hn. lia. }
        subst os1. cbn [drop fold_left]. rewrite (IH _ _ Hr (Hn' _ HA)).
        destruct (aggregate shape_of g feeds (u :: rest) (st_remove s' t) env); reflexivity.
    - subst e'. cbn. rewrite (IH _ _ Hr (Hn' _ HA)). destruct (aggregate shape_of g feeds rest (st_remove s' t) env); reflexivity.
  Qed.

  (** ** Where stored results come from *)
  Lemma mappends_length (ys : list (app V)) : forall xs m next os m' n', mappends xs m next ys = Done (os, m', n') -> length os = length ys.
  Proof.
    induction ys as [|y ys IH]; intros xs m next os m' n' H; cbn in H; [injection H as <- _ _; reflexivity|].
    destruct (mappend xs m next y) as [[[o m1] n1]| | |]; try discriminate. cbn in H.
    destruct (mappends xs m1 n1 ys) as [[[os1 m2] n2]| | |] eqn:Q; try discriminate. injection H as <- <- <-. cbn. f_equal. eapply IH; eauto.
  Qed.
  (** Every entry of the storage was put there by the operation of its tensor,
      with the storage of that time, which later storages extend. *)
  Definition made_by (s : mstorage (V := V) (E := E)) (id : nat) (os : list (out V)) : Prop :=
    exists n s0 m0 env0 next0 xs ws ys m1 n1,
      nth_error g id = Some n /\ (forall k e, s0 k = Some e -> s k = Some e) /\
      mcollect shape_of g feeds s0 m0 env0 (n_inputs n) = Done (inr xs) /\
      mcompute (n_op n) (map fst xs) = MRet ws ys None /\ mappends xs m0 next0 ys = Done (os, m1, n1).
  Definition origins (ms : mstate (V := V) (E := E)) : Prop :=
    forall id os, ms_store ms id = Some (inl os) -> made_by (ms_store ms) id os.
  Lemma origins_insert s id e : s id = None -> (forall i os, s i = Some (inl os) -> made_by s i os) ->
    (forall os, e = inl os -> made_by (minsert s id e) id os) ->
    forall i os, minsert s id e i = Some (inl os) -> made_by (minsert s id e) i os.
  Proof.
    intros N H He i os. unfold minsert at 1. destruct (Nat.eqb_spec i id) as [->|Ne].
    - intros Q. injection Q as ->. apply He; reflexivity.
    - intros Q. destruct (H i os Q) as (n & s0 & m0 & env0 & x0 & xs & ws & ys & m1 & n1 & A & B & C & D & F).
      exists n, s0, m0, env0, x0, xs, ws, ys, m1, n1. split; auto. split; auto. intros k f Hk. apply B in Hk. unfold minsert.
      destruct (Nat.eqb_spec k id); [subst; congruence|exact Hk].
  Qed.
  Lemma origins_step ms ms' : origins ms -> mstep shape_of mcompute debug g feeds ms = Done (Some ms') -> origins ms'.
  Proof.
    intros H Q. unfold mstep in Q. destruct (ms_stack ms) as [|[id b] rest]; [discriminate|].
    destruct (nth_error g id) as [n|] eqn:En; [|discriminate]. destruct b.
    - destruct (mskip n id (ms_store ms)) eqn:Sk; [injection Q as <-; exact H|].
      assert (N : ms_store ms id = None) by (unfold mskip in Sk; apply orb_false_elim in Sk; destruct Sk as [_ Sk]; destruct (ms_store ms id); congruence).
      unfold mvisit in Q. destruct (mcollect shape_of g feeds (ms_store ms) (ms_mem ms) (ms_env ms) (n_inputs n)) as [[e|xs]| | |] eqn:EC; try discriminate.
      + cbn in Q. injection Q as <-. unfold origins. cbn [ms_store]. apply origins_insert; auto. discriminate.
      + cbn in Q. destruct (mcompute (n_op n) (map fst xs)) as [|ws ys status] eqn:EM; [discriminate|].
        destruct (mappends xs (ms_mem ms) (ms_next ms) ys) as [[[os m] next]| | |] eqn:EA; try discriminate. cbn in Q.
        destruct (debug && match os with [] => true | _ => false end); [discriminate|]. cbn in Q. injection Q as <-. unfold origins. cbn [ms_store].
        apply origins_insert; auto. intros os' Q. destruct status; [discriminate|]. injection Q as <-.
        exists n, (ms_store ms), (ms_mem ms), (ms_env ms), (ms_next ms), xs, ws, ys, m, next. repeat (split; [assumption|]).
        split; [|auto]. intros k e Hk. unfold minsert. destruct (Nat.eqb_spec k id); [subst; congruence|exact Hk].
    - destruct (mpush g (ms_store ms) (n_inputs n) ((id, true) :: rest)) as [stack'| | |]; try discriminate. cbn in Q. injection Q as <-. exact H.
  Qed.
  Lemma origins_loop fuel : forall ms ms', origins ms -> mloop shape_of mcompute debug g feeds fuel ms = Done ms' -> origins ms'.
  Proof.
    induction fuel as [|fuel IH]; intros ms ms' H Q; cbn in Q; [discriminate|].
    destruct (mstep shape_of mcompute debug g feeds ms) as [[st|]| | |] eqn:ES; try discriminate; cbn in Q.
    - eapply IH; [|exact Q]. eapply origins_step; eauto.
    - injection Q as <-. exact H.
  Qed.
  Lemma origins_init targets env : origins (minit targets env).
  Proof. intros id os H. discriminate. Qed.

  Lemma single_of ms t : origins ms -> (forall n, nth_error g t = Some n -> one_output mcompute (n_op n)) -> single (ms_store ms) t.
  Proof.
    intros H One os Q. destruct (H t os Q) as (n & s0 & m0 & env0 & x0 & xs & ws & ys & m1 & n1 & A & B & C & D & F).
    rewrite (mappends_length _ _ _ _ _ _ _ F). eapply One; eauto.
  Qed.

  Lemma meval_refines fuel targets env :
    (forall t n, In t (removelast targets) -> nth_error g t = Some n -> one_output mcompute (n_op n)) ->
    meval shape_of mcompute debug g feeds fuel targets env = as_mres (eval shape_of compute debug g feeds fuel targets env).
  Proof.
    intros One. unfold meval, eval. pose proof (sim_loop fuel _ _ (sim_init targets env)) as S.
    destruct (loop shape_of compute debug g feeds fuel (init_state targets env)) as [st| |].
    - destruct S as (ms & ES & [Hk Hs He Hl Hb]). rewrite ES. cbn. pose proof (origins_loop _ _ _ (origins_init targets env) ES) as Or.
      rewrite He, (sim_aggregate (st_env st) (ms_mem ms) targets (ms_store ms) (st_store st) Hs).
      + destruct (aggregate shape_of g feeds targets (st_store st) (st_env st)); cbn; auto. rewrite Hl. reflexivity.
      + intros t Ht. apply single_of; auto. intros n. apply One; exact Ht.
    - rewrite S. reflexivity.
    - rewrite S. reflexivity.
  Qed.

  (** ** Released memory *)
  Lemma drop_none os : forall m a, m a = None -> drop (V := V) m os a = None.
  Proof.
    unfold drop. induction os as [|[b|b f] os IH]; intros m a H; cbn; [exact H| |]; apply IH; auto. unfold release. destruct (a =? b)%nat; auto.
  Qed.
  Lemma drop_in os : forall m a, In (Owned a) os -> drop (V := V) m os a = None.
  Proof.
    induction os as [|o os IH]; intros m a H; [destruct H|]. destruct H as [->|H].
    - cbn. apply drop_none. unfold release. rewrite Nat.eqb_refl. reflexivity.
    - destruct o; cbn; apply IH; exact H.
  Qed.
  Lemma made_owned xs (ys : list (app V)) : (forall y, In y ys -> exists v, y = Made v) -> forall m next os m' n',
    mappends xs m next ys = Done (os, m', n') -> forall o, In o os -> exists a, o = Owned a.
  Proof.
    induction ys as [|y ys IH]; intros Hy m next os m' n' H o Ho; cbn in H; [injection H as <- _ _; destruct Ho|].
    destruct (Hy y (or_introl eq_refl)) as (v & ->). cbn in H.
    destruct (mappends xs (alloc m next v) (S next) ys) as [[[os1 m2] n2]| | |] eqn:Q; try discriminate. injection H as <- <- <-.
    destruct Ho as [<-|Ho]; [eauto|]. eapply IH; eauto. intros z Hz. apply Hy. right; exact Hz.
  Qed.

  Lemma meval_dangling fuel t m k nt nm env a b oc :
    t <> m -> op_node g t nt -> op_node g m nm -> n_inputs nm = [Incoming t false k] -> 1 <= k ->
    (forall xs ws ys status, mcompute (n_op nt) xs = MRet ws ys status -> forall y, In y ys -> exists v, y = Made v) ->
    (forall x, mcompute (n_op nm) [x] = MRet [] [Viewed 0 (fun v => v)] None) ->
    eval shape_of compute debug g feeds fuel [t; m] env = Ok oc -> oc_results oc = [inl a; inl b] ->
    meval shape_of mcompute debug g feeds fuel [t; m] env = Dangling.
  Proof.
    intros Ne [Nt [Pt Vt]] [Nm [Pm Vm]] Im Hk Mt Mm He Hr. unfold eval in He. unfold meval.
    pose proof (sim_loop fuel _ _ (sim_init [t; m] env)) as S.
    destruct (loop shape_of compute debug g feeds fuel (init_state [t; m] env)) as [st| |]; try discriminate.
    destruct S as (ms & ES & [_ Hs _ _ _]). rewrite ES. cbn [mbind]. pose proof (origins_loop _ _ _ (origins_init [t; m] env) ES) as Or. clear ES.
    cbn [aggregate] in He. rewrite Nt, Vt, Pt, Nm, Vm, Pm in He. unfold st_remove in He.
    replace (m =? t)%nat with false in He by (symmetry; apply Nat.eqb_neq; auto).
    destruct (st_store st t) as [[vt|et]|] eqn:Et; [|destruct (st_store st m) as [[[|bm vm]|em]|]; try discriminate; injection He as <-; discriminate|discriminate].
    destruct vt as [|v0 vt]; [discriminate|].
    destruct (st_store st m) as [[vm|em]|] eqn:Em; [|injection He as <-; discriminate|discriminate].
    pose proof (Hs t) as Wt. rewrite Et in Wt. destruct (ms_store ms t) as [[ot|]|] eqn:Mst; try contradiction. cbn in Wt.
    pose proof (Hs m) as Wm. rewrite Em in Wm. destruct (ms_store ms m) as [[om|]|] eqn:Msm; try contradiction.
    inversion Wt as [|o0 ? rest ? W0 Wr]; subst.
    (* the outputs of [t] are its own *)
    assert (Own : forall o, In o (o0 :: rest) -> exists a, o = Owned a).
    { destruct (Or t _ Mst) as (n & s0 & m0 & env0 & x0 & xs & ws & ys & m1 & n1 & A & _ & _ & D & F).
      assert (n = nt) by congruence. subst n. eapply made_owned; [eapply Mt; eauto|exact F]. }
    (* [m] views one of them *)
    assert (Vw : exists c f, nth_error (o0 :: rest) k = Some (Owned c) /\ om = [View (BHeap c) f]).
    { destruct (Or m _ Msm) as (n & s0 & m0 & env0 & x0 & xs & ws & ys & m1 & n1 & A & B & C & D & F).
      assert (n = nm) by congruence. subst n. rewrite Im in C. cbn [mcollect] in C. unfold mfetch in C. cbn [in_id in_sel] in C. rewrite Nt, Pt, Vt in C.
      destruct (s0 t) as [[os0|e0]|] eqn:E0; cbn in C; try discriminate. apply B in E0. assert (os0 = o0 :: rest) by congruence. subst os0.
      destruct (nth_error (o0 :: rest) k) as [o|] eqn:Ek; cbn in C; try discriminate.
      destruct (Own o (nth_error_In _ _ Ek)) as (c & ->). cbn in C. unfold read_out in C. cbn in C. destruct (m0 c) as [w|] eqn:Ec; cbn in C; try discriminate.
      injection C as <-. cbn [map fst] in D. rewrite Mm in D. injection D as <- <-. cbn in F. injection F as <- <- <-. eauto. }
    destruct Vw as (c & f & Ek & ->). destruct k as [|k]; [lia|]. cbn in Ek.
    cbn [maggregate]. rewrite Nt, Vt, Pt. unfold mtake. rewrite Mst. unfold worth in W0. rewrite W0. cbn [mbind].
    rewrite Nm, Vm, Pm. unfold mremove. replace (m =? t)%nat with false by (symmetry; apply Nat.eqb_neq; auto). rewrite Msm.
    unfold read_out. cbn. rewrite (drop_in rest _ c (nth_error_In _ _ Ek)). reflexivity.
  Qed.
End Sim.
