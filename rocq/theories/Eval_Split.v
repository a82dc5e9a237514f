(** Evaluations step by step: what stands lower on the stack waits until everything
    above it is finished, so a target whose inputs are fresh is evaluated as if the
    inputs were targets listed right after it. *)
From Coq Require Import String List Arith ZArith Bool Relations Lia.
Import ListNotations.
From Verif Require Import Graph_Model Eval_Model Eval_Spec Eval_Proofs Eval_Proofs2 Eval_Order.

Section Split.
  Context {O V E : Type}.
  Variable shape_of : V -> list nat.
  Variable compute : O -> list (opin V) -> cout V E.
  Variable debug : bool.
  Variable g : graph O.
  Variable feeds : list (ph_key * V).
  Notation state := (@state V E).
  Notation step := (step shape_of compute debug g feeds).
  Notation loop := (loop shape_of compute debug g feeds).
  Notation push_children := (push_children (V := V) (E := E) g).

  (** [st] with more entries below its own. *)
  Definition put_below (below : list (nat * bool)) (st : state) : state :=
    State (st_stack st ++ below) (st_store st) (st_env st) (st_log st).

  Lemma push_children_frame s ins stack below :
    push_children s ins (stack ++ below) =
    match push_children s ins stack with Ok l => Ok (l ++ below) | Panic => Panic | OutOfFuel => OutOfFuel end.
  Proof.
    revert stack. induction ins as [|i ins IH]; intros stack; cbn [Eval_Model.push_children]; [reflexivity|].
    destruct (nth_error g (in_id i)) as [c|]; [|reflexivity].
    destruct (would_not_visit c (in_id i) s); [apply IH|]. rewrite app_comm_cons. apply IH.
  Qed.

  Lemma step_frame st below : st_stack st <> [] ->
    step (put_below below st) =
    match step st with
    | Ok (Some s) => Ok (Some (put_below below s))
    | Ok None => Ok None
    | Panic => Panic
    | OutOfFuel => OutOfFuel
    end.
  Proof.
    intros H. unfold Eval_Model.step, put_below. cbn [st_stack st_store st_env st_log].
    destruct (st_stack st) as [|[i b] rest]; [congruence|]. cbn [app].
    destruct (nth_error g i) as [n|]; [|reflexivity]. destruct b.
    - destruct (would_not_visit n i (st_store st)); [reflexivity|]. unfold visit. cbn [st_store st_env st_log].
      destruct (collect _ _ _ _ _ _) as [|e|xs]; [reflexivity|reflexivity|].
      destruct (compute (n_op n) xs) as [|ws ys status]; [reflexivity|]. destruct (debug && _); reflexivity.
    - rewrite app_comm_cons, push_children_frame. destruct (push_children _ _ _); reflexivity.
  Qed.

  (** [k] iterations finish everything on the stack of [st] and end in [st1], whatever
      stands below. *)
  Definition finishes (k : nat) (st st1 : state) : Prop :=
    st_stack st1 = [] /\ forall below f, loop (k + f) (put_below below st) = loop f (put_below below st1).

  Lemma split_loop fuel st below st' : loop fuel (put_below below st) = Ok st' ->
    exists k st1, k < fuel /\ finishes k st st1.
  Proof.
    revert st. induction fuel as [|fuel IH]; intros st H; [discriminate|].
    destruct (st_stack st) as [|e rest] eqn:Hs.
    - exists 0, st. split; [lia|]. split; [exact Hs|]. reflexivity.
    - cbn [Eval_Model.loop] in H. rewrite step_frame in H by congruence.
      destruct (step st) as [[s|]| |] eqn:Hst; try discriminate.
      + destruct (IH s H) as (k & st1 & Hk & H1 & H2). exists (S k), st1. split; [lia|]. split; [exact H1|].
        intros below' f. cbn [Nat.add Eval_Model.loop]. rewrite step_frame by congruence. rewrite Hst. apply H2.
      + exfalso. unfold Eval_Model.step in Hst. rewrite Hs in Hst. destruct e as [i b].
        destruct (nth_error g i); [|discriminate]. destruct b; [destruct (would_not_visit _ _ _); [discriminate|];
          destruct (visit _ _ _ _ _ _ _ _ _); discriminate|]. destruct (Eval_Model.push_children _ _ _ _); discriminate.
  Qed.

  Lemma put_nil st : put_below [] st = st.
  Proof. destruct st; unfold put_below; cbn. rewrite app_nil_r. reflexivity. Qed.
  Lemma put_put a b st : put_below b (put_below a st) = put_below (a ++ b) st.
  Proof. unfold put_below; cbn. rewrite app_assoc. reflexivity. Qed.
  Lemma loop_done f (st : state) : st_stack st = [] -> loop (S f) st = Ok st.
  Proof. intros H. cbn [Eval_Model.loop]. unfold Eval_Model.step. rewrite H. reflexivity. Qed.

  Definition entries (l : list nat) : list (nat * bool) := rev (map (fun t => (t, false)) l).
  Lemma entries_app l l' : entries (l ++ l') = entries l' ++ entries l.
  Proof. unfold entries. rewrite map_app, rev_app_distr. reflexivity. Qed.
  Lemma init_app l l' env0 : init_state (l ++ l') env0 = put_below (entries l) (init_state l' env0).
  Proof. unfold put_below. change (st_stack (init_state (E := E) l' env0)) with (entries l'). rewrite <- entries_app. reflexivity. Qed.

  (** ** A target whose inputs are fresh *)
  Hypothesis Hwf : wf_graph g.
  Variables (pre us post : list nat) (U : nat) (n : node O) (env0 : list V).
  Hypothesis HU : nth_error g U = Some n.
  Hypothesis Hin : n_inputs n = map (fun u => Incoming u false 0) us.
  Hypothesis Hus : forall u, In u us -> computed g u.
  Hypothesis Hpost : in_range g post.
  Hypothesis Hfresh : forall t u, In t post -> In u us -> ~ depends g t u.

  Lemma us_in_range : in_range g us.
  Proof. intros u Hu. destruct (Hus u Hu) as (m & Hm & _). apply nth_error_Some. congruence. Qed.

  Lemma push_none s l stack : (forall u, In u l -> computed g u) -> (forall u, In u l -> s u <> None) ->
    push_children s (map (fun u => Incoming u false 0) l) stack = Ok stack.
  Proof.
    revert stack. induction l as [|u l IH]; intros stack Hc Hs; cbn [map Eval_Model.push_children]; [reflexivity|].
    cbn [in_id]. destruct (Hc u (or_introl eq_refl)) as (m & Hm & _). rewrite Hm.
    assert (Hw : would_not_visit m u s = true).
    { unfold would_not_visit. specialize (Hs u (or_introl eq_refl)). destruct (s u); [|congruence]. apply orb_true_r. }
    rewrite Hw. apply IH; intros; [apply Hc|apply Hs]; right; assumption.
  Qed.
  Lemma push_all s l stack : (forall u, In u l -> computed g u) -> (forall u, In u l -> s u = None) ->
    push_children s (map (fun u => Incoming u false 0) l) stack = Ok (entries l ++ stack).
  Proof.
    revert stack. induction l as [|u l IH]; intros stack Hc Hs; cbn [map Eval_Model.push_children]; [reflexivity|].
    cbn [in_id]. destruct (Hc u (or_introl eq_refl)) as (m & Hm & Hp & Hv). rewrite Hm.
    assert (Hw : would_not_visit m u s = false).
    { unfold would_not_visit, is_placeholder, is_variable. rewrite Hp, Hv, (Hs u (or_introl eq_refl)). reflexivity. }
    rewrite Hw. rewrite IH; [|intros; apply Hc; right; assumption|intros; apply Hs; right; assumption].
    change (u :: l) with ([u] ++ l). rewrite entries_app, <- app_assoc. reflexivity.
  Qed.

  Lemma init_short : init_state (pre ++ [U] ++ post) env0 = put_below ((U, false) :: entries pre) (init_state post env0).
  Proof. rewrite app_assoc, init_app, entries_app. reflexivity. Qed.
  Lemma init_long : init_state (pre ++ [U] ++ us ++ post) env0 =
    put_below (entries us ++ (U, false) :: entries pre) (init_state post env0).
  Proof. replace (pre ++ [U] ++ us ++ post) with ((pre ++ [U] ++ us) ++ post) by (rewrite <- !app_assoc; reflexivity).
    rewrite init_app, (app_assoc pre), !entries_app. reflexivity. Qed.

  (** Once the tensors listed after the target and then its inputs are finished, it
      makes no difference whether the inputs were targets. *)
  Lemma same_loop k1 k2 st1 st2 f :
    finishes k1 (init_state post env0) st1 -> finishes k2 (put_below (entries us) st1) st2 -> k1 + k2 < f ->
    loop f (init_state (pre ++ [U] ++ post) env0) = loop f (init_state (pre ++ [U] ++ us ++ post) env0).
  Proof.
    intros (S1 & F1) (S2 & F2) Hf.
    assert (Hbase : loop (k1 + (k2 + 1)) (init_state (us ++ post) env0) = Ok st2).
    { rewrite init_app, F1. rewrite <- (put_nil (put_below (entries us) st1)), F2, put_nil. apply loop_done. exact S2. }
    assert (Hr : in_range g (us ++ post)).
    { intros t Ht. apply in_app_iff in Ht. destruct Ht; [apply us_in_range | apply Hpost]; assumption. }
    destruct (inv_loop shape_of compute debug g feeds _ _ Hwf _ _ _ (inv_init shape_of compute debug g feeds (us ++ post) env0 Hr) Hbase) as [HI2 _].
    assert (Hb1 : loop (k1 + 1) (init_state post env0) = Ok st1).
    { rewrite <- (put_nil (init_state post env0)), F1, put_nil. apply loop_done. exact S1. }
    destruct (inv_loop shape_of compute debug g feeds _ _ Hwf _ _ _ (inv_init shape_of compute debug g feeds post env0 Hpost) Hb1) as [HI1 _].
    assert (Hnone : forall u, In u us -> st_store st1 u = None).
    { intros u Hu. destruct (st_store st1 u) as [r|] eqn:Hs; [|reflexivity]. exfalso.
      destruct (I_reach' _ _ _ _ _ _ _ _ HI1 u) as (t & Ht & Hd); [unfold stored; congruence|]. exact (Hfresh t u Ht Hu Hd). }
    assert (Hsome : forall u, In u us -> st_store st2 u <> None).
    { intros u Hu. destruct (I_targets _ _ _ _ _ _ _ _ HI2 u) as [Hs|(b & Hb)]; auto.
      - apply in_or_app. left. exact Hu.
      - rewrite S2 in Hb. destruct Hb. }
    rewrite init_short, init_long.
    replace f with (k1 + (k2 + S (f - k1 - k2 - 1))) by lia. set (r := f - k1 - k2 - 1).
    rewrite !F1.
    (* inputs listed *)
    rewrite <- (put_put (entries us)), F2.
    (* inputs not listed *)
    assert (E1 : step (put_below ((U, false) :: entries pre) st1) =
                 Ok (Some (put_below ((U, true) :: entries pre) (put_below (entries us) st1)))).
    { unfold Eval_Model.step, put_below. cbn [st_stack st_store st_env st_log]. rewrite S1. cbn [app]. rewrite HU, Hin, (push_all (st_store st1) us _ Hus Hnone).
      reflexivity. }
    assert (E2 : step (put_below ((U, false) :: entries pre) st2) =
                 Ok (Some (put_below ((U, true) :: entries pre) st2))).
    { unfold Eval_Model.step, put_below. cbn [st_stack st_store st_env st_log]. rewrite S2. cbn [app]. rewrite HU, Hin, (push_none (st_store st2) us _ Hus Hsome).
      reflexivity. }
    replace (k2 + S r) with (S (k2 + r)) by lia. cbn [Eval_Model.loop app]. rewrite E1, E2. apply F2.
  Qed.

  (** Evaluating the target is the same as evaluating it and its inputs. *)
  Theorem inputs_as_targets f st :
    loop f (init_state (pre ++ [U] ++ post) env0) = Ok st <->
    loop f (init_state (pre ++ [U] ++ us ++ post) env0) = Ok st.
  Proof.
    split; intros H.
    - pose proof H as H0. rewrite init_short in H.
      destruct (split_loop _ _ _ _ H) as (k1 & st1 & Hk1 & F1). pose proof F1 as (S1 & F1').
      assert (Hr : in_range g post) by exact Hpost.
      assert (Hb1 : loop (k1 + 1) (init_state post env0) = Ok st1).
      { rewrite <- (put_nil (init_state post env0)), F1', put_nil. apply loop_done. exact S1. }
      destruct (inv_loop shape_of compute debug g feeds _ _ Hwf _ _ _ (inv_init shape_of compute debug g feeds post env0 Hpost) Hb1) as [HI1 _].
      assert (Hnone : forall u, In u us -> st_store st1 u = None).
      { intros u Hu. destruct (st_store st1 u) as [r|] eqn:Hs; [|reflexivity]. exfalso.
        destruct (I_reach' _ _ _ _ _ _ _ _ HI1 u) as (t & Ht & Hd); [unfold stored; congruence|]. exact (Hfresh t u Ht Hu Hd). }
      replace f with (k1 + S (f - k1 - 1)) in H by lia. rewrite F1' in H.
      assert (E1 : step (put_below ((U, false) :: entries pre) st1) =
                   Ok (Some (put_below ((U, true) :: entries pre) (put_below (entries us) st1)))).
      { unfold Eval_Model.step, put_below. cbn [st_stack st_store st_env st_log]. rewrite S1. cbn [app].
        rewrite HU, Hin, (push_all (st_store st1) us _ Hus Hnone). reflexivity. }
      cbn [Eval_Model.loop] in H. rewrite E1 in H.
      destruct (split_loop _ _ _ _ H) as (k2 & st2 & Hk2 & F2).
      rewrite <- (same_loop k1 k2 st1 st2 f F1 F2); [exact H0|lia].
    - pose proof H as H0. rewrite init_long in H.
      destruct (split_loop _ _ _ _ H) as (k1 & st1 & Hk1 & F1). pose proof F1 as (S1 & F1').
      replace f with (k1 + (f - k1)) in H by lia. rewrite F1' in H.
      rewrite <- put_put in H. destruct (split_loop _ _ _ _ H) as (k2 & st2 & Hk2 & F2).
      rewrite (same_loop k1 k2 st1 st2 f F1 F2); [exact H0|lia].
  Qed.
End Split.
