(** Lemmas about the evaluator. *)
From Coq Require Import String List Arith ZArith Bool Relations Lia.
Import ListNotations.
From Verif Require Import Graph_Model Eval_Model Eval_Spec.

Ltac inv H := inversion H; subst; clear H.

Section EvalProofs.
  Context {O V E : Type}.
  Variable shape_of : V -> list nat.
  Variable compute : O -> list (opin V) -> cout V E.
  Variable debug : bool.
  Variable g : graph O.
  Variable feeds : list (ph_key * V).

  Notation op_node := (op_node g).
  Notation computed := (computed g).
  Notation reads_from := (reads_from g).
  Notation fed := (fed shape_of feeds).
  Notation read := (read (E := E) shape_of g feeds).
  Notation failed := (failed (V := V) (E := E) g).
  Notation updated := (updated (V := V) g).
  Notation execution := (execution shape_of compute debug g feeds).
  Notation state := (@state V E).
  Notation event := (@event V).
  Notation fetch := (fetch (E := E) shape_of g feeds).
  Notation collect := (collect (E := E) shape_of g feeds).
  Notation step := (step shape_of compute debug g feeds).
  Notation loop := (loop shape_of compute debug g feeds).
  Notation visit := (visit shape_of compute debug g feeds).
  Notation push_children := (push_children (V := V) (E := E) g).

  (** ** Placeholders *)
  Lemma zip_fits (k : list Z) (s : list nat) :
    known_shape_zip k s = true <->
    (forall p d u, nth_error k p = Some d -> nth_error s p = Some u ->
                   (0 < d)%Z -> d = Z.of_nat u).
  Proof.
    revert s; induction k as [|i k IH]; intros s; simpl.
    - split; [intros _ p d u H; destruct p; discriminate | reflexivity].
    - destruct s as [|u s].
      + split; [intros _ p d u _ H; destruct p; discriminate | reflexivity].
      + destruct (0 <? i)%Z eqn:Hi; simpl.
        * destruct (Z.to_nat i =? u)%nat eqn:Hu; simpl.
          -- rewrite IH. apply Nat.eqb_eq in Hu. apply Z.ltb_lt in Hi. split.
             ++ intros H [|p] d w Hd Hw Hpos; simpl in *.
                ** inv Hd. inv Hw. lia.
                ** eapply H; eauto.
             ++ intros H p d w Hd Hw Hpos. exact (H (S p) d w Hd Hw Hpos).
          -- apply Nat.eqb_neq in Hu. apply Z.ltb_lt in Hi. split; [discriminate|].
             intros H. specialize (H 0 i u eq_refl eq_refl Hi). lia.
        * rewrite IH. apply Z.ltb_ge in Hi. split.
          -- intros H [|p] d w Hd Hw Hpos; simpl in *; [inv Hd; lia | eapply H; eauto].
          -- intros H p d w Hd Hw Hpos. exact (H (S p) d w Hd Hw Hpos).
  Qed.

  Lemma validate_fits (k : list Z) (s : list nat) :
    known_shape_validate k s = true <-> shape_fits k s.
  Proof.
    unfold known_shape_validate, shape_fits.
    destruct (length k =? length s)%nat eqn:Hl; simpl.
    - apply Nat.eqb_eq in Hl. rewrite zip_fits. intuition.
    - apply Nat.eqb_neq in Hl. split; [discriminate | intuition].
  Qed.

  Definition matchesb (id : nat) (name : string) (k : ph_key) : bool :=
    match k with KId j => (id =? j)%nat | KName s => String.eqb name s end.
  Lemma matchesb_spec id name k : matchesb id name k = true <-> feed_matches id name k.
  Proof. destruct k; simpl; [apply Nat.eqb_eq | apply String.eqb_eq]. Qed.

  Lemma find_placeholder_unfold k v fs id (n : node O) name :
    find_placeholder shape_of ((k, v) :: fs) id n name =
    (if matchesb id name k
     then if validate_using_known_shape shape_of n v then Some v else None
     else find_placeholder shape_of fs id n name).
  Proof. destruct k; reflexivity. Qed.

  Lemma find_placeholder_spec (n : node O) name id v : n_ph n = Some name ->
    (find_placeholder shape_of feeds id n name = Some v <-> fed id n v).
  Proof.
    intros Hn. unfold Eval_Spec.fed.
    induction feeds as [|[k w] fs IH].
    - simpl. split; [discriminate|].
      intros (? & pre & ? & ? & ? & _ & H & _). destruct pre; discriminate.
    - rewrite find_placeholder_unfold. destruct (matchesb id name k) eqn:Hm.
      + apply matchesb_spec in Hm. unfold validate_using_known_shape. split.
        * destruct (n_known n) as [d|] eqn:Hk; [|discriminate].
          destruct (known_shape_validate d (shape_of w)) eqn:Hv; [|discriminate].
          intros H; inv H. exists name, [], k, fs, d.
          repeat split; auto; try apply (proj1 (validate_fits _ _) Hv).
        * intros (nm & pre & k' & post & d & Hnm & Hf & Hmk & Hpre & Hk & Hfit).
          rewrite Hn in Hnm; inv Hnm.
          destruct pre as [|[k0 v0] pre]; simpl in Hf; inv Hf.
          -- rewrite Hk. apply validate_fits in Hfit. rewrite Hfit. reflexivity.
          -- exfalso. eapply Hpre; [left; reflexivity | exact Hm].
      + rewrite IH. split.
        * intros (nm & pre & k' & post & d & Hnm & Hf & Hmk & Hpre & Hk & Hfit).
          exists nm, ((k, w) :: pre), k', post, d. subst fs. repeat split; auto; try apply Hfit.
          intros k1 v1 [H1|H1]; [|eauto]. inv H1.
          rewrite Hn in Hnm; inv Hnm.
          intros Hc. apply matchesb_spec in Hc. congruence.
        * intros (nm & pre & k' & post & d & Hnm & Hf & Hmk & Hpre & Hk & Hfit).
          destruct pre as [|[k0 v0] pre]; simpl in Hf; inv Hf.
          -- rewrite Hn in Hnm; inv Hnm. apply matchesb_spec in Hmk. congruence.
          -- exists nm, pre, k', post, d. repeat split; auto; try apply Hfit.
             intros k1 v1 H1. eapply Hpre. right; exact H1.
  Qed.

  Lemma fed_ph id (n : node O) v : fed id n v -> exists name, n_ph n = Some name.
  Proof. intros (name & ? & ? & ? & ? & H & _). eauto. Qed.

  (** ** Fetching inputs *)
  Lemma fetch_val s env inc x : fetch s env inc = FVal x <-> read s env inc x.
  Proof.
    unfold Eval_Model.fetch. split.
    - destruct (nth_error g (in_id inc)) as [n|] eqn:Hn; [|discriminate].
      destruct (n_ph n) as [name|] eqn:Hp.
      + destruct (find_placeholder shape_of feeds (in_id inc) n name) as [v|] eqn:Hf;
          [|discriminate].
        intros H; inv H. econstructor 1; eauto. apply (find_placeholder_spec n name); auto.
      + destruct (n_var n) as [vid|] eqn:Hv.
        * destruct (nth_error env vid) as [v|] eqn:He; [|discriminate].
          intros H; inv H. econstructor 2; eauto.
        * destruct (s (in_id inc)) as [[ys|e]|] eqn:Hs; try discriminate.
          destruct (nth_error ys (in_sel inc)) as [v|] eqn:Hy; [|discriminate].
          intros H; inv H. econstructor 3; eauto. split; eauto.
    - intros H. inversion H as [n v Hn Hf|n vid v Hn Hp Hv He|n ys v Hn Hs Hy]; subst.
      + rewrite Hn. destruct (fed_ph _ _ _ Hf) as [name Hp]. rewrite Hp.
        apply (find_placeholder_spec n name) in Hf; auto. rewrite Hf. reflexivity.
      + rewrite Hn, Hp, Hv, He. reflexivity.
      + destruct Hn as (Hn & Hp & Hv). rewrite Hn, Hp, Hv, Hs, Hy. reflexivity.
  Qed.

  Lemma fetch_err s env inc e : fetch s env inc = FErr e <-> failed s inc e.
  Proof.
    unfold Eval_Model.fetch, Eval_Spec.failed, Eval_Spec.op_node. split.
    - destruct (nth_error g (in_id inc)) as [n|] eqn:Hn; [|discriminate].
      destruct (n_ph n) as [name|] eqn:Hp.
      + destruct (find_placeholder shape_of feeds (in_id inc) n name); discriminate.
      + destruct (n_var n) as [vid|] eqn:Hv.
        * destruct (nth_error env vid); discriminate.
        * destruct (s (in_id inc)) as [[ys|e']|] eqn:Hs; try discriminate.
          -- destruct (nth_error ys (in_sel inc)); discriminate.
          -- intros H; inv H. exists n. auto.
    - intros (n & (Hn & Hp & Hv) & Hs). rewrite Hn, Hp, Hv, Hs. reflexivity.
  Qed.

  Lemma collect_ok s env ins xs :
    collect s env ins = XOk xs <-> Forall2 (read s env) ins xs.
  Proof.
    revert xs; induction ins as [|i ins IH]; intros xs; simpl.
    - split; intros H; inv H; auto.
    - split.
      + destruct (fetch s env i) as [|e|x] eqn:Hf; try discriminate.
        destruct (collect s env ins) as [|e|l] eqn:Hc; try discriminate.
        intros H; inv H. constructor; [apply fetch_val; auto | apply IH; auto].
      + intros H. inversion H as [|i' x ins' l Hx Hl]; subst.
        apply fetch_val in Hx. rewrite Hx. apply IH in Hl. rewrite Hl. reflexivity.
  Qed.

  Lemma collect_err s env ins e :
    collect s env ins = XErr e <->
    exists pre inc post, ins = pre ++ inc :: post /\
      (forall a, In a pre -> exists x, read s env a x) /\ failed s inc e.
  Proof.
    induction ins as [|i ins IH]; simpl.
    - split; [discriminate | intros (pre & ? & ? & H & _); destruct pre; discriminate].
    - split.
      + destruct (fetch s env i) as [|e'|x] eqn:Hf; try discriminate.
        * intros H; inv H. exists [], i, ins. split; [reflexivity|]. split.
          -- intros a [].
          -- apply (fetch_err s env); auto.
        * destruct (collect s env ins) as [|e'|l] eqn:Hc; try discriminate.
          intros H; inv H. destruct (proj1 IH eq_refl) as (pre & inc & post & -> & Hp & He).
          exists (i :: pre), inc, post. split; [reflexivity|]. split; [|assumption].
          intros a [<-|Ha]; [exists x; apply fetch_val; auto | auto].
      + intros (pre & inc & post & Hi & Hp & He).
        destruct pre as [|p pre]; simpl in Hi; inv Hi.
        * apply (fetch_err s env) in He. rewrite He. reflexivity.
        * destruct (Hp p (or_introl eq_refl)) as [x Hx]. apply fetch_val in Hx. rewrite Hx.
          rewrite (proj2 IH); [reflexivity|].
          exists pre, inc, post. split; [reflexivity|]. split; auto.
          intros a Ha. apply Hp. right; exact Ha.
  Qed.

  (** ** In-place writes *)
  Lemma set_nth_length (l : list V) i v : length (set_nth l i v) = length l.
  Proof. revert i; induction l as [|x l IH]; intros [|i]; simpl; auto. Qed.
  Lemma set_nth_nth (l : list V) i v k :
    nth_error (set_nth l i v) k =
    if (k =? i)%nat then option_map (fun _ => v) (nth_error l k) else nth_error l k.
  Proof.
    revert i k; induction l as [|x l IH]; intros i k; simpl.
    - destruct k as [|k]; destruct i as [|i]; simpl; try reflexivity.
      destruct (k =? i)%nat; reflexivity.
    - destruct i as [|i]; destruct k as [|k]; simpl; auto.
  Qed.

  Lemma write_target_spec n p vid :
    write_target g (n_inputs n) p = Some vid <-> inplace_operand g n p vid.
  Proof.
    unfold write_target, inplace_operand. split.
    - destruct (nth_error (n_inputs n) p) as [inc|]; [|discriminate].
      destruct (in_mut inc) eqn:Hm; [|discriminate].
      destruct (nth_error g (in_id inc)) as [m|] eqn:Hg; [|discriminate].
      destruct (n_ph m) eqn:Hp; [discriminate|]. intros Hv.
      exists inc, m. auto.
    - intros (inc & m & -> & -> & -> & -> & H). exact H.
  Qed.

  Lemma apply_writes_updated n ws env : updated n ws env (apply_writes g (n_inputs n) ws env).
  Proof.
    unfold apply_writes. revert env; induction ws as [|[p v] ws IH]; intros env; simpl.
    - constructor.
    - destruct (write_target g (n_inputs n) p) as [vid|] eqn:Hw.
      + econstructor 2; [apply write_target_spec; eauto| | |apply IH].
        * apply set_nth_length.
        * intros k. apply set_nth_nth.
      + constructor 3; [|apply IH]. intros vid H. apply write_target_spec in H. congruence.
  Qed.

  Lemma list_nth_ext {A} (l1 l2 : list A) :
    (forall k, nth_error l1 k = nth_error l2 k) -> l1 = l2.
  Proof.
    revert l2; induction l1 as [|a l1 IH]; intros [|b l2] H; auto.
    - specialize (H 0); discriminate.
    - specialize (H 0); discriminate.
    - f_equal; [specialize (H 0); simpl in H; congruence |].
      apply IH. intros k. exact (H (S k)).
  Qed.

  Lemma inplace_operand_fun n p v1 v2 :
    inplace_operand g n p v1 -> inplace_operand g n p v2 -> v1 = v2.
  Proof. intros H1 H2. apply write_target_spec in H1, H2. congruence. Qed.

  Lemma updated_fun n ws env e1 e2 : updated n ws env e1 -> updated n ws env e2 -> e1 = e2.
  Proof.
    intros H; revert e2; induction H as [env|p v ws vid env ea eb Hp Hl Hk H IH|p v ws env eb Hp H IH];
      intros e2 H2; inv H2; auto.
    - apply IH. match goal with H : updated n ws ?x e2 |- updated n ws ?y e2 =>
        replace y with x; [exact H|] end.
      apply list_nth_ext. intros k. rewrite Hk.
      match goal with H : forall k, nth_error env1 k = _ |- _ => rewrite H end.
      match goal with H : inplace_operand g n p ?w |- _ =>
        lazymatch w with vid => fail | _ => rewrite (inplace_operand_fun n p _ _ Hp H) end end.
      reflexivity.
    - exfalso. eapply H6; eauto.
    - exfalso. eapply Hp; eauto.
  Qed.

  Lemma updated_no_operand n ws env env' :
    (forall p vid, ~ inplace_operand g n p vid) -> updated n ws env env' -> env' = env.
  Proof. intros Hn H; induction H; auto. exfalso; eapply Hn; eauto. Qed.

  Lemma updated_length n ws env env' : updated n ws env env' -> length env' = length env.
  Proof. intros H; induction H; auto. congruence. Qed.

  Lemma updated_other n ws env env' vid :
    (forall p, ~ inplace_operand g n p vid) -> updated n ws env env' ->
    nth_error env' vid = nth_error env vid.
  Proof.
    intros Hn H; induction H as [env|p v ws w env ea eb Hp Hl Hk H IH|p v ws env eb Hp H IH]; auto.
    rewrite IH, Hk. destruct (vid =? w)%nat eqn:Hw; auto.
    apply Nat.eqb_eq in Hw; subst. exfalso; eapply Hn; eauto.
  Qed.

  (** ** Executions *)
  Lemma execution_stored env0 log s env :
    execution env0 log s env ->
    forall i, s i <> None <-> In i (map event_id log).
  Proof.
    intros H; induction H as [|log s env i n xs ws ys status env' H IH Hi Hn Hx Hc Hd Hu
                              |log s env i n pre inc post e H IH Hi Hn Hp Hr Hf]; intros k.
    - simpl. tauto.
    - rewrite map_app, in_app_iff, <- IH. simpl. unfold set_result.
      destruct (k =? i)%nat eqn:Hk.
      + apply Nat.eqb_eq in Hk. subst. split; auto. discriminate.
      + apply Nat.eqb_neq in Hk. split; [auto | intros [?|[?|[]]]; auto; congruence].
    - rewrite map_app, in_app_iff, <- IH. simpl. unfold set_result.
      destruct (k =? i)%nat eqn:Hk.
      + apply Nat.eqb_eq in Hk. subst. split; auto. discriminate.
      + apply Nat.eqb_neq in Hk. split; [auto | intros [?|[?|[]]]; auto; congruence].
  Qed.

  Lemma NoDup_snoc {A} (l : list A) x : NoDup l -> ~ In x l -> NoDup (l ++ [x]).
  Proof.
    intros Hl Hx. induction l as [|a l IH]; simpl.
    - constructor; [intros [] | constructor].
    - inv Hl. constructor.
      + rewrite in_app_iff. simpl. intros [?|[?|[]]]; auto. subst. apply Hx; left; auto.
      + apply IH; auto. intros Hin; apply Hx; right; auto.
  Qed.

  Lemma execution_nodup env0 log s env :
    execution env0 log s env -> NoDup (map event_id log).
  Proof.
    intros H; induction H as [|log s env i n xs ws ys status env' H IH Hi Hn Hx Hc Hd Hu
                              |log s env i n pre inc post e H IH Hi Hn Hp Hr Hf].
    - constructor.
    - rewrite map_app. apply NoDup_snoc; auto. simpl.
      intros Hin. apply (execution_stored _ _ _ _ H) in Hin. congruence.
    - rewrite map_app. apply NoDup_snoc; auto. simpl.
      intros Hin. apply (execution_stored _ _ _ _ H) in Hin. congruence.
  Qed.

  Lemma execution_computed env0 log s env :
    execution env0 log s env -> forall i, s i <> None -> computed i.
  Proof.
    intros H; induction H as [|log s env i n xs ws ys status env' H IH Hi Hn Hx Hc Hd Hu
                              |log s env i n pre inc post e H IH Hi Hn Hp Hr Hf]; intros k; unfold set_result.
    - congruence.
    - destruct (k =? i)%nat eqn:Hk; auto. apply Nat.eqb_eq in Hk; subst. exists n; auto.
    - destruct (k =? i)%nat eqn:Hk; auto. apply Nat.eqb_eq in Hk; subst. exists n; auto.
  Qed.

  Lemma execution_env_length env0 log s env :
    execution env0 log s env -> length env = length env0.
  Proof.
    intros H; induction H; auto. rewrite <- IHexecution. eapply updated_length; eauto.
  Qed.

  (** ** The loop invariant *)
  Section Inv.
    Variable targets : list nat.
    Variable env0 : list V.
    Hypothesis Hwf : wf_graph g.

    Definition stored (st : state) (i : nat) : Prop := st_store st i <> None.

    Record Inv (st : state) : Prop := {
      I_exec : execution env0 (rev (st_log st)) (st_store st) (st_env st);
      I_range : forall i b, In (i, b) (st_stack st) -> i < length g;
      I_pending : forall above i below j, st_stack st = above ++ (i, true) :: below ->
        reads_from i j -> computed j -> stored st j \/ exists b, In (j, b) above;
      I_order : forall l1 ev l2, rev (st_log st) = l1 ++ ev :: l2 ->
        forall j, reads_from (event_id ev) j -> computed j -> In j (map event_id l1);
      I_reach : forall i b, In (i, b) (st_stack st) -> exists t, In t targets /\ depends g t i;
      I_reach' : forall i, stored st i -> exists t, In t targets /\ depends g t i;
      I_targets : forall t, In t targets -> computed t ->
        stored st t \/ exists b, In (t, b) (st_stack st);
      I_above : forall above i below j b, st_stack st = above ++ (i, true) :: below ->
        In (j, b) above -> clos_trans nat reads_from i j
    }.

    Lemma stored_log st i : Inv st -> (stored st i <-> In i (map event_id (rev (st_log st)))).
    Proof. intros H. apply (execution_stored _ _ _ _ (I_exec _ H)). Qed.

    Lemma stored_closed st i j : Inv st -> stored st i -> reads_from i j -> computed j -> stored st j.
    Proof.
      intros H Hi Hr Hc. apply (stored_log st i H) in Hi. apply in_map_iff in Hi.
      destruct Hi as (ev & <- & Hin). apply in_split in Hin. destruct Hin as (l1 & l2 & Hl).
      apply (stored_log st j H). rewrite Hl, map_app, in_app_iff. left.
      eapply I_order; eauto.
    Qed.

    Lemma wnv_spec n i (s : storage (V:=V) (E:=E)) : nth_error g i = Some n ->
      (would_not_visit n i s = false <-> computed i /\ s i = None).
    Proof.
      intros Hn. unfold would_not_visit, is_placeholder, is_variable.
      unfold Eval_Spec.computed, Eval_Spec.op_node. split.
      - destruct (n_ph n) eqn:Hp; [discriminate|]. destruct (n_var n) eqn:Hv; [discriminate|].
        destruct (s i) eqn:Hs; [discriminate|]. intros _. split; auto. exists n; auto.
      - intros [(m & Hm & Hp & Hv) Hs]. rewrite Hn in Hm; inv Hm. rewrite Hp, Hv, Hs. reflexivity.
    Qed.

    Lemma in_init ts i b : In (i, b) (rev (map (fun t : nat => (t, false)) ts)) -> In i ts /\ b = false.
    Proof.
      rewrite <- in_rev, in_map_iff. intros (t & Ht & Hin). inv Ht. auto.
    Qed.

    Lemma inv_init : (forall t, In t targets -> t < length g) -> Inv (init_state targets env0).
    Proof.
      intros Ht. unfold init_state. constructor; simpl.
      - constructor.
      - intros i b H. apply in_init in H. destruct H; auto.
      - intros above i below j H. exfalso.
        assert (Hin : In (i, true) (rev (map (fun t => (t, false)) targets))).
        { rewrite H. apply in_elt. }
        apply in_init in Hin. destruct Hin; discriminate.
      - intros l1 ev l2 H. destruct l1; discriminate.
      - intros i b H. apply in_init in H. destruct H as [H _]. exists i. split; auto. apply rt_refl.
      - intros i H. unfold stored in H; simpl in H. congruence.
      - intros t H _. right. exists false. rewrite <- in_rev. apply in_map_iff. eauto.
      - intros above i below j b H. exfalso.
        assert (Hin : In (i, true) (rev (map (fun t => (t, false)) targets))).
        { rewrite H. apply in_elt. }
        apply in_init in Hin. destruct Hin; discriminate.
    Qed.

    (** What pushing children does to the stack. *)
    Lemma push_children_spec s ins stack stack' :
      push_children s ins stack = Ok stack' ->
      exists new, stack' = new ++ stack /\
        (forall j b, In (j, b) new -> b = false /\ computed j /\ s j = None /\
           exists inc, In inc ins /\ in_id inc = j) /\
        (forall inc, In inc ins -> computed (in_id inc) -> s (in_id inc) = None ->
           In (in_id inc, false) new) /\
        length new <= length ins.
    Proof.
      revert stack; induction ins as [|i ins IH]; intros stack; simpl.
      - intros H; inv H. exists []. repeat split; try (intros; contradiction); auto.
      - destruct (nth_error g (in_id i)) as [c|] eqn:Hc; [|discriminate].
        intros H. apply IH in H. destruct H as (new & -> & H1 & H2 & H3).
        destruct (would_not_visit c (in_id i) s) eqn:Hw.
        + exists new. split; auto. split; [|split; [|lia]].
          * intros j b Hj. apply H1 in Hj. destruct Hj as (? & ? & ? & inc & ? & ?).
            repeat split; auto. exists inc; auto.
          * intros inc [<-|Hin] Hcomp Hs; [|apply H2; auto].
            assert (would_not_visit c (in_id i) s = false) by (apply wnv_spec; auto). congruence.
        + exists (new ++ [(in_id i, false)]). apply wnv_spec in Hw; auto. destruct Hw as [Hw1 Hw2].
          split; [rewrite <- app_assoc; reflexivity|]. split; [|split].
          * intros j b Hj. apply in_app_iff in Hj. destruct Hj as [Hj|[Hj|[]]].
            -- apply H1 in Hj. destruct Hj as (? & ? & ? & inc & ? & ?).
               repeat split; auto. exists inc; auto.
            -- inv Hj. repeat split; auto. exists i; auto.
          * intros inc [<-|Hin] Hcomp Hs; apply in_app_iff; [right; left; auto | left; apply H2; auto].
          * rewrite app_length. simpl. lia.
    Qed.

    Lemma push_children_total s ins stack :
      (forall inc, In inc ins -> in_id inc < length g) ->
      exists stack', push_children s ins stack = Ok stack'.
    Proof.
      revert stack; induction ins as [|i ins IH]; intros stack Hr; simpl; eauto.
      destruct (nth_error g (in_id i)) as [c|] eqn:Hc.
      - apply IH. intros inc Hin. apply Hr. right; auto.
      - apply nth_error_None in Hc. specialize (Hr i (or_introl eq_refl)). lia.
    Qed.

    (** Splitting a stack around a marked entry. *)
    Lemma app_marked (new : list (nat * bool)) (i : nat) (rest above below : list (nat * bool)) (k : nat) :
      (forall j b, In (j, b) new -> b = false) ->
      new ++ (i, true) :: rest = above ++ (k, true) :: below ->
      (above = new /\ k = i /\ below = rest) \/
      (exists above', above = new ++ (i, true) :: above' /\ rest = above' ++ (k, true) :: below).
    Proof.
      revert above; induction new as [|[j b] new IH]; intros above Hnew H; simpl in H.
      - destruct above as [|a above]; simpl in H; inv H; [left; auto | right; exists above; auto].
      - destruct above as [|a above]; simpl in H; inv H.
        + specialize (Hnew _ true (or_introl eq_refl)). discriminate.
        + destruct (IH above) as [(-> & -> & ->)|(above' & -> & ->)]; auto.
          * intros j' b' Hin. apply (Hnew j' b'). right; auto.
          * right. exists above'. auto.
    Qed.

    Lemma inv_push st i rest n stack' :
      Inv st -> st_stack st = (i, false) :: rest -> nth_error g i = Some n ->
      push_children (st_store st) (n_inputs n) ((i, true) :: rest) = Ok stack' ->
      Inv (State stack' (st_store st) (st_env st) (st_log st)).
    Proof.
      intros HI Hst Hn Hp.
      destruct (push_children_spec _ _ _ _ Hp) as (new & -> & H1 & H2 & _).
      assert (Hnew : forall j b, In (j, b) new -> b = false) by (intros j b Hj; apply (H1 j b Hj)).
      assert (Hedge : forall j b, In (j, b) new -> reads_from i j).
      { intros j b Hj. destruct (H1 j b Hj) as (_ & _ & _ & inc & Hin & Hid).
        exists n, inc. auto. }
      destruct HI as [IE IR IP IO IRe IRe' IT IA].
      constructor; simpl; auto.
      - intros j b Hj. apply in_app_iff in Hj. destruct Hj as [Hj|[Hj|Hj]].
        + apply Hedge in Hj. apply (proj1 Hwf) in Hj. exact Hj.
        + inv Hj. eapply IR. rewrite Hst. left; eauto.
        + eapply IR. rewrite Hst. right; eauto.
      - intros above k below j Heq Hr Hc.
        destruct (app_marked _ _ _ _ _ _ Hnew Heq) as [(-> & -> & ->)|(above' & -> & ->)].
        + destruct Hr as (m & inc & Hm & Hin & Hid). rewrite Hn in Hm; inv Hm.
          unfold stored; simpl. destruct (st_store st (in_id inc)) eqn:Hs; [left; discriminate|].
          right. exists false. apply H2; auto.
        + specialize (IP ((i, false) :: above') k below j). rewrite Hst in IP.
          destruct (IP eq_refl Hr Hc) as [Hs|(b & Hb)]; [left; exact Hs|].
          right. destruct Hb as [Hb|Hb].
          * inv Hb. exists true. rewrite in_app_iff. right. left. auto.
          * exists b. rewrite in_app_iff. right. right. auto.
      - intros j b Hj. apply in_app_iff in Hj.
        assert (Hi : exists t, In t targets /\ depends g t i).
        { eapply IRe. rewrite Hst. left; eauto. }
        destruct Hj as [Hj|[Hj|Hj]].
        + destruct Hi as (t & Ht & Hd). exists t. split; auto.
          eapply rt_trans; [exact Hd|]. apply rt_step. eapply Hedge; eauto.
        + inv Hj. auto.
        + eapply IRe. rewrite Hst. right; eauto.
      - intros t Ht Hc. destruct (IT t Ht Hc) as [Hs|(b & Hb)]; [left; exact Hs|].
        right. rewrite Hst in Hb. destruct Hb as [Hb|Hb].
        + inv Hb. exists true. rewrite in_app_iff. right; left; auto.
        + exists b. rewrite in_app_iff. right; right; auto.
      - intros above k below j b Heq Hj.
        destruct (app_marked _ _ _ _ _ _ Hnew Heq) as [(-> & -> & ->)|(above' & -> & ->)].
        + apply t_step. eapply Hedge; eauto.
        + assert (Hki : clos_trans nat reads_from k i).
          { apply (IA ((i, false) :: above') k below i false); [rewrite Hst; auto | left; auto]. }
          apply in_app_iff in Hj. destruct Hj as [Hj|[Hj|Hj]].
          * eapply t_trans; [exact Hki|]. apply t_step. eapply Hedge; eauto.
          * inv Hj. exact Hki.
          * apply (IA ((i, false) :: above') k below j b); [rewrite Hst; auto | right; auto].
    Qed.

    (** Popping a visited entry that is already done. *)
    Lemma inv_drop st i rest n :
      Inv st -> st_stack st = (i, true) :: rest -> nth_error g i = Some n ->
      would_not_visit n i (st_store st) = true ->
      Inv (State rest (st_store st) (st_env st) (st_log st)).
    Proof.
      intros HI Hst Hn Hw.
      assert (Hdone : computed i -> stored st i).
      { intros Hc Hs. assert (would_not_visit n i (st_store st) = false) by (apply wnv_spec; auto).
        congruence. }
      destruct HI as [IE IR IP IO IRe IRe' IT IA].
      constructor; simpl; auto.
      - intros j b Hj. eapply IR. rewrite Hst. right; eauto.
      - intros above k below j -> Hr Hc.
        specialize (IP ((i, true) :: above) k below j). rewrite Hst in IP.
        destruct (IP eq_refl Hr Hc) as [Hs|(b & [Hb|Hb])]; [left; exact Hs | | right; eauto].
        inv Hb. left. apply Hdone; auto.
      - intros j b Hj. eapply IRe. rewrite Hst. right; eauto.
      - intros t Ht Hc. destruct (IT t Ht Hc) as [Hs|(b & Hb)]; [left; exact Hs|].
        rewrite Hst in Hb. destruct Hb as [Hb|Hb]; [|right; eauto].
        inv Hb. left. apply Hdone; auto.
      - intros above k below j b -> Hj.
        apply (IA ((i, true) :: above) k below j b); [rewrite Hst; auto | right; auto].
    Qed.

    (** Inputs of the entry on top of the stack are done. *)
    Lemma top_ready st i rest j :
      Inv st -> st_stack st = (i, true) :: rest -> reads_from i j -> computed j -> stored st j.
    Proof.
      intros HI Hst Hr Hc. destruct (I_pending _ HI [] i rest j) as [H|(b & [])]; auto.
    Qed.

    Lemma inv_store st i rest n (r : list V + E) env' ev :
      Inv st -> st_stack st = (i, true) :: rest -> op_node i n -> event_id ev = i ->
      execution env0 (rev (st_log st) ++ [ev]) (st_insert (st_store st) i r) env' ->
      Inv (State rest (st_insert (st_store st) i r) env' (ev :: st_log st)).
    Proof.
      intros HI Hst Hn Hev Hex.
      pose proof (top_ready st i rest) as Hready.
      pose proof (fun j => stored_log st j HI) as Hlog.
      pose proof HI as HI'.
      destruct HI as [IE IR IP IO IRe IRe' IT IA].
      assert (Hmono : forall j, stored st j ->
                stored (State rest (st_insert (st_store st) i r) env' (ev :: st_log st)) j).
      { intros j Hj. unfold stored, st_insert in *; simpl. destruct (j =? i)%nat; [discriminate|auto]. }
      assert (Hself : stored (State rest (st_insert (st_store st) i r) env' (ev :: st_log st)) i).
      { unfold stored, st_insert; simpl. rewrite Nat.eqb_refl. discriminate. }
      constructor; simpl; auto.
      - intros j b Hj. eapply IR. rewrite Hst. right; eauto.
      - intros above k below j -> Hr Hc.
        specialize (IP ((i, true) :: above) k below j). rewrite Hst in IP.
        destruct (IP eq_refl Hr Hc) as [Hs|(b & [Hb|Hb])]; [left; auto | | right; eauto].
        inv Hb. left. apply Hself.
      - intros l1 e l2 Heq j Hr Hc.
        destruct l2 as [|x l2] using rev_ind.
        + apply app_inj_tail in Heq. destruct Heq as [<- <-].
          apply Hlog. rewrite Hev in Hr. apply Hready; auto.
        + clear IHl2. rewrite app_comm_cons, app_assoc in Heq.
          apply app_inj_tail in Heq. destruct Heq as [Heq _]. eapply IO; eauto.
      - intros j b Hj. eapply IRe. rewrite Hst. right; eauto.
      - intros j Hj. unfold stored, st_insert in Hj; simpl in Hj.
        destruct (j =? i)%nat eqn:Hji.
        + apply Nat.eqb_eq in Hji; subst j. eapply IRe. rewrite Hst. left; eauto.
        + apply IRe'. exact Hj.
      - intros t Ht Hc. destruct (IT t Ht Hc) as [Hs|(b & Hb)]; [left; auto|].
        rewrite Hst in Hb. destruct Hb as [Hb|Hb]; [|right; eauto].
        inv Hb. left. apply Hself.
      - intros above k below j b -> Hj.
        apply (IA ((i, true) :: above) k below j b); [rewrite Hst; auto | right; auto].
    Qed.

    Lemma inv_visit st i rest n st' :
      Inv st -> st_stack st = (i, true) :: rest -> op_node i n -> st_store st i = None ->
      visit st rest i n = Ok st' -> Inv st' /\ st_stack st' = rest /\
        (forall j, stored st' j <-> j = i \/ stored st j).
    Proof.
      intros HI Hst Hn Hs. unfold Eval_Model.visit.
      assert (Hcase : forall r env' ev, (forall j, stored (State rest (st_insert (st_store st) i r) env' ev) j
                        <-> j = i \/ stored st j)).
      { intros r env' ev j. unfold stored, st_insert; simpl. destruct (j =? i)%nat eqn:Hj.
        - apply Nat.eqb_eq in Hj. split; auto. discriminate.
        - apply Nat.eqb_neq in Hj. intuition congruence. }
      destruct (collect (st_store st) (st_env st) (n_inputs n)) as [|e|xs] eqn:Hc; [discriminate| |].
      - intros H; inv H. split; [|split; auto].
        apply inv_store with n; auto.
        apply collect_err in Hc. destruct Hc as (pre & inc & post & Hp & Hr & Hf).
        eapply ex_skip; eauto. apply (I_exec _ HI).
      - destruct (compute (n_op n) xs) as [|ws ys status] eqn:Hcomp; [discriminate|].
        destruct (debug && _) eqn:Hd; [discriminate|].
        intros H; inv H. split; [|split; auto].
        apply inv_store with n; auto.
        apply collect_ok in Hc.
        eapply ex_run; eauto.
        + apply (I_exec _ HI).
        + intros ->. destruct ys; [discriminate | congruence].
        + apply apply_writes_updated.
    Qed.

    Lemma inv_step st st' : Inv st -> step st = Ok (Some st') -> Inv st'.
    Proof.
      intros HI. unfold Eval_Model.step.
      destruct (st_stack st) as [|[i [|]] rest] eqn:Hst; [discriminate| |];
        (destruct (nth_error g i) as [n|] eqn:Hn; [|discriminate]).
      - destruct (would_not_visit n i (st_store st)) eqn:Hw.
        + intros H; inv H. eapply inv_drop; eauto.
        + destruct (visit st rest i n) as [s| |] eqn:Hv; try discriminate.
          intros H; inv H.
          apply wnv_spec in Hw; auto. destruct Hw as [(m & Hm) Hs].
          assert (n = m) by (destruct Hm; congruence). subst m.
          eapply inv_visit; eauto.
      - destruct (push_children _ _ _) as [stack'| |] eqn:Hp; try discriminate.
        intros H; inv H. eapply inv_push; eauto.
    Qed.

    Lemma inv_loop fuel st st' : Inv st -> loop fuel st = Ok st' -> Inv st' /\ st_stack st' = [].
    Proof.
      revert st; induction fuel as [|fuel IH]; intros st HI; simpl; [discriminate|].
      destruct (step st) as [[s|]| |] eqn:Hs; try discriminate.
      - intros H. apply (IH s); [eapply inv_step; eauto | exact H].
      - intros H; inv H. split; auto. unfold Eval_Model.step in Hs.
        destruct (st_stack st') as [|[i [|]] rest]; auto;
          (destruct (nth_error g i) as [n|]; [|discriminate]).
        + destruct (would_not_visit _ _ _); [discriminate|].
          destruct (visit _ _ _ _); discriminate.
        + destruct (push_children _ _ _); discriminate.
    Qed.

    Lemma reads_computed i j : reads_from i j -> computed i.
    Proof.
      intros (n & inc & Hn & Hin & _). exists n.
      destruct (is_variable n || is_placeholder n) eqn:Hb.
      - apply (proj2 Hwf i) in Hb; auto. rewrite Hb in Hin. destruct Hin.
      - apply orb_false_iff in Hb. unfold is_variable, is_placeholder in Hb.
        split; auto. destruct (n_ph n), (n_var n); intuition discriminate.
    Qed.

    (** At the end exactly the needed tensors are stored. *)
    Lemma inv_final st : Inv st -> st_stack st = [] ->
      forall i, stored st i <-> needed g targets i.
    Proof.
      intros HI Hst i. split.
      - intros Hs. split; [apply (execution_computed _ _ _ _ (I_exec _ HI)); exact Hs|].
        apply (I_reach' _ HI); auto.
      - intros (Hc & t & Ht & Hd). revert Hc.
        apply clos_rt_rtn1 in Hd. induction Hd as [|j k Hjk Hd IH].
        + intros Hc. destruct (I_targets _ HI t Ht Hc) as [Hs|(b & Hb)]; auto.
          rewrite Hst in Hb. destruct Hb.
        + intros Hc.
          assert (Hj : computed j).
          { eapply reads_computed; eauto. }
          eapply stored_closed; eauto.
    Qed.

    (** ** Termination *)
    (** Number of edges leaving computed tensors. *)
    Definition deg (i : nat) : nat :=
      match nth_error g i with Some n => length (n_inputs n) | None => 0 end.
    Definition weight (p : nat * bool) : nat := if snd p then 1 else 2.
    Definition stack_weight (l : list (nat * bool)) : nat := list_sum (map weight l).
    Definition is_stored (st : state) (i : nat) : bool :=
      match st_store st i with Some _ => true | None => false end.
    Definition pendingb (st : state) (i : nat) : bool :=
      existsb (fun p => (fst p =? i)%nat && snd p) (st_stack st).
    Definition fresh (st : state) (i : nat) : nat :=
      if is_stored st i || pendingb st i then 0 else 2 * deg i.
    Definition potential (st : state) : nat :=
      stack_weight (st_stack st) + list_sum (map (fresh st) (seq 0 (length g))).

    Lemma list_sum_le (f h : nat -> nat) l :
      (forall i, In i l -> f i <= h i) -> list_sum (map f l) <= list_sum (map h l).
    Proof.
      induction l as [|a l IH]; intros H; simpl; auto.
      pose proof (H a (or_introl eq_refl)). assert (list_sum (map f l) <= list_sum (map h l)).
      { apply IH. intros i Hi. apply H. right; auto. } lia.
    Qed.
    Lemma list_sum_split (f h : nat -> nat) l k d : NoDup l -> In k l ->
      (forall i, In i l -> i <> k -> f i <= h i) -> f k + d <= h k ->
      list_sum (map f l) + d <= list_sum (map h l).
    Proof.
      induction l as [|a l IH]; intros Hnd Hin Hle Hk; [destruct Hin|].
      inv Hnd. simpl. destruct Hin as [->|Hin].
      - assert (list_sum (map f l) <= list_sum (map h l)).
        { apply list_sum_le. intros i Hi. apply Hle; [right; auto | congruence]. }
        lia.
      - assert (list_sum (map f l) + d <= list_sum (map h l)).
        { apply IH; auto. intros i Hi Hik. apply Hle; auto. right; auto. }
        pose proof (Hle a (or_introl eq_refl)). assert (f a <= h a) by (apply H0; congruence). lia.
    Qed.
    Lemma stack_weight_app a b : stack_weight (a ++ b) = stack_weight a + stack_weight b.
    Proof. unfold stack_weight. rewrite map_app, list_sum_app. reflexivity. Qed.
    Lemma stack_weight_new l : (forall j b, In (j, b) l -> b = false) ->
      stack_weight l = 2 * length l.
    Proof.
      unfold stack_weight. induction l as [|[j b] l IH]; intros H; simpl; auto.
      rewrite (H j b (or_introl eq_refl)). simpl. rewrite IH; [lia|].
      intros j' b' Hin. apply (H j' b'). right; auto.
    Qed.

    Hypothesis Hac : acyclic g.

    Lemma pendingb_spec st i : pendingb st i = true <-> In (i, true) (st_stack st).
    Proof.
      unfold pendingb. rewrite existsb_exists. split.
      - intros ([j b] & Hin & H). simpl in H. apply andb_true_iff in H. destruct H as [H ->].
        apply Nat.eqb_eq in H. subst. auto.
      - intros H. exists (i, true). split; auto. simpl. rewrite Nat.eqb_refl. reflexivity.
    Qed.

    Lemma potential_step st st' : Inv st -> step st = Ok (Some st') -> potential st' < potential st.
    Proof.
      intros HI. unfold Eval_Model.step.
      destruct (st_stack st) as [|[i [|]] rest] eqn:Hst; [discriminate| |];
        (destruct (nth_error g i) as [n|] eqn:Hn; [|discriminate]).
      - (* visited entry *)
        assert (Hgen : forall st2, st_stack st2 = rest ->
                  (forall j, is_stored st j = true -> is_stored st2 j = true) ->
                  (computed i -> is_stored st2 i = true) ->
                  potential st2 < potential st).
        { intros st2 Hst2 Hmono Hi. unfold potential. rewrite Hst, Hst2.
          change (stack_weight ((i, true) :: rest)) with (1 + stack_weight rest).
          enough (list_sum (map (fresh st2) (seq 0 (length g)))
                  <= list_sum (map (fresh st) (seq 0 (length g)))) by lia.
          apply list_sum_le. intros j _. unfold fresh.
          destruct (is_stored st j) eqn:Hs; simpl.
          { rewrite (Hmono j Hs). simpl. lia. }
          destruct (pendingb st j) eqn:Hp; simpl.
          - apply pendingb_spec in Hp. rewrite Hst in Hp. destruct Hp as [Hp|Hp].
            + inv Hp. destruct (is_stored st2 j) eqn:Hs2; simpl; auto.
              destruct (deg j) as [|d] eqn:Hd.
              * destruct (pendingb st2 j); simpl; lia.
              * exfalso. unfold deg in Hd. rewrite Hn in Hd.
                destruct (n_inputs n) as [|inc ins] eqn:Hins; [discriminate|].
                assert (Hc : computed j).
                { apply reads_computed with (in_id inc). exists n, inc. rewrite Hins.
                  repeat split; auto. left; auto. }
                apply Hi in Hc. congruence.
            + assert (Hp2 : pendingb st2 j = true) by (apply pendingb_spec; rewrite Hst2; auto).
              rewrite Hp2, orb_true_r. lia.
          - destruct (is_stored st2 j || pendingb st2 j); lia. }
        destruct (would_not_visit n i (st_store st)) eqn:Hw.
        + intros H; inv H. apply Hgen; simpl; auto.
          intros Hc. unfold is_stored; simpl. destruct (st_store st i) eqn:Hs; auto.
          assert (would_not_visit n i (st_store st) = false) by (apply wnv_spec; auto). congruence.
        + destruct (visit st rest i n) as [s| |] eqn:Hv; try discriminate.
          intros H; inv H.
          apply wnv_spec in Hw; auto. destruct Hw as [(m & Hm) Hs].
          assert (n = m) by (destruct Hm; congruence). subst m.
          destruct (inv_visit _ _ _ _ _ HI Hst Hm Hs Hv) as (_ & Hst2 & Hsto).
          assert (Hb : forall j, is_stored st' j = true <-> stored st' j).
          { intros j. unfold is_stored, stored. destruct (st_store st' j); split; congruence. }
          apply Hgen; auto.
          * intros j Hj. apply Hb, Hsto. right. unfold stored. unfold is_stored in Hj.
            destruct (st_store st j); congruence.
          * intros _. apply Hb, Hsto. left; auto.
      - (* unvisited entry *)
        destruct (push_children _ _ _) as [stack'| |] eqn:Hp; try discriminate.
        intros H; inv H.
        destruct (push_children_spec _ _ _ _ Hp) as (new & -> & H1 & H2 & Hlen).
        assert (Hnew : forall j b, In (j, b) new -> b = false) by (intros j b Hj; apply (H1 j b Hj)).
        unfold potential. rewrite Hst. cbn [st_stack].
        rewrite stack_weight_app, stack_weight_new by exact Hnew.
        change (stack_weight ((i, true) :: rest)) with (1 + stack_weight rest).
        change (stack_weight ((i, false) :: rest)) with (2 + stack_weight rest).
        set (st2 := State _ _ _ _).
        assert (Hfresh : forall j, fresh st2 j <= fresh st j).
        { intros j. unfold fresh, is_stored, st2; cbn [st_store].
          destruct (st_store st j); cbn [orb]; auto.
          destruct (pendingb st j) eqn:Hpj; [|match goal with |- context [if ?c then _ else _] => destruct c end; lia].
          apply pendingb_spec in Hpj. rewrite Hst in Hpj. destruct Hpj as [Hpj|Hpj]; [discriminate|].
          match goal with |- context [pendingb ?a j] =>
            assert (Hq : pendingb a j = true) by (apply pendingb_spec; simpl; rewrite in_app_iff; right; right; auto)
          end. rewrite Hq. lia. }
        destruct (is_stored st i) eqn:Hsi.
        + (* already stored: no children are pushed *)
          assert (new = []) as ->.
          { destruct new as [|[j b] new]; auto. exfalso.
            destruct (H1 j b (or_introl eq_refl)) as (_ & Hc & Hs & inc & Hin & Hid).
            assert (Hsj : stored st j).
            { apply (stored_closed st i j HI); auto.
              - unfold stored. unfold is_stored in Hsi. destruct (st_store st i); congruence.
              - exists n, inc. auto. }
            apply Hsj. exact Hs. }
          simpl. pose proof (list_sum_le (fresh st2) (fresh st) (seq 0 (length g)) (fun j _ => Hfresh j)). lia.
        + assert (Hnp : pendingb st i = false).
          { destruct (pendingb st i) eqn:Hpi; auto. exfalso.
            apply pendingb_spec in Hpi. rewrite Hst in Hpi. destruct Hpi as [Hpi|Hpi]; [discriminate|].
            apply in_split in Hpi. destruct Hpi as (l1 & l2 & Hl).
            apply (Hac i). apply (I_above _ HI ((i, false) :: l1) i l2 i false).
            - rewrite Hst, Hl. reflexivity.
            - left; auto. }
          assert (Hi : i < length g) by (apply (I_range _ HI i false); rewrite Hst; left; auto).
          pose proof (list_sum_split (fresh st2) (fresh st) (seq 0 (length g)) i (2 * length (n_inputs n))) as Hsum.
          enough (list_sum (map (fresh st2) (seq 0 (length g))) + 2 * length (n_inputs n)
                  <= list_sum (map (fresh st) (seq 0 (length g)))) by lia.
          apply Hsum.
          * apply seq_NoDup.
          * apply in_seq. lia.
          * intros; apply Hfresh.
          * unfold fresh at 2. rewrite Hsi, Hnp. simpl orb. cbv iota.
            unfold deg. rewrite Hn.
            assert (Hq : pendingb st2 i = true).
            { apply pendingb_spec. unfold st2; simpl. rewrite in_app_iff. right; left; auto. }
            unfold fresh. rewrite Hq, orb_true_r. lia.
    Qed.

    Lemma loop_terminates fuel st : Inv st -> potential st < fuel -> loop fuel st <> OutOfFuel.
    Proof.
      revert st; induction fuel as [|fuel IH]; intros st HI Hp; [lia|]. simpl.
      destruct (step st) as [[s|]| |] eqn:Hs; try discriminate.
      - apply IH; [eapply inv_step; eauto|]. pose proof (potential_step _ _ HI Hs). lia.
      - exfalso. unfold Eval_Model.step in Hs.
        destruct (st_stack st) as [|[i [|]] rest]; try discriminate;
          (destruct (nth_error g i) as [n|]; [|discriminate]).
        + destruct (would_not_visit _ _ _); [discriminate|].
          unfold Eval_Model.visit in Hs. destruct (collect _ _ _); try discriminate.
          destruct (compute _ _); try discriminate. destruct (debug && _); discriminate.
        + destruct (push_children (st_store st) (n_inputs n) ((i, true) :: rest)) eqn:Hpc; try discriminate.
          revert Hpc. generalize ((i, true) :: rest) as stk.
          induction (n_inputs n) as [|a l IHl]; intros stk; simpl;
            [discriminate | destruct (nth_error g (in_id a)); [apply IHl | discriminate]].
    Qed.

    Lemma loop_panic_or_ok fuel st : Inv st -> potential st < fuel ->
      loop fuel st = Panic \/ exists st', loop fuel st = Ok st' /\ Inv st' /\ st_stack st' = [].
    Proof.
      intros HI Hp. pose proof (loop_terminates fuel st HI Hp) as Ht.
      destruct (loop fuel st) as [st'| |] eqn:Hl; [right|left; auto|congruence].
      exists st'. split; auto. eapply inv_loop; eauto.
    Qed.
  End Inv.

  (** Number of edges of the graph. *)
  Definition edge_count : nat := list_sum (map (fun n => length (n_inputs n)) g).

  Lemma deg_sum : list_sum (map deg (seq 0 (length g))) = edge_count.
  Proof.
    unfold edge_count. f_equal.
    assert (H : forall pre l, map (fun i => match nth_error (pre ++ l) i with
                 | Some n => length (n_inputs n) | None => 0 end) (seq (length pre) (length l))
               = map (fun n : node O => length (n_inputs n)) l).
    { intros pre l; revert pre; induction l as [|a l IH]; intros pre; simpl; auto.
      f_equal.
      - rewrite nth_error_app2, Nat.sub_diag by lia. reflexivity.
      - specialize (IH (pre ++ [a])). rewrite <- app_assoc in IH. simpl in IH.
        rewrite app_length in IH. simpl in IH. rewrite Nat.add_1_r in IH. exact IH. }
    exact (H [] g).
  Qed.

  Lemma potential_init targets env0 :
    potential (init_state targets env0) = 2 * (length targets + edge_count).
  Proof.
    unfold potential. rewrite <- deg_sum. simpl st_stack.
    rewrite stack_weight_new.
    - rewrite rev_length, map_length.
      assert (H : forall l, list_sum (map (fresh (init_state (E := E) targets env0)) l)
                            = 2 * list_sum (map deg l)).
      { induction l as [|a l IH]; simpl; auto. rewrite IH.
        assert (Hf : fresh (init_state (E := E) targets env0) a = 2 * deg a).
        { unfold fresh. simpl. destruct (pendingb _ a) eqn:Hp; auto.
          apply pendingb_spec in Hp. simpl in Hp. apply in_init in Hp. destruct Hp; discriminate. }
        rewrite Hf. simpl. lia. }
      rewrite H. lia.
    - intros j b H. apply in_init in H. tauto.
  Qed.

  (** ** Collecting the results *)
  Notation aggregate := (aggregate (E := E) shape_of g feeds).
  Notation target_result := (target_result (E := E) shape_of g feeds).

  Lemma aggregate_sound ts s s0 env l :
    (forall i r, s i = Some r -> s0 i = Some r) ->
    aggregate ts s env = Ok l -> Forall2 (target_result s0 env) ts l.
  Proof.
    revert s l; induction ts as [|t ts IH]; intros s l Hs; simpl.
    - intros H; inv H. constructor.
    - destruct (nth_error g t) as [n|] eqn:Hn; [|discriminate].
      assert (Hcont : forall s' x, (forall i r, s' i = Some r -> s0 i = Some r) ->
                target_result s0 env t x ->
                match aggregate ts s' env with Ok l0 => Ok (x :: l0) | Panic => Panic | OutOfFuel => OutOfFuel end
                = Ok l -> Forall2 (target_result s0 env) (t :: ts) l).
      { intros s' x Hs' Hx. destruct (aggregate ts s' env) as [l0| |] eqn:Ha; try discriminate.
        intros H; inv H. constructor; auto. eapply IH; eauto. }
      assert (Hrem : forall i r, st_remove s t i = Some r -> s0 i = Some r).
      { intros i r. unfold st_remove. destruct (i =? t)%nat; [discriminate | apply Hs]. }
      destruct (n_var n) as [vid|] eqn:Hv.
      + destruct (nth_error env vid) as [v|] eqn:He; [|discriminate].
        apply Hcont; auto. econstructor 1; eauto.
      + destruct (n_ph n) as [name|] eqn:Hp.
        * destruct (find_placeholder shape_of feeds t n name) as [v|] eqn:Hf; [|discriminate].
          apply Hcont; auto. econstructor 2; eauto. apply (find_placeholder_spec n name); auto.
        * destruct (s t) as [[[|y ys]|e]|] eqn:Hst; try discriminate.
          -- apply Hcont; auto. econstructor 3; [split; eauto|apply Hs; eauto].
          -- apply Hcont; auto. econstructor 4; [split; eauto|apply Hs; eauto].
  Qed.

  (** No computed tensor occurs twice. *)
  Definition distinct_computed (ts : list nat) : Prop :=
    forall l1 t l2, ts = l1 ++ t :: l2 -> computed t -> ~ In t l2.

  Lemma aggregate_complete ts s s0 env l :
    (forall t, In t ts -> s t = s0 t) -> distinct_computed ts ->
    Forall2 (target_result s0 env) ts l -> aggregate ts s env = Ok l.
  Proof.
    revert s l; induction ts as [|t ts IH]; intros s l Hs Hd H; inversion H as [|? x ? l' Hx Hl]; subst; simpl; auto.
    assert (Hd' : distinct_computed ts).
    { intros l1 u l2 Hu. apply (Hd (t :: l1) u l2). rewrite Hu. reflexivity. }
    assert (Hs1 : forall u, In u ts -> s u = s0 u) by (intros u Hu; apply Hs; right; auto).
    assert (Hs2 : computed t -> forall u, In u ts -> st_remove s t u = s0 u).
    { intros Hc u Hu. unfold st_remove. destruct (u =? t)%nat eqn:He; [|apply Hs; right; auto].
      apply Nat.eqb_eq in He; subst u. exfalso. apply (Hd [] t ts eq_refl Hc Hu). }
    inversion Hx as [n vid v Hn Hv He|n v Hn Hv Hf|n y ys Hn Hst|n e Hn Hst]; subst.
    - rewrite Hn, Hv, He. rewrite (IH s l'); auto.
    - rewrite Hn, Hv. destruct (fed_ph _ _ _ Hf) as [name Hp]. rewrite Hp.
      apply (find_placeholder_spec n name) in Hf; auto. rewrite Hf, (IH s l'); auto.
    - destruct Hn as (Hn & Hp & Hv). rewrite Hn, Hv, Hp, (Hs t (or_introl eq_refl)), Hst.
      rewrite (IH (st_remove s t) l'); auto. apply Hs2. exists n. split; auto.
    - destruct Hn as (Hn & Hp & Hv). rewrite Hn, Hv, Hp, (Hs t (or_introl eq_refl)), Hst.
      rewrite (IH (st_remove s t) l'); auto. apply Hs2. exists n. split; auto.
  Qed.

  Lemma aggregate_missing ts s env t : In t ts -> computed t -> s t = None ->
    aggregate ts s env = Panic.
  Proof.
    revert s; induction ts as [|u ts IH]; intros s Hin Hc Hs; [destruct Hin|]. simpl.
    destruct (nth_error g u) as [n|] eqn:Hn; auto.
    destruct Hin as [->|Hin].
    - destruct Hc as (m & Hm & Hp & Hv). rewrite Hn in Hm; inv Hm. rewrite Hv, Hp, Hs. reflexivity.
    - assert (Hrem : st_remove s u t = None).
      { unfold st_remove. destruct (t =? u)%nat; auto. }
      destruct (n_var n) as [vid|]; [destruct (nth_error env vid); auto; rewrite IH; auto|].
      destruct (n_ph n) as [name|]; [destruct (find_placeholder _ _ _ _ _); auto; rewrite IH; auto|].
      destruct (s u) as [[[|y ys]|e]|]; auto; rewrite IH; auto.
  Qed.

  Lemma aggregate_dup ts s env : ~ distinct_computed ts -> aggregate ts s env = Panic.
  Proof.
    assert (Hstep : forall l1 t l2 s, computed t -> In t l2 -> aggregate (l1 ++ t :: l2) s env = Panic).
    { induction l1 as [|u l1 IH]; intros t l2 s1 Hc Hin; simpl.
      - destruct (nth_error g t) as [n|] eqn:Hn; auto.
        destruct Hc as (m & Hm & Hp & Hv). rewrite Hn in Hm; inv Hm. rewrite Hv, Hp.
        assert (Hrem : st_remove s1 t t = None) by (unfold st_remove; rewrite Nat.eqb_refl; auto).
        assert (Ha : aggregate l2 (st_remove s1 t) env = Panic).
        { apply aggregate_missing with t; auto. exists m; split; auto. }
        destruct (s1 t) as [[[|y ys]|e]|]; auto; rewrite Ha; auto.
      - destruct (nth_error g u) as [n|]; auto.
        destruct (n_var n) as [vid|]; [destruct (nth_error env vid); auto; rewrite IH; auto|].
        destruct (n_ph n) as [name|]; [destruct (find_placeholder _ _ _ _ _); auto; rewrite IH; auto|].
        destruct (s1 u) as [[[|y ys]|e]|]; auto; rewrite IH; auto. }
    intros Hnd.
    destruct (aggregate ts s env) as [l| |] eqn:Ha; auto; exfalso; apply Hnd;
      intros l1 t l2 -> Hc Hin; rewrite (Hstep l1 t l2 s Hc Hin) in Ha; discriminate.
  Qed.

  Lemma aggregate_fuel ts s env : aggregate ts s env <> OutOfFuel.
  Proof.
    revert s; induction ts as [|t ts IH]; intros s; simpl; [discriminate|].
    destruct (nth_error g t) as [n|]; [|discriminate].
    assert (Hc : forall s' x, match aggregate ts s' env with Ok l0 => Ok (x :: l0) | Panic => Panic
                 | OutOfFuel => OutOfFuel end <> OutOfFuel).
    { intros s' x. specialize (IH s'). destruct (aggregate ts s' env); congruence. }
    destruct (n_var n) as [vid|]; [destruct (nth_error env vid); auto; discriminate|].
    destruct (n_ph n) as [name|]; [destruct (find_placeholder _ _ _ _ _); auto; discriminate|].
    destruct (s t) as [[[|y ys]|e]|]; auto; discriminate.
  Qed.

  (** ** Whole evaluations *)
  Notation eval := (eval shape_of compute debug g feeds).

  Definition in_range (targets : list nat) : Prop := forall t, In t targets -> t < length g.

  Lemma eval_fuel targets env0 fuel : wf_graph g -> acyclic g -> in_range targets ->
    2 * (length targets + edge_count) < fuel -> eval fuel targets env0 <> OutOfFuel.
  Proof.
    intros Hwf Hac Hr Hf. unfold Eval_Model.eval.
    pose proof (inv_init targets env0 Hr) as HI.
    rewrite <- (potential_init targets env0) in Hf.
    pose proof (loop_terminates targets env0 Hwf Hac fuel _ HI Hf) as Ht.
    destruct (loop fuel (init_state targets env0)) as [st| |]; try congruence.
    pose proof (aggregate_fuel targets (st_store st) (st_env st)) as Ha.
    destruct (aggregate targets (st_store st) (st_env st)); congruence.
  Qed.

  Lemma loop_mono fuel fuel' st : loop fuel st <> OutOfFuel -> fuel <= fuel' -> loop fuel' st = loop fuel st.
  Proof.
    revert fuel' st; induction fuel as [|fuel IH]; intros [|fuel'] st; simpl; intros H Hle; try congruence; try lia.
    destruct (step st) as [[s|]| |]; auto. apply IH; auto; lia.
  Qed.

  Lemma eval_mono fuel fuel' targets env0 : eval fuel targets env0 <> OutOfFuel -> fuel <= fuel' ->
    eval fuel' targets env0 = eval fuel targets env0.
  Proof.
    unfold Eval_Model.eval. intros H Hle.
    rewrite (loop_mono fuel fuel'); auto.
    destruct (loop fuel (init_state targets env0)); congruence.
  Qed.

  (** Everything an evaluation that returns has done. *)
  Lemma eval_sound targets env0 fuel oc : wf_graph g -> in_range targets ->
    eval fuel targets env0 = Ok oc ->
    exists s,
      execution env0 (oc_log oc) s (oc_env oc) /\
      (forall i, In i (map event_id (oc_log oc)) <-> needed g targets i) /\
      (forall l1 ev l2, oc_log oc = l1 ++ ev :: l2 ->
         forall j, reads_from (event_id ev) j -> computed j -> In j (map event_id l1)) /\
      Forall2 (target_result s (oc_env oc)) targets (oc_results oc).
  Proof.
    intros Hwf Hr. unfold Eval_Model.eval.
    pose proof (inv_init targets env0 Hr) as HI.
    destruct (loop fuel (init_state targets env0)) as [st| |] eqn:Hl; try discriminate.
    destruct (inv_loop _ _ Hwf _ _ _ HI Hl) as [HI' Hst].
    destruct (aggregate targets (st_store st) (st_env st)) as [l| |] eqn:Ha; try discriminate.
    intros H; inv H. simpl. exists (st_store st). split; [apply (I_exec _ _ _ HI')|]. split; [|split].
    - intros i. rewrite <- (inv_final _ _ Hwf _ HI' Hst).
      symmetry. apply (stored_log _ _ _ _ HI').
    - apply (I_order _ _ _ HI').
    - eapply aggregate_sound; eauto.
  Qed.

  (** ** Values in graphs without in-place updates *)
  Section Pure.
    Variable env : list V.
    Notation value := (value shape_of compute debug g feeds env).
    Notation arg := (arg shape_of compute debug g feeds env).

    Section Induction.
      Variable P : nat -> list V + E -> Prop.
      Variable Q : incoming -> opin V -> Prop.
      Hypothesis Hrun : forall i n xs ws ys status, op_node i n -> Forall2 arg (n_inputs n) xs ->
        Forall2 Q (n_inputs n) xs -> compute (n_op n) xs = CRet ws ys status ->
        (debug = true -> ys <> []) -> P i (match status with None => inl ys | Some e => inr e end).
      Hypothesis Hfail : forall i n pre inc post m e, op_node i n -> n_inputs n = pre ++ inc :: post ->
        (forall a, In a pre -> exists x, arg a x /\ Q a x) -> op_node (in_id inc) m ->
        value (in_id inc) (inr e) -> P (in_id inc) (inr e) -> P i (inr e).
      Hypothesis Hph : forall inc n v, nth_error g (in_id inc) = Some n -> fed (in_id inc) n v -> Q inc (NonVar v).
      Hypothesis Hvar : forall inc n vid v, nth_error g (in_id inc) = Some n -> n_ph n = None ->
        n_var n = Some vid -> nth_error env vid = Some v -> Q inc (if in_mut inc then RdWr v else RdOnly v).
      Hypothesis Hop : forall inc n ys v, op_node (in_id inc) n -> value (in_id inc) (inl ys) ->
        P (in_id inc) (inl ys) -> nth_error ys (in_sel inc) = Some v -> Q inc (NonVar v).

      Fixpoint value_ind' i r (H : value i r) {struct H} : P i r :=
        match H in Eval_Spec.value _ _ _ _ _ _ i r return P i r with
        | value_run _ _ _ _ _ _ i n xs ws ys status Hn Hx Hc Hd =>
            Hrun i n xs ws ys status Hn Hx
              ((fix all l l' (Hl : Forall2 arg l l') {struct Hl} : Forall2 Q l l' :=
                 match Hl in Forall2 _ l l' return Forall2 Q l l' with
                 | Forall2_nil _ => Forall2_nil Q
                 | Forall2_cons a b Ha Hr => Forall2_cons a b (arg_ind' a b Ha) (all _ _ Hr)
                 end) _ _ Hx) Hc Hd
        | value_fail _ _ _ _ _ _ i n pre inc post m e Hn Hi Hp Hm Hv =>
            Hfail i n pre inc post m e Hn Hi
              (fun a Ha => match Hp a Ha with
                           | ex_intro _ x Hx => ex_intro _ x (conj Hx (arg_ind' a x Hx))
                           end) Hm Hv (value_ind' _ _ Hv)
        end
      with arg_ind' inc x (H : arg inc x) {struct H} : Q inc x :=
        match H in Eval_Spec.arg _ _ _ _ _ _ inc x return Q inc x with
        | arg_ph _ _ _ _ _ _ inc n v Hn Hf => Hph inc n v Hn Hf
        | arg_var _ _ _ _ _ _ inc n vid v Hn Hp Hv He => Hvar inc n vid v Hn Hp Hv He
        | arg_op _ _ _ _ _ _ inc n ys v Hn Hv Hy => Hop inc n ys v Hn Hv (value_ind' _ _ Hv) Hy
        end.
    End Induction.

    Lemma fed_fun id (n : node O) v1 v2 : fed id n v1 -> fed id n v2 -> v1 = v2.
    Proof.
      intros H1 H2. destruct (fed_ph _ _ _ H1) as [name Hp].
      apply (find_placeholder_spec n name) in H1; auto.
      apply (find_placeholder_spec n name) in H2; auto. congruence.
    Qed.

    Lemma op_node_fun i n1 n2 : op_node i n1 -> op_node i n2 -> n1 = n2.
    Proof. intros [H1 _] [H2 _]. congruence. Qed.

    Lemma value_fun i r1 r2 : value i r1 -> value i r2 -> r1 = r2.
    Proof.
      intros H1; revert r2.
      apply (value_ind' (fun i r => forall r2, value i r2 -> r = r2)
               (fun inc x => (forall x2, arg inc x2 -> x = x2) /\
                             (forall m e, op_node (in_id inc) m -> ~ value (in_id inc) (inr e)))); auto; clear.
      - (* run *)
        intros i n xs ws ys status Hn Hx HQ Hc Hd r2 H2.
        inversion H2 as [i' n' xs' ws' ys' status' Hn' Hx' Hc' Hd'
                        |i' n' pre inc post m e Hn' Hi' Hp' Hm' Hv']; subst.
        + pose proof (op_node_fun _ _ _ Hn Hn'); subst n'.
          assert (xs = xs').
          { clear -HQ Hx'. revert xs' Hx'. induction HQ as [|a x l l' [Ha _] Hl IH]; intros xs' Hx'; inv Hx'; auto.
            f_equal; auto. }
          subst xs'. rewrite Hc in Hc'. inv Hc'. reflexivity.
        + exfalso. pose proof (op_node_fun _ _ _ Hn Hn'); subst n'.
          assert (Hin : In inc (n_inputs n)) by (rewrite Hi'; apply in_elt).
          clear -HQ Hin Hm' Hv'. induction HQ as [|a x l l' [_ Ha] Hl IH]; [destruct Hin|].
          destruct Hin as [->|Hin]; auto. apply (Ha _ _ Hm' Hv').
      - (* fail *)
        intros i n pre inc post m e Hn Hi Hp Hm Hv IH r2 H2.
        inversion H2 as [i' n' xs' ws' ys' status' Hn' Hx' Hc' Hd'
                        |i' n' pre' inc' post' m' e' Hn' Hi' Hp' Hm' Hv']; subst.
        + exfalso. pose proof (op_node_fun _ _ _ Hn Hn'); subst n'.
          rewrite Hi in Hx'. apply Forall2_app_inv_l in Hx'. destruct Hx' as (l1 & l2 & _ & Hx' & _).
          inversion Hx' as [|a x ? ? Ha ? ]; subst.
          inversion Ha as [? n0 v0 Hn0 Hf|? n0 vid v0 Hn0 Hp0 Hv0 He0|? n0 ys0 v0 Hn0 Hv0 Hy0]; subst.
          * destruct (fed_ph _ _ _ Hf). destruct Hm as (? & ? & ?). congruence.
          * destruct Hm as (? & ? & ?). congruence.
          * specialize (IH _ Hv0). discriminate.
        + pose proof (op_node_fun _ _ _ Hn Hn'); subst n'.
          rewrite Hi in Hi'. clear Hi Hn Hn' H2.
          assert (Hcase : (pre = pre' /\ inc = inc') \/ In inc pre' \/ In inc' pre).
          { clear -Hi'. revert pre' Hi'. induction pre as [|a pre IHp]; intros [|b pre'] Hi'; simpl in Hi'; inv Hi'.
            - left; auto.
            - right; left; left; auto.
            - right; right; left; auto.
            - destruct (IHp _ H1) as [[-> ->]|[H|H]]; [left; auto | right; left; right; auto | right; right; right; auto]. }
          destruct Hcase as [[-> ->]|[Hin|Hin]].
          * specialize (IH _ Hv'). inv IH. reflexivity.
          * exfalso. destruct (Hp' _ Hin) as [x Ha].
            inversion Ha as [? n0 v0 Hn0 Hf|? n0 vid v0 Hn0 Hp0 Hv0 He0|? n0 ys0 v0 Hn0 Hv0 Hy0]; subst.
            -- destruct (fed_ph _ _ _ Hf). destruct Hm as (? & ? & ?). congruence.
            -- destruct Hm as (? & ? & ?). congruence.
            -- specialize (IH _ Hv0). discriminate.
          * exfalso. destruct (Hp _ Hin) as (x & _ & _ & Hno). apply (Hno _ _ Hm' Hv').
      - (* placeholder *)
        intros inc n v Hn Hf. split.
        + intros x2 H2. inversion H2 as [? n0 v0 Hn0 Hf0|? n0 vid v0 Hn0 Hp0 Hv0 He0|? n0 ys0 v0 Hn0 Hv0 Hy0]; subst.
          * assert (n0 = n) by congruence. subst. f_equal. eapply fed_fun; eauto.
          * destruct (fed_ph _ _ _ Hf). congruence.
          * destruct (fed_ph _ _ _ Hf). destruct Hn0 as (? & ? & ?). congruence.
        + intros m e Hm _. destruct (fed_ph _ _ _ Hf). destruct Hm as (? & ? & ?). congruence.
      - (* variable *)
        intros inc n vid v Hn Hp Hv He. split.
        + intros x2 H2. inversion H2 as [? n0 v0 Hn0 Hf0|? n0 vid0 v0 Hn0 Hp0 Hv0 He0|? n0 ys0 v0 Hn0 Hv0 Hy0]; subst.
          * destruct (fed_ph _ _ _ Hf0). congruence.
          * replace v0 with v by congruence. reflexivity.
          * destruct Hn0 as (? & ? & ?). congruence.
        + intros m e Hm _. destruct Hm as (? & ? & ?). congruence.
      - (* computed *)
        intros inc n ys v Hn Hv IH Hy. split.
        + intros x2 H2. inversion H2 as [? n0 v0 Hn0 Hf0|? n0 vid0 v0 Hn0 Hp0 Hv0 He0|? n0 ys0 v0 Hn0 Hv0 Hy0]; subst.
          * destruct (fed_ph _ _ _ Hf0). destruct Hn as (? & ? & ?). congruence.
          * destruct Hn as (? & ? & ?). congruence.
          * specialize (IH _ Hv0). inv IH. congruence.
        + intros m e Hm Hv'. specialize (IH _ Hv'). discriminate.
    Qed.

    (** Results recorded by an execution without in-place operands are values. *)
    Definition sane (s : results (V := V) (E := E)) : Prop := forall i r, s i = Some r -> value i r.

    Lemma read_arg s inc x : sane s -> read s env inc x -> arg inc x.
    Proof.
      intros Hs H. inv H.
      - econstructor 1; eauto.
      - econstructor 2; eauto.
      - econstructor 3; eauto.
    Qed.

    Lemma arg_read s inc x : sane s -> arg inc x ->
      (computed (in_id inc) -> s (in_id inc) <> None) -> read s env inc x.
    Proof.
      intros Hs H Hst. inversion H as [? n v Hn Hf|? n vid v Hn Hp Hv He|? n ys v Hn Hv Hy]; subst.
      - econstructor 1; eauto.
      - econstructor 2; eauto.
      - destruct (s (in_id inc)) as [r|] eqn:Hr.
        + econstructor 3; eauto. rewrite Hr. f_equal. eapply value_fun; eauto.
        + exfalso. apply Hst; auto. exists n; auto.
    Qed.

    Lemma execution_value log s env' : execution env log s env' ->
      (forall i n p vid, In i (map event_id log) -> nth_error g i = Some n -> ~ inplace_operand g n p vid) ->
      env' = env /\ sane s.
    Proof.
      intros H; induction H as [|log s env1 i n xs ws ys status env' H IH Hi Hn Hx Hc Hd Hu
                                |log s env1 i n pre inc post e H IH Hi Hn Hp Hr Hf]; intros Hpure.
      - split; auto. intros i r Hr. discriminate.
      - destruct IH as [-> Hs].
        { intros j m p vid Hj. apply Hpure. rewrite map_app, in_app_iff. auto. }
        split.
        + eapply updated_no_operand; [|exact Hu]. intros p vid. apply (Hpure i).
          * rewrite map_app, in_app_iff. right. simpl. auto.
          * apply Hn.
        + intros j r. unfold set_result. destruct (j =? i)%nat eqn:Hj; [|apply Hs].
          apply Nat.eqb_eq in Hj; subst j. intros Hr. inv Hr.
          econstructor; eauto. clear -Hx Hs. induction Hx; constructor; auto. eapply read_arg; eauto.
      - destruct IH as [-> Hs].
        { intros j m p vid Hj. apply Hpure. rewrite map_app, in_app_iff. auto. }
        split; auto.
        intros j r. unfold set_result. destruct (j =? i)%nat eqn:Hj; [|apply Hs].
        apply Nat.eqb_eq in Hj; subst j. intros Hr'. inv Hr'.
        destruct Hf as (m & Hm & Hsm).
        eapply value_fail; eauto. intros a Ha. destruct (Hr a Ha) as [x Hxa]. exists x. eapply read_arg; eauto.
    Qed.

    (** If the inputs' values are known, fetching them cannot panic. *)
    Lemma collect_total s i n r : sane s -> op_node i n -> value i r ->
      (forall j, reads_from i j -> computed j -> s j <> None) ->
      (exists e, collect s env (n_inputs n) = XErr e) \/
      (exists xs ws ys status, collect s env (n_inputs n) = XOk xs /\
         compute (n_op n) xs = CRet ws ys status /\ (debug = true -> ys <> [])).
    Proof.
      intros Hs Hn Hv Hst.
      assert (Hedge : forall inc, In inc (n_inputs n) -> computed (in_id inc) -> s (in_id inc) <> None).
      { intros inc Hin Hc. apply Hst; auto. exists n, inc. split; [apply Hn | auto]. }
      inversion Hv as [i' n' xs ws ys status Hn' Hx Hc Hd|i' n' pre inc post m e Hn' Hi Hp Hm Hvm]; subst.
      - pose proof (op_node_fun _ _ _ Hn Hn'); subst n'. right. exists xs, ws, ys, status.
        split; auto. apply collect_ok. clear -Hx Hs Hedge.
        induction Hx as [|a x l l' Ha Hl IH]; constructor.
        + apply arg_read; auto. apply Hedge. left; auto.
        + apply IH. intros inc Hin. apply Hedge. right; auto.
      - pose proof (op_node_fun _ _ _ Hn Hn'); subst n'. left. exists e. apply collect_err.
        exists pre, inc, post. split; auto. split.
        + intros a Ha. destruct (Hp a Ha) as [x Hxa]. exists x. apply arg_read; auto.
          apply Hedge. rewrite Hi, in_app_iff. auto.
        + exists m. split; auto. destruct (s (in_id inc)) as [r|] eqn:Hr.
          * f_equal. eapply value_fun; eauto.
          * exfalso. apply (Hedge inc); auto; [rewrite Hi; apply in_elt | exists m; auto].
    Qed.
  End Pure.

  Section Complete.
    Variable targets : list nat.
    Variable env0 : list V.
    Hypothesis Hwf : wf_graph g.
    Hypothesis Hpure : no_inplace g targets.
    Hypothesis Hval : forall i, needed g targets i -> exists r, value shape_of compute debug g feeds env0 i r.

    Lemma inv_pure st : Inv targets env0 st -> st_env st = env0 /\ sane env0 (st_store st).
    Proof.
      intros HI. apply (execution_value env0 _ _ _ (I_exec _ _ _ HI)).
      intros i n p vid Hin Hn. apply (Hpure i n p vid); auto.
      apply (stored_log _ _ _ i HI) in Hin. split.
      - apply (execution_computed _ _ _ _ (I_exec _ _ _ HI)). exact Hin.
      - apply (I_reach' _ _ _ HI). exact Hin.
    Qed.

    Lemma step_no_panic st : Inv targets env0 st -> step st <> Panic.
    Proof.
      intros HI. unfold Eval_Model.step.
      destruct (st_stack st) as [|[i b] rest] eqn:Hst; [discriminate|].
      assert (Hi : i < length g) by (apply (I_range _ _ _ HI i b); rewrite Hst; left; auto).
      destruct (nth_error g i) as [n|] eqn:Hn; [|apply nth_error_None in Hn; lia].
      destruct b.
      - destruct (would_not_visit n i (st_store st)) eqn:Hw; [discriminate|].
        apply wnv_spec in Hw; auto. destruct Hw as [(m & Hm) Hs].
        assert (n = m) by (destruct Hm; congruence). subst m.
        destruct (inv_pure st HI) as [Henv Hsane].
        destruct (I_reach _ _ _ HI i true) as (t & Ht & Hd); [rewrite Hst; left; auto|].
        destruct (Hval i) as [r Hr]; [split; [exists n; auto | eauto]|].
        destruct (collect_total env0 (st_store st) i n r Hsane Hm Hr) as [[e He]|(xs & ws & ys & status & Hx & Hc & Hdb)].
        + intros j Hj Hcj. apply (top_ready _ _ _ _ _ _ HI Hst Hj Hcj).
        + unfold Eval_Model.visit. rewrite Henv, He. discriminate.
        + unfold Eval_Model.visit. rewrite Henv, Hx, Hc.
          destruct debug; simpl; [|discriminate]. destruct ys; [exfalso; apply Hdb; auto | discriminate].
      - destruct (push_children_total (st_store st) (n_inputs n) ((i, true) :: rest)) as [s' ->]; [|discriminate].
        intros inc Hin. apply (proj1 Hwf i). exists n, inc. auto.
    Qed.

    Lemma loop_no_panic fuel st : Inv targets env0 st -> loop fuel st <> Panic.
    Proof.
      revert st; induction fuel as [|fuel IH]; intros st HI; simpl; [discriminate|].
      pose proof (step_no_panic st HI) as Hnp.
      destruct (step st) as [[s|]| |] eqn:Hs; try congruence. apply IH. eapply inv_step; eauto.
    Qed.

    Hypothesis Hac : acyclic g.

    Lemma eval_complete fuel rs : in_range targets -> distinct_computed targets ->
      Forall2 (tensor_value shape_of compute debug g feeds env0) targets rs ->
      2 * (length targets + edge_count) < fuel ->
      exists log, eval fuel targets env0 = Ok (Outcome rs env0 log).
    Proof.
      intros Hr Hd Hrs Hf. pose proof (inv_init targets env0 Hr) as HI.
      rewrite <- (potential_init targets env0) in Hf.
      unfold Eval_Model.eval.
      destruct (loop_panic_or_ok targets env0 Hwf Hac fuel _ HI Hf) as [Hl|(st & Hl & HI' & Hst)].
      { exfalso. eapply loop_no_panic; eauto. }
      rewrite Hl. destruct (inv_pure st HI') as [Henv Hsane].
      rewrite (aggregate_complete targets (st_store st) (st_store st) (st_env st) rs); auto.
      - rewrite Henv. eauto.
      - rewrite Henv.
        assert (Hneed : forall t, In t targets -> needed g targets t \/ ~ computed t).
        { intros t Ht. destruct (nth_error g t) as [n|] eqn:Hn.
          - destruct (n_ph n) eqn:Hp; [right; intros (m & ? & ? & ?); congruence|].
            destruct (n_var n) eqn:Hv; [right; intros (m & ? & ? & ?); congruence|].
            left. split; [exists n; split; auto|]. exists t. split; auto. apply rt_refl.
          - apply nth_error_None in Hn. apply Hr in Ht. lia. }
        assert (Hst' : forall t r, In t targets -> value shape_of compute debug g feeds env0 t r ->
                  st_store st t = Some r /\ exists n, op_node t n).
        { intros t r Ht Hv.
          assert (Hn : exists n, op_node t n) by (inversion Hv; subst; eauto).
          split; auto.
          destruct (Hneed t Ht) as [Hnd|Hnd]; [|exfalso; apply Hnd; exact Hn].
          apply (inv_final _ _ Hwf _ HI' Hst) in Hnd. unfold stored in Hnd.
          destruct (st_store st t) as [r'|] eqn:Hs; [|congruence].
          f_equal. apply (value_fun env0 t); auto. }
        clear -Hrs Hst'. induction Hrs as [|t x ts rs Hx Hl IH]; constructor.
        + inversion Hx as [n vid v Hn Hv He|n v Hn Hv Hfd|y ys Hv|e Hv]; subst.
          * econstructor 1; eauto.
          * econstructor 2; eauto.
          * destruct (Hst' t _ (or_introl eq_refl) Hv) as [Hs (n & Hn)]. econstructor 3; eauto.
          * destruct (Hst' t _ (or_introl eq_refl) Hv) as [Hs (n & Hn)]. econstructor 4; eauto.
        + apply IH. intros u r Hu. apply Hst'. right; auto.
    Qed.
  End Complete.
End EvalProofs.
