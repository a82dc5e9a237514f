(** Hooks, [map] and [assign] inside evaluations and gradients. *)
From Coq Require Import String List Arith ZArith Bool Relations Lia.
Import ListNotations.
From Verif Require Import Graph_Model Eval_Model Eval_Spec Eval_Proofs Eval_Proofs2 Eval_Update Graph_Proofs
  Depends_Proofs Grad_Model Grad_Spec Grad_Path_Proofs Grad_Proofs Grad_Final Array_Model Hook_Model P_Eval P_Grad.

Section HookEval.
  Context {H V O E : Type}.
  Variable shape_of : V -> list nat.
  Variable assign_to : V -> V -> option V.
  Variable empty : V.
  Variable compute : O -> list (opin V) -> cout V E.
  Variable debug : bool.
  Variable g : graph (hop H V O).
  Variable feeds : list (ph_key * V).
  Notation hc := (hop_compute assign_to empty compute).
  Notation value := (value shape_of hc debug g feeds).
  Notation arg := (arg shape_of hc debug g feeds).
  Notation tensor_value := (tensor_value shape_of hc debug g feeds).
  Notation eval := (eval shape_of hc debug g feeds).
  Hypothesis Hvp : forall i n, nth_error g i = Some n -> n_var n <> None -> n_ph n = None.

  (** Reading the first output of [x] without in-place access gives its value. *)
  Lemma read_tensor env x v :
    tensor_value env x (inl v) <-> exists b, arg env (Incoming x false 0) b /\ plain_input b = Some v.
  Proof.
    split.
    - intros T. inversion T as [n vid v' H1 H2 H3|n v' H1 H2 H3|y ys H1|]; subst.
      + exists (RdOnly v). split; [|reflexivity].
        apply (arg_var shape_of hc debug g feeds env (Incoming x false 0) n vid v); auto. apply (Hvp x); congruence.
      + exists (NonVar v). split; [|reflexivity]. eapply arg_ph; eauto.
      + exists (NonVar v). split; [|reflexivity]. assert (exists m, op_node g x m) as (m & Hm) by (inversion H1; subst; eauto).
        apply (arg_op shape_of hc debug g feeds env (Incoming x false 0) m (v :: ys) v); auto.
    - intros (b & A & P). inversion A as [inc0 n w H1 H2|inc0 n vid w H1 H2 H3 H4|inc0 n ys w H1 H2 H3]; subst.
      + cbn in P. injection P as ->. eapply tv_ph; eauto. destruct (n_var n) eqn:Ev; auto. exfalso.
        assert (n_ph n = None) by (apply (Hvp x); [exact H1|congruence]).
        destruct H2 as (nm & pre & k & post & dec & Q & _). congruence.
      + cbn in P. injection P as ->. eapply tv_var; eauto.
      + cbn in P, H3. injection P as ->. destruct ys as [|y ys]; [discriminate|]. cbn in H3. injection H3 as ->. eapply tv_ok; eauto.
  Qed.
  Lemma not_mutable env x b : arg env (Incoming x false 0) b -> exists v, plain_input b = Some v.
  Proof. intros A. inversion A; subst; cbn; eauto. Qed.

  (** An operation that applies [f] to its only operand. *)
  Definition applies (o : hop H V O) (f : V -> V) : Prop :=
    forall b v, plain_input b = Some v -> hc o [b] = CRet [] [f v] None.
  Lemma applies_value env t x n f : op_node g t n -> n_inputs n = [Incoming x false 0] -> applies (n_op n) f ->
    (forall w, tensor_value env t (inl w) <-> exists v, tensor_value env x (inl v) /\ w = f v) /\
    (forall e, tensor_value env t (inr e) <-> tensor_value env x (inr e)).
  Proof.
    intros Ht Hin Ha. split.
    - intros w. split.
      + intros T. inversion T as [n' vid v' H1 H2 H3|n' v' H1 H2 H3|y ys H1|]; subst.
        * destruct Ht as (A & B & C). congruence.
        * destruct Ht as (A & B & C). destruct H3 as (nm & ? & ? & ? & ? & Q & _). congruence.
        * inversion H1 as [i n' xs ws ys' st Hn' Hx Hc Hd Hi Heq|]; subst.
          assert (n' = n) by (destruct Hn', Ht; congruence). subst n'. rewrite Hin in Hx.
          inversion Hx as [|a b l1 l2 Hab Hnil]; subst. inversion Hnil; subst.
          destruct (not_mutable _ _ _ Hab) as (v & P). rewrite (Ha b v P) in Hc.
          assert (st = None) by congruence. subst st. exists v. split; [apply read_tensor; eauto|congruence].
      + intros (v & T & ->). apply read_tensor in T. destruct T as (b & A & P).
        apply (tv_ok shape_of hc debug g feeds env t (f v) []).
        apply (value_run shape_of hc debug g feeds env t n [b] [] [f v] None); auto; [rewrite Hin; auto|discriminate].
    - intros e. split.
      + intros T. inversion T as [| | |e' H1]; subst. inversion H1 as [i n' xs ws ys' st Hn' Hx Hc Hd Hi Heq|i n' pre inc post m e' Hn' Hi Hpre Hm He]; subst.
        * assert (n' = n) by (destruct Hn', Ht; congruence). subst n'. rewrite Hin in Hx.
          inversion Hx as [|a b l1 l2 Hab Hnil]; subst. inversion Hnil; subst.
          destruct (not_mutable _ _ _ Hab) as (v & P). rewrite (Ha b v P) in Hc. destruct st; discriminate || congruence.
        * assert (n' = n) by (destruct Hn', Ht; congruence). subst n'. rewrite Hin in Hi.
          destruct pre as [|? [|? ?]]; cbn in Hi; [|discriminate|discriminate]. injection Hi as <- <-. apply tv_err. exact He.
      + intros T. inversion T as [| | |e' H1]; subst. apply tv_err.
        assert (exists m, op_node g x m) as (m & Hm) by (inversion H1; subst; eauto).
        apply (value_fail shape_of hc debug g feeds env t n [] (Incoming x false 0) [] m e); auto; intros a [].
  Qed.

  (** ** The calls of hooks *)
  Definition is_hook (t x : nat) (h : H) : Prop :=
    exists n, op_node g t n /\ n_op n = HHook h /\ n_inputs n = [Incoming x false 0].
  Lemma in_calls log : forall t h v, In (t, h, v) (hook_calls g log) <->
    exists x xs n, In (Ran t (x :: xs)) log /\ nth_error g t = Some n /\ n_op n = HHook h /\ plain_input x = Some v.
  Proof.
    induction log as [|ev log IH]; intros t h v; cbn [hook_calls].
    - split; [intros []|intros (? & ? & ? & [] & _)].
    - assert (Skip : (forall x xs, ev = Ran t (x :: xs) -> forall n h', nth_error g t = Some n -> n_op n = HHook h' -> plain_input x = None) ->
        (In (t, h, v) (hook_calls g log) <->
         exists x xs n, In (Ran t (x :: xs)) (ev :: log) /\ nth_error g t = Some n /\ n_op n = HHook h /\ plain_input x = Some v)).
      { intros N. rewrite IH. split.
        - intros (x & xs & n & A & B). exists x, xs, n. split; [right; exact A|exact B].
        - intros (x & xs & n & [->|A] & B & C & D).
          + rewrite (N x xs eq_refl n h B C) in D. discriminate.
          + exists x, xs, n. auto. }
      destruct ev as [i [|x xs]|i]; try (apply Skip; intros ? ? Q; discriminate).
      destruct (nth_error g i) as [n|] eqn:En; [|apply Skip; intros ? ? Q n h' B; injection Q as <- <- <-; congruence].
      destruct (n_op n) as [h'|f| |o] eqn:Eo;
        try (apply Skip; intros ? ? Q n' h'' B C; injection Q as <- <- <-; congruence).
      destruct (plain_input x) as [w|] eqn:Ep; [|apply Skip; intros ? ? Q n' h'' B C; injection Q as <- <- <-; exact Ep].
      cbn [In]. rewrite IH. split.
      + intros [Q|(x' & xs' & n' & A & B)].
        * injection Q as <- <- <-. exists x, xs, n. auto.
        * exists x', xs', n'. split; [right; exact A|exact B].
      + intros (x' & xs' & n' & [Q|A] & B & C & D).
        * injection Q as <- <- <-. left. rewrite En in B. injection B as <-. rewrite Eo in C. injection C as <-.
          rewrite Ep in D. injection D as <-. reflexivity.
        * right. exists x', xs', n'. auto.
  Qed.
  Lemma calls_ids log i : In i (map (fun c => fst (fst c)) (hook_calls g log)) -> In i (map event_id log).
  Proof.
    intros I. apply in_map_iff in I. destruct I as ([[j h] v] & Q & I). cbn in Q. subst j. apply in_calls in I.
    destruct I as (x & xs & n & I & _). apply in_map_iff. exists (Ran i (x :: xs)). auto.
  Qed.
  Lemma calls_nodup log : NoDup (map event_id log) -> NoDup (map (fun c => fst (fst c)) (hook_calls g log)).
  Proof.
    induction log as [|ev log IH]; intros N; [constructor|]. cbn [map] in N. inversion N as [|? ? N1 N2]; subst.
    destruct ev as [i [|x xs]|i]; cbn [hook_calls]; auto. destruct (nth_error g i) as [n|]; auto.
    destruct (n_op n); auto. destruct (plain_input x); auto. cbn [map]. constructor; auto. cbn [fst]. intros I.
    apply N1. apply calls_ids in I. exact I.
  Qed.

  Lemma event_of (log : list (@event V)) i : In i (map event_id log) -> In (Skipped i) log \/ exists xs, In (Ran i xs) log.
  Proof. intros I. apply in_map_iff in I. destruct I as ([j xs|j] & Q & I); cbn in Q; subst j; eauto. Qed.
  Lemma nodup_event (log : list (@event V)) a b : NoDup (map event_id log) -> In a log -> In b log -> event_id a = event_id b -> a = b.
  Proof.
    induction log as [|c log IH]; intros N A B Q; [destruct A|]. cbn [map] in N. inversion N as [|? ? N1 N2]; subst.
    destruct A as [->|A], B as [->|B]; auto.
    - exfalso. apply N1. rewrite Q. apply in_map. exact B.
    - exfalso. apply N1. rewrite <- Q. apply in_map. exact A.
  Qed.
  (** What a non-overwriting operand of an executed operation was. *)
  Lemma ran_spec env0 log s env t xs : execution shape_of hc debug g feeds env0 log s env -> In (Ran t xs) log ->
    exists n s1 env1 ws ys status, op_node g t n /\ Forall2 (read (E := E) shape_of g feeds s1 env1) (n_inputs n) xs /\
      hc (n_op n) xs = CRet ws ys status /\ s t = Some (match status with None => inl ys | Some e => inr e end).
  Proof.
    induction 1 as [|log s env i n ys ws os status env' EX IH Hs Hn Hr Hc Hd Hu|log s env i n pre inc post e EX IH Hs Hn Hi Hpre Hf]; intros I.
    - destruct I.
    - apply in_app_or in I. destruct I as [I|[Q|[]]].
      + destruct (IH I) as (n' & s1 & env1 & ws' & ys' & st & A & B & C & D).
        exists n', s1, env1, ws', ys', st. split; [exact A|]. split; [exact B|]. split; [exact C|].
        unfold set_result. destruct (t =? i) eqn:Q; [apply Nat.eqb_eq in Q; congruence|exact D].
      + injection Q as <- <-. exists n, s, env, ws, os, status. split; [exact Hn|]. split; [exact Hr|]. split; [exact Hc|].
        unfold set_result. rewrite Nat.eqb_refl. reflexivity.
    - apply in_app_or in I. destruct I as [I|[Q|[]]]; [|discriminate].
      destruct (IH I) as (n' & s1 & env1 & ws' & ys' & st & A & B & C & D).
      exists n', s1, env1, ws', ys', st. split; [exact A|]. split; [exact B|]. split; [exact C|].
      unfold set_result. destruct (t =? i) eqn:Q; [apply Nat.eqb_eq in Q; congruence|exact D].
  Qed.
  Lemma read_plain s env x b : read (E := E) shape_of g feeds s env (Incoming x false 0) b -> exists v, plain_input b = Some v.
  Proof. intros A. inversion A; subst; cbn; eauto. Qed.

  Lemma hook_ran targets env fuel oc t x h xs : wf_graph g -> in_range g targets -> eval fuel targets env = Ok oc ->
    is_hook t x h -> In (Ran t xs) (oc_log oc) ->
    exists b v, xs = [b] /\ plain_input b = Some v /\
      exists s, execution shape_of hc debug g feeds env (oc_log oc) s (oc_env oc) /\
        Forall2 (target_result (E := E) shape_of g feeds s (oc_env oc)) targets (oc_results oc) /\ s t = Some (inl [v]).
  Proof.
    intros Hwf Hr He (n & Hn & Ho & Hi) I.
    destruct (C02_sequential_execution _ _ _ shape_of hc debug g feeds targets env fuel oc Hwf Hr He) as (s & Ex & Tr).
    destruct (ran_spec _ _ _ _ _ _ Ex I) as (n' & s1 & env1 & ws & ys & st & A & B & C & D).
    assert (n' = n) by (destruct A, Hn; congruence). subst n'. rewrite Hi in B.
    inversion B as [|a b l1 l2 Hab Hnil]; subst. inversion Hnil; subst.
    destruct (read_plain _ _ _ _ Hab) as (v & P). exists b, v. split; [reflexivity|]. split; [exact P|].
    exists s. split; [exact Ex|]. split; [exact Tr|]. rewrite Ho in C. cbn in C. rewrite P in C.
    assert (ws = [] /\ ys = [v] /\ st = None) as (-> & -> & ->) by (injection C; auto). exact D.
  Qed.
End HookEval.

(** Building each of the three tensors. *)
Section Builders.
  Context {H V O : Type}.
  Lemma unary_built (g g' : graph (hop H V O)) x t o :
    build g (append_input new_builder x false 0) o = Some (g', t) ->
    t = length g /\ exists n, g' = g ++ [n] /\ op_node g' t n /\ n_op n = o /\ n_inputs n = [Incoming x false 0] /\ n_diff n = true /\ n_backprop n = None.
  Proof.
    intros B. apply build_spec in B. destruct B as (-> & _ & ->). split; [reflexivity|].
    eexists. split; [reflexivity|]. repeat split; try reflexivity. rewrite nth_error_app2, Nat.sub_diag by lia. reflexivity.
  Qed.
  Lemma assign_built (g g' : graph (hop H V O)) x y t :
    assign g x y = Some (g', t) ->
    t = length g /\ exists n, g' = g ++ [n] /\ op_node g' t n /\ n_op n = HAssign /\ n_inputs n = [Incoming x true 0; Incoming y false 0].
  Proof.
    intros B. unfold assign in B. apply build_spec in B. destruct B as (-> & _ & ->). split; [reflexivity|].
    eexists. split; [reflexivity|]. repeat split; try reflexivity. rewrite nth_error_app2, Nat.sub_diag by lia. reflexivity.
  Qed.
End Builders.
