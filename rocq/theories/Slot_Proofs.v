(** Registrations through slots are registrations. *)
From Coq Require Import String List Arith ZArith Bool Lia.
Import ListNotations.
From Verif Require Import Graph_Model Eval_Proofs Graph_Proofs Var_Model Var_Spec Var_Proofs Slot_Model Slot_Spec.
Local Open Scope string_scope.
Local Open Scope list_scope.

Section Slots.
  Context {A : Type}.
  Variable uuids : nat -> string.
  (* the registrations and writes behind the calls *)
  Definition ev_of (k : nat) (c : call A) : event A :=
    match registers c, c with
    | Some (ns, Some n, a), _ => Reg ns n a
    | Some (ns, None, a), _ => Reg ns (uuids k) a
    | None, Write i a => Upd i a
    | None, Set_ _ a | None, EnvSet a => Upd 0 a
    end.
  Fixpoint evs (k : nat) (cs : list (call A)) : list (event A) :=
    match cs with
    | [] => []
    | c :: cs => ev_of k c :: evs (match registers c with Some _ => S k | None => k end) cs
    end.

  Lemma run_call_ev e c : fst (run_call uuids e c) = run_event e (ev_of (length (array_list e)) c) /\
    snd (run_call uuids e c) = match registers c with Some _ => Some (length (array_list e)) | None => None end /\
    length (array_list (fst (run_call uuids e c))) = match registers c with Some _ => S (length (array_list e)) | None => length (array_list e) end.
  Proof.
    assert (L : forall (l : list A) i f, length (update_nth l i f) = length l).
    { induction l as [|x l IH]; intros [|i] f; simpl; auto. }
    destruct c as [[| |ns|ns n] a|a|i a]; cbn; rewrite ?app_length, ?L; cbn; repeat split; auto; lia.
  Qed.
  Lemma run_calls_evs cs : forall e, fst (run_calls uuids e cs) = fold_left run_event (evs (length (array_list e)) cs) e.
  Proof.
    induction cs as [|c cs IH]; intros e; [reflexivity|]. cbn [run_calls evs fold_left].
    destruct (run_call_ev e c) as (E1 & _ & E3). destruct (run_call uuids e c) as [e1 o]. cbn [fst snd] in *.
    specialize (IH e1). destruct (run_calls uuids e1 cs) as [e2 l]. cbn [fst] in *. rewrite IH, E3, E1. reflexivity.
  Qed.
  Lemma run_new cs : fst (run_calls uuids new_env cs) = run_events (evs 0 cs).
  Proof. apply run_calls_evs. Qed.

  Lemma returned (cs : list (call A)) : forall e i, nth_error (snd (run_calls uuids e cs)) i =
    match nth_error cs i with
    | None => None
    | Some c => Some (match registers c with Some _ => Some (length (array_list e) + sets (firstn i cs)) | None => None end)
    end.
  Proof.
    induction cs as [|c cs IH]; intros e i; [destruct i; reflexivity|]. cbn [run_calls].
    destruct (run_call_ev e c) as (E1 & E2 & E3). destruct (run_call uuids e c) as [e1 o]. cbn [fst snd] in *.
    specialize (IH e1). destruct (run_calls uuids e1 cs) as [e2 l]. cbn [snd] in *.
    destruct i as [|i]; cbn [nth_error firstn sets].
    - rewrite E2. destruct (registers c); rewrite ?Nat.add_0_r; reflexivity.
    - rewrite IH, E3. destruct (nth_error cs i) as [c'|]; [|reflexivity].
      destruct (registers c'); [|reflexivity]. destruct (registers c); do 2 f_equal; lia.
  Qed.

  Lemma evs_app k cs cs' : evs k (cs ++ cs') = evs k cs ++ evs (k + sets cs) cs'.
  Proof.
    revert k. induction cs as [|c cs IH]; intros k; cbn [app evs sets]; [rewrite Nat.add_0_r; reflexivity|].
    rewrite IH. destruct (registers c); do 3 f_equal; lia.
  Qed.
  Lemma evs_split cs : forall k h1 ev h2, evs k cs = h1 ++ ev :: h2 ->
    exists c1 c c2, cs = c1 ++ c :: c2 /\ h1 = evs k c1 /\ ev = ev_of (k + sets c1) c /\ h2 = evs (k + sets (c1 ++ [c])) c2.
  Proof.
    induction cs as [|c cs IH]; intros k h1 ev h2 E; [destruct h1; discriminate|].
    destruct h1 as [|e1 h1]; cbn [evs app] in E; injection E as E1 E2.
    - exists [], c, cs. subst. cbn. rewrite Nat.add_0_r. split; [reflexivity|]. split; [reflexivity|]. split; [reflexivity|].
      destruct (registers c); f_equal; lia.
    - apply IH in E2. destruct E2 as (c1 & c' & c2 & -> & -> & -> & ->). exists (c :: c1), c', c2.
      split; [reflexivity|]. split; [cbn; rewrite E1; reflexivity|]. cbn [sets app].
      destruct (registers c); split; f_equal; lia.
  Qed.
  Lemma regs_evs (cs : list (call A)) : forall k, regs (evs k cs) = sets cs.
  Proof.
    induction cs as [|c cs IH]; intros k; [reflexivity|]. cbn [evs sets]. unfold ev_of.
    destruct (registers c) as [[[ns [n|]] a]|] eqn:E; cbn [regs]; rewrite IH; try reflexivity.
    destruct c as [[| | |] |  |]; try discriminate E. reflexivity.
  Qed.
  Lemma in_evs cs : forall k ev, In ev (evs k cs) -> exists c j, In c cs /\ ev = ev_of j c.
  Proof.
    induction cs as [|c cs IH]; intros k ev Hin; [destruct Hin|]. destruct Hin as [<-|Hin].
    - exists c, k. split; [left|]; reflexivity.
    - apply IH in Hin. destruct Hin as (c' & j & Hc & ->). exists c', j. split; [right|]; auto.
  Qed.
  Lemma in_evs' cs c : In c cs -> forall k, exists j, k <= j /\ In (ev_of j c) (evs k cs).
  Proof.
    induction cs as [|c' cs IH]; intros Hin k; [destruct Hin|]. destruct Hin as [->|Hin].
    - exists k. split; [lia|left; reflexivity].
    - destruct (IH Hin (match registers c' with Some _ => S k | None => k end)) as (j & Hj & Hi).
      exists j. split; [destruct (registers c'); lia|right; exact Hi].
  Qed.
  Lemma ev_upd c j i (b : A) : ev_of j c = Upd i b <-> c = Write i b.
  Proof. destruct c as [[| | |] | |]; cbn; split; intros E; inv E; auto. Qed.
  Lemma upd_evs cs k i b : In (Upd i b) (evs k cs) <-> In (Write i b) cs.
  Proof.
    split; intros Hin.
    - apply in_evs in Hin. destruct Hin as (c & j & Hc & E). symmetry in E. apply ev_upd in E. subst. exact Hc.
    - apply in_evs' with (k := k) in Hin. destruct Hin as (j & _ & Hin). exact Hin.
  Qed.

  Lemma holds_stored cs i a : holds (evs 0 cs) i a <-> stored cs i a.
  Proof.
    split.
    - intros (h1 & ns & nm & a0 & h2 & E & R & D). apply evs_split in E. destruct E as (c1 & c & c2 & E & -> & Ec & ->).
      rewrite regs_evs in R. assert (exists n, registers c = Some (ns, n, a0)) as (n & Hr).
      { unfold ev_of in Ec. destruct (registers c) as [[[ns' [n|]] a']|]; [inv Ec; eauto|inv Ec; eauto|]. destruct c; discriminate Ec. }
      exists ns, n, a0, c2. split; [exists c1, c; auto|]. destruct D as [(-> & D)|(h3 & h4 & E2 & D)].
      + left. split; [reflexivity|]. intros b Hin. apply (D b). apply upd_evs. exact Hin.
      + right. apply evs_split in E2. destruct E2 as (l1 & w & l2 & E2 & _ & Ew & ->). symmetry in Ew. apply ev_upd in Ew. subst w.
        exists l1, l2. split; [exact E2|]. intros b Hin. apply (D b). apply upd_evs. exact Hin.
    - intros (ns & n & a0 & c2 & (c1 & c & -> & Hr & <-) & D).
      rewrite evs_app. cbn [evs]. rewrite Hr.
      exists (evs 0 c1), ns, (match n with Some n => n | None => uuids (sets c1) end), a0, (evs (S (sets c1)) c2).
      split; [unfold ev_of; rewrite Hr; destruct n; reflexivity|]. split; [apply regs_evs|].
      destruct D as [(-> & D)|(l1 & l2 & -> & D)].
      + left. split; [reflexivity|]. intros b Hin. apply upd_evs in Hin. exact (D b Hin).
      + right. rewrite evs_app. cbn [evs registers]. exists (evs (S (sets c1)) l1), (evs (S (sets c1) + sets l1) l2).
        split; [reflexivity|]. intros b Hin. apply upd_evs in Hin. exact (D b Hin).
  Qed.

  (* what a name stands for *)
  Definition takes (cs : list (call A)) (ns name : string) (i : nat) : Prop :=
    last_named cs ns name i \/ (unnamed cs ns i /\ name = uuids i).
  Lemma latest_takes cs ns name i : fresh uuids cs -> (latest (evs 0 cs) ns name i <-> takes cs ns name i).
  Proof.
    intros [Fi Fn]. split.
    - intros (h1 & a & h2 & E & R & D). apply evs_split in E. destruct E as (c1 & c & c2 & E & -> & Ec & ->).
      rewrite regs_evs in R. cbn [Nat.add] in *. unfold ev_of in Ec. destruct (registers c) as [[[ns' [n|]] a']|] eqn:Hr; [| |destruct c; discriminate Ec].
      + injection Ec as E1 E2 E3. subst ns' n a'. left. exists a, c2. split; [exists c1, c; auto|]. intros c' b Hin Hr'. apply (D b).
        apply in_evs' with (k := sets (c1 ++ [c])) in Hin. destruct Hin as (j & _ & Hin). unfold ev_of in Hin. rewrite Hr' in Hin. exact Hin.
      + injection Ec as E1 E2 E3. subst ns' name a'. right. rewrite R. split; [|reflexivity]. exists a, c2, c1, c. auto.
    - intros [(a & c2 & (c1 & c & -> & Hr & <-) & D)|((a & c2 & c1 & c & -> & Hr & <-) & ->)]; rewrite evs_app; cbn [evs]; rewrite Hr.
      + exists (evs 0 c1), a, (evs (S (sets c1)) c2). split; [unfold ev_of; rewrite Hr; reflexivity|]. split; [apply regs_evs|].
        intros b Hin. apply in_evs in Hin. destruct Hin as (c' & j & Hc & E). unfold ev_of in E.
        destruct (registers c') as [[[ns' [n|]] a']|] eqn:Hr'; [| |destruct c'; discriminate E].
        * inv E. exact (D c' a' Hc Hr').
        * inv E. apply (Fn c ns' a j); [apply in_or_app; right; left; reflexivity|exact Hr].
      + exists (evs 0 c1), a, (evs (S (sets c1)) c2). split; [unfold ev_of; rewrite Hr; reflexivity|]. split; [apply regs_evs|].
        intros b Hin. apply In_nth_error in Hin. destruct Hin as (p & Hp). apply nth_error_split in Hp. destruct Hp as (h3 & h4 & E & _).
        apply evs_split in E. destruct E as (c3 & c' & c4 & -> & _ & E & _). unfold ev_of in E.
        destruct (registers c') as [[[ns' [n|]] a']|] eqn:Hr'; [| |destruct c'; discriminate E].
        * inv E. apply (Fn c' ns' a' (sets c1)); [|exact Hr']. apply in_or_app. right. right. apply in_or_app. right. left. reflexivity.
        * inv E. match goal with H : uuids _ = uuids _ |- _ => apply Fi in H; lia end.
  Qed.
  Lemma registered_takes cs ns name : fresh uuids cs ->
    ((exists i, registered_as (evs 0 cs) i ns name) <-> (exists c a, In c cs /\ registers c = Some (ns, Some name, a)) \/ (exists i, unnamed cs ns i /\ name = uuids i)).
  Proof.
    intros F. split.
    - intros (i & h1 & a & h2 & E & R). apply evs_split in E. destruct E as (c1 & c & c2 & E & -> & Ec & ->).
      rewrite regs_evs in R. cbn [Nat.add] in *. unfold ev_of in Ec. destruct (registers c) as [[[ns' [n|]] a']|] eqn:Hr; [| |destruct c; discriminate Ec].
      + injection Ec as E1 E2 E3. subst ns' n a'. left. exists c, a. split; [rewrite E; apply in_or_app; right; left; reflexivity|exact Hr].
      + injection Ec as E1 E2 E3. subst ns' name a'. right. exists i. rewrite R. split; [|reflexivity]. exists a, c2, c1, c. auto.
    - intros [(c & a & Hc & Hr)|(i & (a & c2 & c1 & c & -> & Hr & <-) & ->)].
      + apply in_split in Hc. destruct Hc as (c1 & c2 & ->). exists (sets c1), (evs 0 c1), a, (evs (S (sets c1)) c2). rewrite evs_app. cbn [evs]. rewrite Hr.
        split; [unfold ev_of; rewrite Hr; reflexivity|apply regs_evs].
      + exists (sets c1), (evs 0 c1), a, (evs (S (sets c1)) c2). rewrite evs_app. cbn [evs]. rewrite Hr.
        split; [unfold ev_of; rewrite Hr; reflexivity|apply regs_evs].
  Qed.
End Slots.

Section Ids.
  Context {O : Type}.
  Variables (var_op ph_op ctrl_op : O) (const_op : list Z -> O).
  Lemma tensors_of_ids_spec ids : forall c c' l, ctx_ok c -> tensors_of_ids var_op c ids = Some (c', l) ->
    ctx_ok c' /\ map fst l = ids /\ (forall p, In p (c_vars c) -> In p (c_vars c')) /\ (exists new, c_graph c' = c_graph c ++ new) /\
    forall i t, In (i, t) l -> exists n, nth_error (c_graph c') t = Some n /\ n_var n = Some i.
  Proof.
    induction ids as [|i ids IH]; intros c c' l Hok E; cbn [tensors_of_ids] in E.
    - inv E. split; [exact Hok|]. split; [reflexivity|]. split; [auto|]. split; [exists []; rewrite app_nil_r; reflexivity|]. intros ? ? [].
    - destruct (variable_by_id var_op c i) as [[c1 t]|] eqn:V; [|discriminate].
      destruct (tensors_of_ids var_op c1 ids) as [[c2 l2]|] eqn:E2; [|discriminate]. inv E.
      assert (Hok1 : ctx_ok c1).
      { apply (run_cmd_ok var_op ph_op ctrl_op const_op c (CVariable i) c1 (Some t)); auto. simpl. rewrite V. reflexivity. }
      destruct (variable_tensor var_op ph_op ctrl_op const_op c i c1 t Hok V) as (n & Hn & Hv & _).
      destruct (IH c1 c' l2 Hok1 E2) as (I1 & I2 & I3 & (new & I4) & I5).
      split; [exact I1|]. split; [cbn; congruence|].
      assert (Ext : (forall p, In p (c_vars c) -> In p (c_vars c1)) /\ exists new1, c_graph c1 = c_graph c ++ new1).
      { unfold variable_by_id in V. destruct (find_var i (c_vars c)); [inv V; split; [auto|exists []; rewrite app_nil_r; reflexivity]|].
        unfold build, install in V. destruct (_ <? _)%N; [discriminate|]. inv V. cbn. split; [auto|]. eexists. reflexivity. }
      destruct Ext as (X1 & new1 & X2).
      split; [auto|]. split; [exists (new1 ++ new)%list; rewrite I4, X2, app_assoc; reflexivity|].
      intros j u [Hin|Hin]; [inv Hin|eauto]. exists n. split; [|exact Hv].
      rewrite I4. rewrite nth_error_app1; [exact Hn|]. apply nth_error_Some. congruence.
  Qed.
End Ids.
