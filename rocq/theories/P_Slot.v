(** Property C75: registering variables through slots. *)
From Coq Require Import String List Arith ZArith Bool Permutation Lia.
Import ListNotations.
From Verif Require Import Graph_Model Eval_Proofs Graph_Proofs Var_Model Var_Spec Var_Proofs Slot_Model Slot_Spec Slot_Proofs.
Local Open Scope string_scope.
Local Open Scope list_scope.

(** Every registration returns the number of registrations before it, and that identifier gives the array last
    stored there, whatever names are used. *)
Theorem C75_identifiers : forall (A : Type) (uuids : nat -> string) (cs : list (call A)),
  let e := fst (run_calls uuids new_env cs) in
  (forall before c later, cs = before ++ c :: later ->
     nth_error (snd (run_calls uuids new_env cs)) (length before) =
     Some (match registers c with Some _ => Some (sets before) | None => None end)) /\
  forall i a, get_array_by_id e i = Some a <-> stored cs i a.
Proof.
  intros A uuids cs e. split.
  - intros before c later ->. rewrite returned. rewrite nth_error_app2, Nat.sub_diag by lia. cbn.
    rewrite firstn_app, firstn_all, Nat.sub_diag, app_nil_r. reflexivity.
  - intros i a. unfold e. rewrite run_new, run_ids. apply holds_stored.
Qed.
Print Assumptions C75_identifiers.

(** [ctx.variable("name")] and [ctx.variable(("ns", "name"))]: the variable of the last registration under that
    name, in the default namespace or in the one given; a panic if there was none. *)
Theorem C75_variable_by_name :
  forall (A O : Type) (var_op ph_op ctrl_op : O) (const_op : list Z -> O) (ks : list (cmd O)) (c : context O)
    (uuids : nat -> string) (cs : list (call A)) (ns name : string),
  run_cmds var_op ph_op ctrl_op const_op new_context ks = Some c -> fresh uuids cs -> (forall i, name <> uuids i) ->
  let e := fst (run_calls uuids new_env cs) in
  ctx_variable_named var_op e c name = ctx_variable_pair var_op e c ("", name) /\
  (forall c' t, ctx_variable_pair var_op e c (ns, name) = Some (c', t) ->
     exists i n, last_named cs ns name i /\ nth_error (c_graph c') t = Some n /\ n_var n = Some i) /\
  ((forall b call, In call cs -> registers call <> Some (ns, Some name, b)) -> ctx_variable_pair var_op e c (ns, name) = None) /\
  (forall i, last_named cs ns name i -> (N.of_nat (length (c_graph c)) <= 500000)%N ->
     ctx_variable_pair var_op e c (ns, name) <> None).
Proof.
  intros A O var_op ph_op ctrl_op const_op ks c uuids cs ns name Hr F Hn e.
  pose proof (reachable_ok var_op ph_op ctrl_op const_op ks c Hr) as Hok.
  assert (L : forall i, map_get full_name_eqb (name_to_id e) (ns, name) = Some i <-> last_named cs ns name i).
  { intros i. unfold e. rewrite run_new, run_names, latest_takes by exact F. split; [|left; assumption].
    intros [H|[_ H]]; [exact H|]. exfalso. exact (Hn i H). }
  split; [reflexivity|]. unfold ctx_variable_pair, variable_by_name. cbn [fst snd]. split; [|split].
  - intros c' t H. destruct (map_get _ _ _) as [i|] eqn:E; [|discriminate]. clear E. pose proof (proj1 (L i) eq_refl) as E.
    destruct (variable_tensor var_op ph_op ctrl_op const_op c i c' t Hok H) as (n & N1 & N2 & _). exists i, n. auto.
  - intros No. destruct (map_get _ _ _) as [i|] eqn:E; [|reflexivity]. exfalso. clear E. pose proof (proj1 (L i) eq_refl) as E.
    destruct E as (a & later & (before & call & E & R & _) & _). apply (No a call); [|exact R]. rewrite E. apply in_or_app. right. left. reflexivity.
  - intros i Hi Room. rewrite (proj2 (L i) Hi). unfold variable_by_id. destruct (find_var i (c_vars c)); [discriminate|].
    unfold build, install. destruct (NUM_NODES_CRITICAL <? _)%N eqn:E; [apply N.ltb_lt in E; unfold NUM_NODES_CRITICAL in E; lia|discriminate].
Qed.
Print Assumptions C75_variable_by_name.

(** [default_namespace().get_array_by_name(name)] is the array that variable holds now. *)
Theorem C75_array_by_name : forall (A : Type) (uuids : nat -> string) (cs : list (call A)) (name : string) (o : option A),
  fresh uuids cs -> (forall i, name <> uuids i) ->
  (default_array_named (fst (run_calls uuids new_env cs)) name = Some o <->
   exists i a, last_named cs "" name i /\ stored cs i a /\ o = Some a).
Proof.
  intros A uuids cs name o F Hn. unfold default_array_named. rewrite run_new, run_by_name. change DEFAULT_NAMESPACE_ID with "". split.
  - intros (i & a & H1 & H2 & H3). apply latest_takes in H1; [|exact F]. destruct H1 as [H1|[_ H1]]; [|destruct (Hn i H1)].
    exists i, a. rewrite holds_stored in H2. auto.
  - intros (i & a & H1 & H2 & H3). exists i, a. rewrite holds_stored, latest_takes by exact F. split; [left; exact H1|]. auto.
Qed.
Print Assumptions C75_array_by_name.

(** A namespace lists the variables registered there without a name, and for each name given there the last one
    registered under it; earlier ones are reachable by identifier only. *)
Theorem C75_listing : forall (A : Type) (uuids : nat -> string) (cs : list (call A)) (ns : string),
  fresh uuids cs ->
  let e := fst (run_calls uuids new_env cs) in
  (forall i, In i (current_var_ids e ns) <-> unnamed cs ns i \/ exists name, last_named cs ns name i) /\
  length (current_var_ids e ns) = length (nodup string_dec (names_given ns cs)) + unnamed_count ns cs.
Proof.
  intros A uuids cs ns F e. unfold e. rewrite run_new. split.
  - intros i. rewrite run_current_ids. split.
    + intros (name & H). apply latest_takes in H; [|exact F]. destruct H as [H|[H _]]; [right; eauto|left; exact H].
    + intros [H|(name & H)]; [exists (uuids i)|exists name]; apply latest_takes; auto; [right|left]; auto.
  - assert (P : exists ids, length ids = unnamed_count ns cs /\ NoDup ids /\ forall i, In i ids <-> unnamed cs ns i).
    { clear F e. induction cs as [|c cs IH] using rev_ind.
      - exists []. split; [reflexivity|]. split; [constructor|]. intros i. split; [intros []|]. intros (a & l & b & c & E & _). destruct b; discriminate.
      - destruct IH as (ids & L & N & I).
        assert (Snoc : forall i, unnamed (cs ++ [c]) ns i <-> unnamed cs ns i \/ (i = sets cs /\ exists a, registers c = Some (ns, None, a))).
        { intros i. split.
          - intros (a & l & b & c' & E & R & S). apply snoc_inv in E. destruct E as [(-> & -> & ->)|(l' & -> & ->)].
            + right. eauto.
            + left. exists a, l', b, c'. auto.
          - intros [(a & l & b & c' & -> & R & S)|(-> & a & R)].
            + exists a, (l ++ [c]), b, c'. rewrite <- app_assoc. auto.
            + exists a, [], cs, c. auto. }
        unfold unnamed_count. rewrite filter_app, app_length. cbn [filter].
        destruct (registers c) as [[[ns' [n|]] a]|] eqn:R.
        + exists ids. split; [cbn; unfold unnamed_count in L; lia|]. split; [exact N|]. intros i. rewrite Snoc, I. split; [auto|]. intros [H|(_ & b & E)]; [exact H|discriminate].
        + destruct (String.eqb_spec ns' ns) as [->|Ne].
          * exists (sets cs :: ids). split; [cbn; unfold unnamed_count in L; lia|]. split.
            { constructor; [|exact N]. intros H. apply I in H. destruct H as (b & l & bf & c' & E & R' & S).
              subst cs. assert (Q : forall x y : list (call A), sets (x ++ y) = sets x + sets y).
              { clear. intros x y. induction x as [|z x IH]; cbn; [reflexivity|]. destruct (registers z); lia. }
              rewrite Q in S. cbn in S. rewrite R' in S. lia. }
            intros i. rewrite Snoc, <- I. cbn. split; [intros [<-|H]; eauto|]. intros [H|(-> & _)]; auto.
          * exists ids. split; [cbn; unfold unnamed_count in L; lia|]. split; [exact N|]. intros i. rewrite Snoc, I. split; [auto|]. intros [H|(_ & b & E)]; [exact H|]. congruence.
        + exists ids. split; [cbn; unfold unnamed_count in L; lia|]. split; [exact N|]. intros i. rewrite Snoc, I. split; [auto|]. intros [H|(_ & b & E)]; [exact H|discriminate]. }
    destruct P as (ids & L & N & I).
    assert (EL : length (current_var_ids (run_events (evs uuids 0 cs)) ns) = length (current_var_names (run_events (evs uuids 0 cs)) ns)).
    { unfold current_var_ids, current_var_names. rewrite !map_length. reflexivity. }
    rewrite EL, <- L, <- (map_length uuids ids), <- app_length. apply Permutation_length, NoDup_Permutation.
    + apply run_ids_once.
    + assert (Nu : NoDup (map uuids ids)).
      { clear - N F. induction N as [|i ids Hi N IH]; cbn; constructor; [|exact IH]. intros H. apply in_map_iff in H.
        destruct H as (j & E & Hj). apply (proj1 F) in E. subst. exact (Hi Hj). }
      assert (D : forall x, In x (nodup string_dec (names_given ns cs)) -> ~ In x (map uuids ids)).
      { intros x Hx Hu. apply nodup_In in Hx. apply in_map_iff in Hu. destruct Hu as (j & <- & _).
        unfold names_given in Hx. apply in_flat_map in Hx. destruct Hx as (c & Hc & Hx).
        destruct (registers c) as [[[ns' [n|]] a]|] eqn:R; [|destruct Hx|destruct Hx].
        destruct (String.eqb ns' ns); [|destruct Hx]. destruct Hx as [->|[]]. exact (proj2 F c ns' a j Hc R). }
      pose proof (NoDup_nodup string_dec (names_given ns cs)) as Nn.
      clear - Nu D Nn. revert D. induction Nn as [|x l Hx Nn IH]; intros D; [exact Nu|]. cbn. constructor.
      * intros H. apply in_app_or in H. destruct H as [H|H]; [exact (Hx H)|]. exact (D x (or_introl eq_refl) H).
      * apply IH. intros y Hy. apply D. right. exact Hy.
    + intros name. rewrite run_current_names, registered_takes by exact F. rewrite in_app_iff, nodup_In, in_map_iff. unfold names_given. rewrite in_flat_map.
      split.
      * intros [(c & a & Hc & R)|(i & Hi & E)].
        -- left. exists c. split; [exact Hc|]. rewrite R, String.eqb_refl. left. reflexivity.
        -- right. exists i. rewrite I. auto.
      * intros [(c & Hc & Hx)|(i & E & Hi)].
        -- left. destruct (registers c) as [[[ns' [n|]] a]|] eqn:R; [|destruct Hx|destruct Hx].
           destruct (String.eqb_spec ns' ns) as [->|]; [|destruct Hx]. destruct Hx as [->|[]]. eauto.
        -- right. exists i. rewrite <- I. auto.
Qed.
Print Assumptions C75_listing.

(** The default namespace is the one with the empty name, and the ways to reach a slot are the same: calls that
    register the same arrays in the same places give the same environment. *)
Theorem C75_same_places : forall (A : Type) (uuids : nat -> string) (cs cs' : list (call A)) (e : env A),
  Forall2 (fun c c' => match registers c with Some _ => registers c' = registers c | None => c' = c end) cs cs' ->
  run_calls uuids e cs' = run_calls uuids e cs /\
  env_slot = DefaultVariableSlot /\ slot_set (A := A) (uuids 0) default_ns_slot = slot_set (uuids 0) env_slot /\
  (forall name, slot_name env_slot name = env_name name /\
     slot_set (A := A) (uuids 0) (slot_name default_ns_slot name) = slot_set (uuids 0) (env_name name)).
Proof.
  intros A uuids cs cs' e H. split; [|repeat split; reflexivity]. revert e. induction H as [|c c' cs cs' Hc H IH]; intros e; [reflexivity|].
  cbn [run_calls]. assert (E : run_call uuids e c' = run_call uuids e c).
  { destruct c as [[| | |] |  |]; cbn in Hc; [| | | | |subst; reflexivity];
    destruct c' as [[| | |] |  |]; try discriminate Hc; injection Hc; intros; subst; reflexivity. }
  rewrite E. destruct (run_call uuids e c) as [e1 i]. rewrite IH. reflexivity.
Qed.
Print Assumptions C75_same_places.

(** Where a slot registers: in the namespace it was taken from, under the name it was given. *)
Theorem C75_slot_destinations : forall (A : Type) (ns name : string) (a : A),
  (registers (Set_ env_slot a) = Some (EmptyString, None, a)) /\ registers (Set_ (env_name name) a) = Some (EmptyString, Some name, a) /\
  registers (Set_ default_ns_slot a) = Some (EmptyString, None, a) /\ registers (Set_ (slot_name default_ns_slot name) a) = Some (EmptyString, Some name, a) /\
  registers (Set_ (ns_slot ns) a) = Some (ns, None, a) /\ registers (Set_ (slot_name (ns_slot ns) name) a) = Some (ns, Some name, a).
Proof. intros. repeat split. Qed.
Print Assumptions C75_slot_destinations.

(** [var_tensors_by_id] gives one tensor for every array, in the order of the identifiers; it panics only when the
    graph is full. *)
Theorem C75_tensors_by_id :
  forall (A O : Type) (var_op ph_op ctrl_op : O) (const_op : list Z -> O) (ks : list (cmd O)) (c : context O)
    (uuids : nat -> string) (cs : list (call A)),
  run_cmds var_op ph_op ctrl_op const_op new_context ks = Some c ->
  let e := fst (run_calls uuids new_env cs) in
  (forall c' l, var_tensors_by_id var_op e c = Some (c', l) ->
     map fst l = seq 0 (sets cs) /\ (exists new, c_graph c' = c_graph c ++ new) /\
     forall i t, In (i, t) l -> exists n, nth_error (c_graph c') t = Some n /\ n_var n = Some i) /\
  ((N.of_nat (length (c_graph c) + sets cs) <= 500000)%N -> var_tensors_by_id var_op e c <> None).
Proof.
  intros A O var_op ph_op ctrl_op const_op ks c uuids cs Hr e.
  pose proof (reachable_ok var_op ph_op ctrl_op const_op ks c Hr) as Hok.
  assert (L : length (array_list e) = sets cs) by (unfold e; rewrite run_new, run_length; apply regs_evs).
  unfold var_tensors_by_id. rewrite L. split.
  - intros c' l E. destruct (tensors_of_ids_spec var_op ph_op ctrl_op const_op _ _ _ _ Hok E) as (_ & E1 & _ & E2 & E3). auto.
  - clear e L Hok Hr ks. generalize 0 as i, (sets cs) as k. intros i k. revert c i. induction k as [|k IH]; intros c i Room; cbn; [discriminate|].
    assert (V : exists c1 t, variable_by_id var_op c i = Some (c1, t) /\ length (c_graph c1) <= S (length (c_graph c))).
    { unfold variable_by_id. destruct (find_var i (c_vars c)) as [t|]; [exists c, t; split; [reflexivity|lia]|].
      unfold build, install. destruct (NUM_NODES_CRITICAL <? _)%N eqn:E; [apply N.ltb_lt in E; unfold NUM_NODES_CRITICAL in E; lia|].
      do 2 eexists. split; [reflexivity|]. cbn. rewrite app_length. cbn. lia. }
    destruct V as (c1 & t & -> & Le). specialize (IH c1 (S i)).
    destruct (tensors_of_ids var_op c1 (seq (S i) k)) as [[c2 l]|]; [discriminate|]. intros _. apply IH; [lia|reflexivity].
Qed.
Print Assumptions C75_tensors_by_id.

(** Two unnamed variables, "w" twice in the default namespace (through two kinds of slots) and once elsewhere. *)
Definition ex_uuids (i : nat) : string := String.append "uuid-" (String (Ascii.ascii_of_nat 1) (String.concat "" (repeat "x" i))).
Definition ex_calls : list (call nat) :=
  [EnvSet 5; Set_ (env_name "w") 10; Set_ (slot_name (ns_slot "opt") "w") 20; Set_ env_slot 30;
   Set_ (slot_name default_ns_slot "w") 40; Write 4 41; Set_ (ns_slot "opt") 50].
Example C75_hypotheses_met :
  fresh ex_uuids ex_calls /\ (forall i, "w" <> ex_uuids i) /\
  snd (run_calls ex_uuids new_env ex_calls) = [Some 0; Some 1; Some 2; Some 3; Some 4; None; Some 5] /\
  default_array_named (fst (run_calls ex_uuids new_env ex_calls)) "w" = Some (Some 41) /\
  last_named ex_calls "" "w" 4 /\ stored ex_calls 4 41 /\ stored ex_calls 1 10 /\
  length (current_var_ids (fst (run_calls ex_uuids new_env ex_calls)) "") = 3 /\
  option_map snd (ctx_variable_named tt (fst (run_calls ex_uuids new_env ex_calls)) new_context "w") = Some 0 /\
  ctx_variable_named tt (fst (run_calls ex_uuids new_env ex_calls)) new_context "b" = None.
Proof.
  split.
  { split.
    - intros i j H. assert (L : forall k, String.length (String.concat "" (repeat "x" k)) = k).
      { intros k. induction k as [|[|k] IH]; [reflexivity|reflexivity|]. cbn in *. rewrite IH. reflexivity. }
      unfold ex_uuids in H. cbn in H. injection H as H. rewrite <- (L i), <- (L j), H. reflexivity.
    - intros c ns a i Hin E. cbn in Hin. repeat (destruct Hin as [<-|Hin]; [cbn in E; discriminate E|]). destruct Hin. }
  split; [intros i; discriminate|]. split; [reflexivity|]. split; [reflexivity|]. split.
  { exists 40, [Write 4 41; Set_ (ns_slot "opt") 50]. split.
    - exists [EnvSet 5; Set_ (env_name "w") 10; Set_ (slot_name (ns_slot "opt") "w") 20; Set_ env_slot 30], (Set_ (slot_name default_ns_slot "w") 40). repeat split.
    - intros c b [<-|[<-|[]]] E; discriminate E. }
  split; [apply (C75_identifiers nat ex_uuids ex_calls); reflexivity|].
  split; [apply (C75_identifiers nat ex_uuids ex_calls); reflexivity|].
  repeat split; reflexivity.
Qed.
