(** Properties C21, C22 and C23: variables, saving and loading. *)
From Coq Require Import String Ascii List Arith ZArith Bool Permutation Lia.
Import ListNotations.
From Verif Require Import Graph_Model Eval_Proofs Graph_Proofs Var_Model Var_Spec Var_Proofs.
Local Open Scope string_scope.

(** ** C21: registration and lookup *)

(** After any history: identifier lookups give the array last stored there. *)
Theorem C21_lookup_by_id :
  forall (A : Type) (h : list (event A)) (i : nat) (a : A),
  get_array_by_id (run_events h) i = Some a <-> holds h i a.
Proof. exact @run_ids. Qed.
Print Assumptions C21_lookup_by_id.

(** Name lookups give the array of the last registration under exactly that
    name in exactly that namespace, and never panic. *)
Theorem C21_lookup_by_name :
  forall (A : Type) (h : list (event A)) (ns name : string) (o : option A),
  get_array_by_name (run_events h) ns name = Some o <->
  exists i a, latest h ns name i /\ holds h i a /\ o = Some a.
Proof. exact @run_by_name. Qed.
Print Assumptions C21_lookup_by_name.

(** Registration hands out an unused identifier and leaves every other
    identifier, name and namespace alone, whatever the environment. *)
Theorem C21_registration_is_local :
  forall (A : Type) (e e' : env A) (ns name : string) (a : A) (i : nat),
  register_variable a ns name e = (e', i) ->
  get_array_by_id e i = None /\ get_array_by_id e' i = Some a /\
  (forall j, j <> i -> get_array_by_id e' j = get_array_by_id e j) /\
  get_array_by_name e' ns name = Some (Some a) /\
  (forall ns' name', (ns', name') <> (ns, name) ->
     map_get full_name_eqb (name_to_id e') (ns', name') = map_get full_name_eqb (name_to_id e) (ns', name')) /\
  (forall ns', ns' <> ns -> current_var_ids e' ns' = current_var_ids e ns' /\
                            current_var_names e' ns' = current_var_names e ns').
Proof.
  intros A e e' ns name a i H. unfold register_variable in H. inv H.
  unfold get_array_by_id, get_array_by_name. cbn [array_list name_to_id].
  split; [apply nth_error_None; lia|].
  split; [rewrite nth_error_app2, Nat.sub_diag by lia; reflexivity|].
  split.
  { intros j Hj. destruct (Nat.lt_ge_cases j (length (array_list e))) as [Hl|Hl].
    - apply nth_error_app1. exact Hl.
    - rewrite (proj2 (nth_error_None (array_list e) j)) by lia. apply nth_error_None. rewrite app_length. simpl. lia. }
  split.
  { rewrite get_insert by apply full_name_eqb_ok. rewrite (proj2 (full_name_eqb_ok _ _) eq_refl). simpl.
    rewrite nth_error_app2, Nat.sub_diag by lia. reflexivity. }
  split.
  { intros ns' name' Hne. rewrite get_insert by apply full_name_eqb_ok.
    destruct (full_name_eqb (ns, name) (ns', name')) eqn:E; [apply full_name_eqb_ok in E; congruence|reflexivity]. }
  intros ns' Hne.
  assert (E : in_namespace ns' (map_insert full_name_eqb (name_to_id e) (ns, name) (length (array_list e)))
              = in_namespace ns' (name_to_id e)).
  { unfold in_namespace, map_insert. simpl. destruct (String.eqb_spec ns ns'); [congruence|].
    induction (name_to_id e) as [|[[a1 b1] c1] m IH]; [reflexivity|]. simpl.
    destruct (full_name_eqb (a1, b1) (ns, name)) eqn:E1; simpl.
    - apply full_name_eqb_ok in E1. inv E1. destruct (String.eqb_spec ns ns'); [congruence|]. exact IH.
    - destruct (String.eqb a1 ns'); rewrite IH; reflexivity. }
  unfold current_var_ids, current_var_names. cbn [name_to_id]. rewrite E. auto.
Qed.
Print Assumptions C21_registration_is_local.

(** A namespace lists each of its names once, with the latest identifier. *)
Theorem C21_namespace_listing :
  forall (A : Type) (h : list (event A)) (ns : string),
  (forall i, In i (current_var_ids (run_events h) ns) <-> exists name, latest h ns name i) /\
  (forall name, In name (current_var_names (run_events h) ns) <-> exists i, registered_as h i ns name) /\
  NoDup (current_var_ids (run_events h) ns) /\ NoDup (current_var_names (run_events h) ns) /\
  (forall name o, In (name, o) (ns_iter (run_events h) ns) <->
                  exists i a, latest h ns name i /\ holds h i a /\ o = Some a).
Proof.
  intros A h ns. split; [intros i; apply run_current_ids|]. split; [intros nm; apply run_current_names|].
  destruct (run_ids_once h ns). split; auto. split; auto. intros nm o. apply run_iter.
Qed.
Print Assumptions C21_namespace_listing.

(** In a graph: a name resolves to the tensor of its latest identifier and
    panics exactly for names never registered; listing a namespace gives one
    tensor of the right variable per name. *)
Theorem C21_variable_tensors :
  forall (A O : Type) (var_op ph_op ctrl_op : O) (const_op : list Z -> O) (ks : list (cmd O)) (c : context O)
    (h : list (event A)) (ns : string),
  run_cmds var_op ph_op ctrl_op const_op new_context ks = Some c ->
  (forall name, (forall i, ~ registered_as h i ns name) -> variable_by_name var_op (run_events h) c ns name = None) /\
  (forall name c' t, variable_by_name var_op (run_events h) c ns name = Some (c', t) ->
     exists i n, latest h ns name i /\ nth_error (c_graph c') t = Some n /\ n_var n = Some i) /\
  (forall c' l, var_tensors_by_name var_op (run_events h) c ns = Some (c', l) ->
     map fst l = current_var_names (run_events h) ns /\
     forall name t, In (name, t) l ->
       exists i n, latest h ns name i /\ nth_error (c_graph c') t = Some n /\ n_var n = Some i).
Proof.
  intros A O var_op ph_op ctrl_op const_op ks c h ns Hr.
  pose proof (reachable_ok var_op ph_op ctrl_op const_op ks c Hr) as Hok. split; [|split].
  - intros name Hn. unfold variable_by_name. destruct (map_get _ _ _) as [i|] eqn:E; [|reflexivity].
    apply run_names in E. destruct E as (h1 & a & h2 & E & R & _). exfalso. apply (Hn i). exists h1, a, h2. auto.
  - intros name c' t H. unfold variable_by_name in H. destruct (map_get _ _ _) as [i|] eqn:E; [|discriminate].
    apply run_names in E. destruct (variable_tensor var_op ph_op ctrl_op const_op c i c' t Hok H) as (n & Hn & Hv & _). exists i, n. auto.
  - intros c' l H. unfold var_tensors_by_name in H. destruct (var_tensors_spec var_op _ _ _ _ Hok H) as (_ & _ & F).
    assert (G : forall e, In e (in_namespace ns (name_to_id (run_events h))) -> latest h ns (snd (fst e)) (snd e)).
    { intros [[a b] i] Hin. apply filter_In in Hin. destruct Hin as [Hin E]. simpl in E. apply String.eqb_eq in E. subst a.
      apply run_entries. exact Hin. }
    unfold current_var_names. clear H. induction F as [|e r ents l (E & n & Hn & Hv & _) F IH]; simpl; [split; [reflexivity|intros ? ? []]|].
    destruct IH as [I1 I2]; [intros; apply G; right; auto|]. split; [congruence|]. intros name t [Hin|Hin]; [|apply I2; exact Hin].
    subst r. simpl in *. subst name. exists (snd e), n. split; auto.
Qed.
Print Assumptions C21_variable_tensors.

(** "w" is registered twice in the default namespace, once elsewhere. *)
Definition ex_hist : list (event nat) :=
  [Reg "" "w" 10; Reg "opt" "w" 20; Reg "" "b" 30; Reg "" "w" 40; Upd 1 21; Upd 3 41].
Example C21_hypotheses_met :
  get_array_by_name (run_events ex_hist) "" "w" = Some (Some 41) /\ get_array_by_id (run_events ex_hist) 0 = Some 10 /\
  get_array_by_name (run_events ex_hist) "opt" "w" = Some (Some 21) /\
  get_array_by_name (run_events ex_hist) "opt" "b" = None /\
  current_var_ids (run_events ex_hist) "" = [3; 2] /\ latest ex_hist "" "w" 3 /\ holds ex_hist 1 21 /\
  option_map snd (var_tensors_by_name tt (run_events ex_hist) new_context "") = Some [("w", 0); ("b", 1)].
Proof.
  do 5 (split; [reflexivity|]). split; [apply run_names; reflexivity|]. split; [apply run_ids; reflexivity|reflexivity].
Qed.

(** ** C22: saving and loading *)

(** With separator-free names a complete save followed by a load gives back the
    same arrays under the same identifiers and names. *)
Theorem C22_round_trip :
  forall (A B : Type) (storable : A -> Prop) (ser : document A -> list B) (parse : list B -> option (document A))
    (k : nat) (fs : files) (path : string) (h : list (event A)),
  codec storable ser parse ->
  (forall i a, holds h i a -> storable a) ->
  (forall i ns name, registered_as h i ns name -> no_sep ns /\ no_sep name) ->
  fst (save ser (Bytes k) fs path (run_events h)) = true ->
  exists e', load parse (snd (save ser (Bytes k) fs path (run_events h))) path = Done e' /\ same_env (run_events h) e'.
Proof.
  intros A B storable ser parse k fs path h C HS HN Hk.
  destruct (round_trip storable ser parse C k fs path (run_events h)) as (e' & E & S & _); eauto.
  - apply Forall_forall. intros a Ha. apply In_nth_error in Ha. destruct Ha as (i & Hi). apply (HS i). apply run_ids. exact Hi.
  - apply run_once.
  - intros ns nm i Hin. apply run_entries in Hin. destruct Hin as (h1 & a & h2 & E & R & _). apply (HN i). exists h1, a, h2. auto.
Qed.
Print Assumptions C22_round_trip.

(** The same for [initialize] into any environment. *)
Theorem C22_initialize :
  forall (A B : Type) (storable : A -> Prop) (ser : document A -> list B) (parse : list B -> option (document A))
    (k : nat) (fs : files) (path : string) (h : list (event A)) (e0 : env A),
  codec storable ser parse ->
  (forall i a, holds h i a -> storable a) ->
  (forall i ns name, registered_as h i ns name -> no_sep ns /\ no_sep name) ->
  fst (save ser (Bytes k) fs path (run_events h)) = true ->
  exists e', initialize parse (snd (save ser (Bytes k) fs path (run_events h))) path e0 = (Done tt, e') /\
    same_env (run_events h) e'.
Proof.
  intros A B storable ser parse k fs path h e0 C HS HN Hk.
  destruct (C22_round_trip A B storable ser parse k fs path h C HS HN Hk) as (e' & E & S). exists e'. split; auto.
  unfold load in E. unfold initialize. destruct (snd (save ser (Bytes k) fs path (run_events h)) path) as [b|]; [|discriminate]. destruct (parse b) as [d|]; [|discriminate].
  destruct (load_internal d) as [e1|]; [|discriminate]. inv E. destruct e'; reflexivity.
Qed.
Print Assumptions C22_initialize.

(** Whatever the names, the saved file loads without a panic and restores the
    arrays; every restored name is the first two separator-delimited pieces of
    an original "namespace SEP name". *)
Theorem C22_any_names :
  forall (A B : Type) (storable : A -> Prop) (ser : document A -> list B) (parse : list B -> option (document A))
    (k : nat) (fs : files) (path : string) (e : env A),
  codec storable ser parse ->
  Forall storable (array_list e) -> fst (save ser (Bytes k) fs path e) = true ->
  exists e', load parse (snd (save ser (Bytes k) fs path e)) path = Done e' /\ array_list e' = array_list e /\
    forall ns nm i, In ((ns, nm), i) (name_to_id e') ->
      exists ns0 nm0 rest, In ((ns0, nm0), i) (name_to_id e) /\ split_sep (fn_to_string (ns0, nm0)) = ns :: nm :: rest.
Proof. intros A B storable ser parse k fs path e C. apply load_any. exact C. Qed.
Print Assumptions C22_any_names.

(** Names with the separator: one is truncated, two collapse into one. *)
Definition sep_hist : list (event nat) :=
  [Reg "" ("a" ++ String SEP "1") 10; Reg "" ("a" ++ String SEP "2") 20].
Theorem C22_separator_refuted :
  forall (B : Type) (storable : nat -> Prop) (ser : document nat -> list B) (parse : list B -> option (document nat))
    (k : nat) (fs : files) (path : string),
  codec storable ser parse -> storable 10 -> storable 20 ->
  fst (save ser (Bytes k) fs path (run_events sep_hist)) = true ->
  exists e', load parse (snd (save ser (Bytes k) fs path (run_events sep_hist))) path = Done e' /\
    length (current_var_names (run_events sep_hist) "") = 2 /\ (length (current_var_names e' "") <= 1)%nat /\
    get_array_by_name (run_events sep_hist) "" ("a" ++ String SEP "1") = Some (Some 10) /\
    get_array_by_name e' "" ("a" ++ String SEP "1") = None.
Proof.
  intros B storable ser parse k fs path C S1 S2 Hk.
  destruct (load_any storable ser parse C k fs path (run_events sep_hist)) as (e' & E & Ha & HI); auto.
  { repeat constructor; auto. }
  exists e'. split; auto. split; [reflexivity|].
  assert (HI' : forall ns nm i, In ((ns, nm), i) (name_to_id e') -> ns = "" /\ nm = "a").
  { intros ns nm i Hin. destruct (HI ns nm i Hin) as (ns0 & nm0 & rest & H0 & Hs). simpl in H0.
    destruct H0 as [H0|[H0|[]]]; inv H0; cbv in Hs; inv Hs; auto. }
  assert (N : one_entry_per_key (name_to_id e')).
  { unfold load in E. destruct (snd (save ser (Bytes k) fs path (run_events sep_hist)) path) as [b|]; [|discriminate]. destruct (parse b) as [d|]; [|discriminate].
    unfold load_internal in E. destruct (load_entries (d_names d)); [|discriminate]. inv E. apply collect_once. apply full_name_eqb_ok. }
  split; [|split; [reflexivity|]].
  - unfold current_var_names. rewrite map_length. unfold in_namespace, one_entry_per_key in *. destruct (name_to_id e') as [|[[n1 m1] i1] [|[[n2 m2] i2] m]].
    + simpl. lia.
    + simpl. destruct (String.eqb n1 ""); simpl; lia.
    + exfalso. destruct (HI' n1 m1 i1) as [-> ->]; [left; auto|]. destruct (HI' n2 m2 i2) as [-> ->]; [right; left; auto|].
      inv N. apply H1. left. reflexivity.
  - unfold get_array_by_name. destruct (map_get _ _ _) as [i|] eqn:Eg; [|reflexivity].
    apply (get_In _ full_name_eqb_ok) in Eg. destruct (HI' _ _ _ Eg) as [_ Hbad]. discriminate Hbad.
Qed.
Print Assumptions C22_separator_refuted.

(** An array holding an infinity or NaN can be saved but not loaded. *)
Theorem C22_non_finite_refuted :
  forall (A B : Type) (storable : A -> Prop) (ser : document A -> list B) (parse : list B -> option (document A))
    (k : nat) (fs : files) (path : string) (e : env A) (a : A),
  codec storable ser parse -> In a (array_list e) -> ~ storable a ->
  length (ser (prepare_for_serde e)) <= k ->
  fst (save ser (Bytes k) fs path e) = true /\ load parse (snd (save ser (Bytes k) fs path e)) path = Failed.
Proof.
  intros A B storable ser parse k fs path e a C Ha Hs Hk. split.
  - simpl. apply Nat.leb_le. exact Hk.
  - eapply save_unstorable; eauto.
Qed.
Print Assumptions C22_non_finite_refuted.

(** A codec exists: documents framed by an end mark, not storing 99. *)
Definition toy_ser (d : document nat) : list (option (document nat)) := [Some d; None].
Definition toy_parse (b : list (option (document nat))) : option (document nat) :=
  match b with
  | [Some d; None] => if existsb (Nat.eqb 99) (d_arrays d) then None else Some d
  | _ => None
  end.
Lemma toy_codec : codec (fun a => a <> 99) toy_ser toy_parse.
Proof.
  split.
  - intros d H _. exists d. split; auto. unfold toy_ser, toy_parse. destruct (existsb (Nat.eqb 99) (d_arrays d)) eqn:E; [|reflexivity].
    exfalso. apply existsb_exists in E. destruct E as (x & Hx & E). apply Nat.eqb_eq in E. subst x.
    rewrite Forall_forall in H. apply (H 99 Hx). reflexivity.
  - intros d a Ha Hs. unfold toy_ser, toy_parse. assert (a = 99) by lia. subst a.
    rewrite (proj2 (existsb_exists _ _)); [reflexivity|]. exists 99. auto.
  - intros d [|[|k]] H; simpl in *; auto; lia.
  - intros d. simpl. lia.
Qed.
Example C22_hypotheses_met :
  codec (fun a => a <> 99) toy_ser toy_parse /\
  (forall i a, holds ex_hist i a -> a <> 99) /\
  (forall i ns name, registered_as ex_hist i ns name -> no_sep ns /\ no_sep name) /\
  fst (save toy_ser (Bytes 5) (fun _ => None) "model.json" (run_events ex_hist)) = true /\
  load toy_parse (snd (save toy_ser (Bytes 5) (fun _ => None) "model.json" (run_events ex_hist))) "model.json"
    = Done (Env [10; 21; 30; 41] [(("", "w"), 3); (("", "b"), 2); (("opt", "w"), 1)]).
Proof.
  split; [exact toy_codec|]. split.
  { intros i a H. apply run_ids in H. do 4 (destruct i as [|i]; [cbv in H; inv H; discriminate|]). destruct i; discriminate. }
  split; [|split; reflexivity].
  intros i ns name (h1 & a & h2 & E & _). assert (Hin : In (Reg ns name a) ex_hist) by (rewrite E; apply in_or_app; right; left; auto).
  simpl in Hin. repeat (destruct Hin as [Hin|Hin]; [inv Hin; repeat split; discriminate|]). contradiction.
Qed.

(** ** C23: failing loads, crashes *)

(** An [initialize] that does not succeed leaves the environment as it was;
    one that succeeds installs exactly what [load] returns. *)
Theorem C23_failed_load_keeps_environment :
  forall (A B : Type) (parse : list B -> option (document A)) (fs : files) (path : string) (e e' : env A) (r : outcome unit),
  initialize parse fs path e = (r, e') ->
  match r with
  | Done _ => load parse fs path = Done e'
  | Failed => load parse fs path = Failed /\ e' = e
  | Panicked => load parse fs path = Panicked /\ e' = e
  end.
Proof.
  intros A B parse fs path e e' r H. unfold initialize in H. unfold load.
  destruct (fs path) as [b|]; [|inv H; auto]. destruct (parse b) as [d|]; [|inv H; auto].
  destruct (load_internal d) as [e1|]; inv H; auto. destruct e1; reflexivity.
Qed.
Print Assumptions C23_failed_load_keeps_environment.

(** A crash at any point between creating the file and writing its last byte
    leaves a file that does not load, whatever was saved there before; other
    files are untouched. *)
Theorem C23_crash_during_save :
  forall (A B : Type) (storable : A -> Prop) (ser : document A -> list B) (parse : list B -> option (document A))
    (k : nat) (fs : files) (path : string) (e : env A),
  codec storable ser parse -> k < length (ser (prepare_for_serde e)) ->
  fst (save ser (Bytes k) fs path e) = false /\
  load parse (snd (save ser (Bytes k) fs path e)) path = Failed /\
  (forall p, p <> path -> load parse (snd (save ser (Bytes k) fs path e)) p = load parse fs p).
Proof.
  intros A B storable ser parse k fs path e C Hk. destruct (crash storable ser parse C k fs path e Hk) as (H1 & H2 & H3).
  split; auto. split; auto. intros p Hp. unfold load. rewrite H3 by exact Hp. reflexivity.
Qed.
Print Assumptions C23_crash_during_save.

(** Hence saving is not atomic: with a good old file, some crash point leaves
    neither the old nor the new environment on disk. *)
Theorem C23_atomic_save_refuted :
  forall (A B : Type) (storable : A -> Prop) (ser : document A -> list B) (parse : list B -> option (document A))
    (fs : files) (path : string) (old : env A) (new : env A),
  codec storable ser parse -> load parse fs path = Done old ->
  exists k, forall e, load parse (snd (save ser (Bytes k) fs path new)) path <> Done e.
Proof.
  intros A B storable ser parse fs path old new C Hold. exists 0. intros e.
  destruct (crash storable ser parse C 0 fs path new) as (_ & -> & _); [|discriminate].
  apply (codec_nonempty _ _ _ C).
Qed.
Print Assumptions C23_atomic_save_refuted.

(** If the file cannot be created nothing changes. *)
Theorem C23_create_fails :
  forall (A B : Type) (ser : document A -> list B) (fs : files) (path : string) (e : env A),
  save ser CreateFails fs path e = (false, fs).
Proof. reflexivity. Qed.
Print Assumptions C23_create_fails.

(** A file that parses but has a name without separator makes loading panic
    instead of returning an error. *)
Theorem C23_bad_file_panics :
  forall (A B : Type) (parse : list B -> option (document A)) (fs : files) (path : string) (b : list B) (d : document A)
    (s : string) (i : nat),
  fs path = Some b -> parse b = Some d -> In (s, i) (d_names d) -> no_sep s ->
  load parse fs path = Panicked.
Proof.
  intros A B parse fs path b d s i Hb Hp Hin Hs. unfold load. rewrite Hb, Hp. unfold load_internal.
  assert (E : load_entries (d_names d) = None); [|rewrite E; reflexivity].
  induction (d_names d) as [|x l IH]; [contradiction|]. simpl. destruct Hin as [->|Hin].
  - unfold load_entry. simpl. rewrite split_no_sep by exact Hs. reflexivity.
  - rewrite IH by exact Hin. destruct (load_entry x); reflexivity.
Qed.
Print Assumptions C23_bad_file_panics.

(** Identifiers in the file are not checked: a loaded name can point outside
    the arrays, and looking it up panics. *)
Theorem C23_dangling_identifier_refuted :
  exists (d : document nat) (e : env nat), load_internal d = Some e /\ get_array_by_name e "" "w" = Some None.
Proof. exists (Document [] [(String SEP "w", 7)]), (Env [] [(("", "w"), 7)]). split; reflexivity. Qed.
Print Assumptions C23_dangling_identifier_refuted.

Example C23_hypotheses_met :
  let fs1 := snd (save toy_ser (Bytes 5) (fun _ => None) "m" (run_events ex_hist)) in
  (1 < length (toy_ser (prepare_for_serde (run_events sep_hist))))%nat /\
  load toy_parse fs1 "m" = Done (Env [10; 21; 30; 41] [(("", "w"), 3); (("", "b"), 2); (("opt", "w"), 1)]) /\
  load toy_parse (snd (save toy_ser (Bytes 1) fs1 "m" (run_events sep_hist))) "m" = Failed /\
  initialize toy_parse (snd (save toy_ser (Bytes 1) fs1 "m" (run_events sep_hist))) "m" (run_events ex_hist)
    = (Failed, run_events ex_hist) /\
  load toy_parse (fun _ => Some (toy_ser (Document [1] [("w", 0)]))) "m" = Panicked.
Proof. repeat split; simpl; auto. Qed.
