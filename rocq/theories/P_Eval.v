(** Properties C01-C07 and C10 (order part): evaluation. *)
From Coq Require Import String List Arith ZArith Bool Relations Lia.
Import ListNotations.
From Verif Require Import Graph_Model Eval_Model Eval_Spec Eval_Proofs Eval_Proofs2 Graph_Proofs
  Depends_Proofs Eval_Examples.

(** ** C01: evaluation returns the mathematical value *)

(** If the needed operations have values (none of them panics), evaluating
    distinct targets returns exactly the tensors' values and leaves the
    variables alone. *)
Theorem C01_eval_returns_values :
  forall (O V E : Type) (shape_of : V -> list nat) (compute : O -> list (opin V) -> cout V E)
    (debug : bool) (g : graph O) (feeds : list (ph_key * V)) (targets : list nat) (env : list V)
    (results : list (V + E)) (fuel : nat),
  wf_graph g -> acyclic g -> in_range g targets -> distinct_computed g targets ->
  no_inplace g targets ->
  (forall i, needed g targets i -> exists r, value shape_of compute debug g feeds env i r) ->
  Forall2 (tensor_value shape_of compute debug g feeds env) targets results ->
  2 * (length targets + edge_count g) < fuel ->
  exists log, eval shape_of compute debug g feeds fuel targets env = Ok (Outcome results env log).
Proof.
  intros; eapply eval_complete; eauto.
Qed.
Print Assumptions C01_eval_returns_values.

(** Conversely, whatever an evaluation returns are the tensors' values. *)
Theorem C01_eval_only_values :
  forall (O V E : Type) (shape_of : V -> list nat) (compute : O -> list (opin V) -> cout V E)
    (debug : bool) (g : graph O) (feeds : list (ph_key * V)) (targets : list nat) (env : list V)
    (oc : @outcome V E) (fuel : nat),
  wf_graph g -> in_range g targets -> no_inplace g targets ->
  eval shape_of compute debug g feeds fuel targets env = Ok oc ->
  Forall2 (tensor_value shape_of compute debug g feeds env) targets (oc_results oc) /\
  oc_env oc = env /\
  (forall i, needed g targets i -> exists r, value shape_of compute debug g feeds env i r).
Proof.
  exact @eval_only_values.
Qed.
Print Assumptions C01_eval_only_values.

(** The value of a tensor is unique; in particular it does not depend on the
    other targets. *)
Theorem C01_value_unique :
  forall (O V E : Type) (shape_of : V -> list nat) (compute : O -> list (opin V) -> cout V E)
    (debug : bool) (g : graph O) (feeds : list (ph_key * V)) (env : list V) (t : nat) (x y : V + E),
  tensor_value shape_of compute debug g feeds env t x ->
  tensor_value shape_of compute debug g feeds env t y -> x = y.
Proof.
  exact @tensor_value_fun.
Qed.
Print Assumptions C01_value_unique.

Theorem C01_other_targets_irrelevant :
  forall (O V E : Type) (shape_of : V -> list nat) (compute : O -> list (opin V) -> cout V E)
    (debug : bool) (g : graph O) (feeds : list (ph_key * V)) (ts1 ts2 : list nat) (env : list V)
    (oc1 oc2 : @outcome V E) (fuel1 fuel2 : nat) (t : nat) (x y : V + E),
  wf_graph g -> in_range g ts1 -> in_range g ts2 -> no_inplace g ts1 -> no_inplace g ts2 ->
  eval shape_of compute debug g feeds fuel1 ts1 env = Ok oc1 ->
  eval shape_of compute debug g feeds fuel2 ts2 env = Ok oc2 ->
  In (t, x) (combine ts1 (oc_results oc1)) -> In (t, y) (combine ts2 (oc_results oc2)) -> x = y.
Proof.
  exact @eval_other_targets.
Qed.
Print Assumptions C01_other_targets_irrelevant.

(** The calls that fill an evaluator before [run]. *)
Inductive builder_call (V : Type) :=
| Push (t : nat) | Extend (ts : list nat) | Feed (k : ph_key) (v : V) | SetFeeder (fs : list (ph_key * V)).
Arguments Push {V}. Arguments Extend {V}. Arguments Feed {V}. Arguments SetFeeder {V}.
Definition perform {V} (ev : evaluator V) (b : builder_call V) : evaluator V :=
  match b with
  | Push t => ev_push ev t
  | Extend ts => ev_extend ev ts
  | Feed k v => ev_feed ev k v
  | SetFeeder fs => ev_set_feeder ev fs
  end.
(** The tensors requested, and the feeds given, by a sequence of calls. *)
Definition requested {V} (bs : list (builder_call V)) : list nat :=
  flat_map (fun b => match b with Push t => [t] | Extend ts => ts | _ => [] end) bs.
Fixpoint given {V} (bs : list (builder_call V)) (before : list (ph_key * V)) : list (ph_key * V) :=
  match bs with
  | [] => before
  | Feed k v :: bs => given bs (before ++ [(k, v)])
  | SetFeeder fs :: bs => given bs fs
  | _ :: bs => given bs before
  end.
(** [run] returns the results of the requested tensors in the order of the requests. *)
Theorem C01_builder_calls :
  forall (O V E : Type) (shape_of : V -> list nat) (compute : O -> list (opin V) -> cout V E)
    (debug : bool) (g : graph O) (bs : list (builder_call V)) (env : list V) (fuel : nat),
  ev_run shape_of compute debug g fuel (fold_left perform bs new_evaluator) env =
  eval shape_of compute debug g (given bs []) fuel (requested bs) env.
Proof.
  assert (H : forall V (bs : list (builder_call V)) ev, fold_left perform bs ev =
              Evaluator (given bs (ev_feeds ev)) (ev_targets ev ++ requested bs)).
  { intros V bs. induction bs as [|b bs IH]; intros [fs ts]; simpl.
    - rewrite app_nil_r. reflexivity.
    - rewrite IH. destruct b; simpl; rewrite <- ?app_assoc; reflexivity. }
  intros. rewrite H. reflexivity.
Qed.
Print Assumptions C01_builder_calls.

Example C01_hypotheses_met :
  wf_graph g_pure /\ acyclic g_pure /\ in_range g_pure [5; 4; 1; 0]%nat /\
  no_inplace g_pure [5; 4; 1; 0]%nat /\
  exists log, eval ex_shape ex_compute true g_pure ex_feeds 40 [5; 4; 1; 0]%nat [3%Z]
    = Ok (Outcome [inl 8%Z; inl (-8)%Z; inl 5%Z; inl 3%Z] [3%Z] log) /\ length log = 4%nat.
Proof.
  split; [exact g_pure_wf|]. split; [exact g_pure_acyclic|]. split; [|split].
  - intros t H. simpl in H. simpl. lia.
  - apply no_inplace_b. reflexivity.
  - eexists. vm_compute. split; reflexivity.
Qed.

(** ** C02: at most once, after the inputs, only if needed *)
Theorem C02_once_in_order_needed :
  forall (O V E : Type) (shape_of : V -> list nat) (compute : O -> list (opin V) -> cout V E)
    (debug : bool) (g : graph O) (feeds : list (ph_key * V)) (targets : list nat) (env : list V)
    (fuel : nat) (oc : @outcome V E),
  wf_graph g -> in_range g targets ->
  eval shape_of compute debug g feeds fuel targets env = Ok oc ->
  NoDup (map event_id (oc_log oc)) /\
  (forall i, In i (map event_id (oc_log oc)) <-> needed g targets i) /\
  (forall before ev after, oc_log oc = before ++ ev :: after ->
     forall j, clos_trans nat (reads_from g) (event_id ev) j -> computed g j ->
       In j (map event_id before)).
Proof.
  intros O V E shape_of compute debug g feeds targets env fuel oc Hwf Hr He.
  exact (eval_order shape_of compute debug g feeds Hwf targets env fuel oc Hr He).
Qed.
Print Assumptions C02_once_in_order_needed.

(** With in-place operations too, the whole evaluation is one sequential
    execution of the needed operations. *)
Theorem C02_sequential_execution :
  forall (O V E : Type) (shape_of : V -> list nat) (compute : O -> list (opin V) -> cout V E)
    (debug : bool) (g : graph O) (feeds : list (ph_key * V)) (targets : list nat) (env : list V)
    (fuel : nat) (oc : @outcome V E),
  wf_graph g -> in_range g targets ->
  eval shape_of compute debug g feeds fuel targets env = Ok oc ->
  exists s, execution shape_of compute debug g feeds env (oc_log oc) s (oc_env oc) /\
            Forall2 (target_result shape_of g feeds s (oc_env oc)) targets (oc_results oc).
Proof.
  exact @eval_is_execution.
Qed.
Print Assumptions C02_sequential_execution.

Example C02_hypotheses_met :
  wf_graph g_full /\
  exists oc, eval ex_shape ex_compute true g_full ex_feeds 60 [7; 8; 5]%nat [3%Z] = Ok oc /\
    map event_id (oc_log oc) = [2; 4; 3; 5; 8; 6; 7]%nat /\ oc_env oc = [11%Z].
Proof. split; [exact g_full_wf|]. eexists. split; [vm_compute; reflexivity|]. split; reflexivity. Qed.

(** ** C03: termination in linear time, and non-termination on cycles *)
Theorem C03_terminates :
  forall (O V E : Type) (shape_of : V -> list nat) (compute : O -> list (opin V) -> cout V E)
    (debug : bool) (g : graph O) (feeds : list (ph_key * V)) (targets : list nat) (env : list V)
    (fuel : nat),
  wf_graph g -> acyclic g -> in_range g targets ->
  2 * (length targets + edge_count g) < fuel ->
  eval shape_of compute debug g feeds fuel targets env <> OutOfFuel.
Proof.
  intros; apply eval_fuel; assumption.
Qed.
Print Assumptions C03_terminates.

(** Once finished, more steps change nothing. *)
Theorem C03_fuel_irrelevant :
  forall (O V E : Type) (shape_of : V -> list nat) (compute : O -> list (opin V) -> cout V E)
    (debug : bool) (g : graph O) (feeds : list (ph_key * V)) (targets : list nat) (env : list V)
    (fuel fuel' : nat),
  eval shape_of compute debug g feeds fuel targets env <> OutOfFuel -> fuel <= fuel' ->
  eval shape_of compute debug g feeds fuel' targets env = eval shape_of compute debug g feeds fuel targets env.
Proof.
  intros; apply eval_mono; assumption.
Qed.
Print Assumptions C03_fuel_irrelevant.

(** An evaluation that needs a tensor lying on a cycle never returns a result. *)
Theorem C03_cycle_never_returns :
  forall (O V E : Type) (shape_of : V -> list nat) (compute : O -> list (opin V) -> cout V E)
    (debug : bool) (g : graph O) (feeds : list (ph_key * V)) (targets : list nat) (env : list V)
    (i : nat),
  wf_graph g -> in_range g targets -> needed g targets i -> clos_trans nat (reads_from g) i i ->
  forall fuel oc, eval shape_of compute debug g feeds fuel targets env <> Ok oc.
Proof.
  intros O V E shape_of compute debug g feeds targets env i Hwf Hr Hn Hc fuel oc He.
  exact (eval_needed_acyclic shape_of compute debug g feeds Hwf targets env fuel oc Hr He i Hn Hc).
Qed.
Print Assumptions C03_cycle_never_returns.

(** A user can build such a cycle with [depends_on]; evaluation then runs for ever. *)
Theorem C03_depends_on_cycle_diverges :
  control_dependencies XCtrl g_cycle0 1 [2%nat] = Some g_cycle /\ wf_graph g_cycle /\
  forall fuel, eval ex_shape ex_compute true g_cycle [] fuel [1%nat] [3%Z] = OutOfFuel.
Proof.
  exact cycle_diverges.
Qed.
Print Assumptions C03_depends_on_cycle_diverges.

Example C03_hypotheses_met :
  wf_graph g_full /\ acyclic g_full /\ in_range g_full [7; 8; 5]%nat /\
  (2 * (length [7; 8; 5]%nat + edge_count g_full) = 30)%nat /\
  clos_trans nat (reads_from g_cycle) 1 1 /\ needed g_cycle [1%nat] 1.
Proof.
  split; [exact g_full_wf|]. split; [exact g_full_acyclic|]. split; [|split; [reflexivity|]].
  - intros t H. simpl in H. simpl. lia.
  - assert (H13 : reads_from g_cycle 1 3) by (eexists _, _; split; [reflexivity | split; [left; reflexivity | reflexivity]]).
    assert (H32 : reads_from g_cycle 3 2) by (eexists _, _; split; [reflexivity | split; [right; left; reflexivity | reflexivity]]).
    assert (H21 : reads_from g_cycle 2 1) by (eexists _, _; split; [reflexivity | split; [left; reflexivity | reflexivity]]).
    split.
    + eapply t_trans; [apply t_step; exact H13|]. eapply t_trans; apply t_step; eassumption.
    + split; [eexists; repeat split|]. exists 1%nat. split; [left; reflexivity | apply rt_refl].
Qed.

(** ** C04: a failing operation fails exactly its dependents *)
Theorem C04_failures_propagate_exactly :
  forall (O V E : Type) (shape_of : V -> list nat) (compute : O -> list (opin V) -> cout V E)
    (debug : bool) (g : graph O) (feeds : list (ph_key * V)) (targets : list nat) (env : list V)
    (fuel : nat) (oc : @outcome V E),
  wf_graph g -> in_range g targets ->
  eval shape_of compute debug g feeds fuel targets env = Ok oc ->
  (* a requested tensor is an error iff it depends on an operation that returned
     an error, and then it is the error of such an operation *)
  (forall t x, In (t, x) (combine targets (oc_results oc)) -> computed g t ->
     ((exists e, x = inr e) <->
      (exists j e, depends g t j /\ raised compute g (oc_log oc) j e)) /\
     (forall e, x = inr e -> exists j, depends g t j /\ raised compute g (oc_log oc) j e)) /\
  (* exactly the needed operations with a failed strict dependency are not executed *)
  (forall i, In (Skipped i) (oc_log oc) <->
     needed g targets i /\
     exists j e, clos_trans nat (reads_from g) i j /\ raised compute g (oc_log oc) j e).
Proof.
  intros O V E shape_of compute debug g feeds targets env fuel oc Hwf Hr He.
  exact (eval_failures shape_of compute debug g feeds Hwf targets env fuel oc Hr He).
Qed.
Print Assumptions C04_failures_propagate_exactly.

(** In a build with debug assertions an operation error can only be returned as
    a result if the operation had already produced an output; otherwise the
    evaluation panics. *)
Theorem C04_debug_error_needs_output :
  forall (O V E : Type) (shape_of : V -> list nat) (compute : O -> list (opin V) -> cout V E)
    (g : graph O) (feeds : list (ph_key * V)) (targets : list nat) (env : list V)
    (fuel : nat) (oc : @outcome V E),
  wf_graph g -> in_range g targets ->
  eval shape_of compute true g feeds fuel targets env = Ok oc ->
  forall j xs n ws ys e, In (Ran j xs) (oc_log oc) -> op_node g j n ->
    compute (n_op n) xs = CRet ws ys (Some e) -> ys <> [].
Proof.
  exact @debug_error_output.
Qed.
Print Assumptions C04_debug_error_needs_output.

Example C04_hypotheses_met :
  exists oc, eval ex_shape ex_compute true g_full ex_feeds 60 [7; 5]%nat [3%Z] = Ok oc /\
    oc_results oc = [inr "bad"%string; inl 8%Z] /\
    In (Skipped 7%nat) (oc_log oc) /\ raised ex_compute g_full (oc_log oc) 6 "bad"%string.
Proof.
  eexists. split; [vm_compute; reflexivity|]. split; [reflexivity|]. simpl. split; [tauto|].
  exists (plain XFail [2%nat]), [NonVar 8%Z], [], [0%Z]. simpl. split; [tauto|]. split; [repeat split|reflexivity].
Qed.

(** ** C05: placeholder feeds *)

(** A requested placeholder yields its first matching feed, with the declared
    shape checked, and panics when that feed does not fit or none matches. *)
Theorem C05_placeholder_value :
  forall (O V E : Type) (shape_of : V -> list nat) (compute : O -> list (opin V) -> cout V E)
    (debug : bool) (g : graph O) (feeds : list (ph_key * V)) (env : list V) (t : nat) (n : node O),
  nth_error g t = Some n -> is_placeholder n = true -> n_var n = None -> n_inputs n = [] ->
  (forall v, fed shape_of feeds t n v ->
     forall fuel, 3 <= fuel ->
     eval shape_of compute debug g feeds fuel [t] env = Ok (Outcome [inl v] env [])) /\
  ((forall v, ~ fed shape_of feeds t n v) ->
     forall fuel, 3 <= fuel -> eval shape_of compute debug g feeds fuel [t] env = Panic).
Proof.
  exact @eval_placeholder.
Qed.
Print Assumptions C05_placeholder_value.

(** An operation that reads the placeholder gets the same array, or panics. *)
Theorem C05_placeholder_operand :
  forall (O V E : Type) (shape_of : V -> list nat) (g : graph O) (feeds : list (ph_key * V))
    (s : @storage V E) (env : list V) (inc : incoming) (n : node O),
  nth_error g (in_id inc) = Some n -> is_placeholder n = true ->
  (forall v, fetch shape_of g feeds s env inc = FVal (NonVar v) <-> fed shape_of feeds (in_id inc) n v) /\
  ((forall v, ~ fed shape_of feeds (in_id inc) n v) <-> fetch shape_of g feeds s env inc = FPanic).
Proof.
  exact @fetch_placeholder.
Qed.
Print Assumptions C05_placeholder_operand.

(** Feeds whose key is another placeholder do not matter. *)
Theorem C05_other_feeds_irrelevant :
  forall (O V : Type) (shape_of : V -> list nat) (pre post : list (ph_key * V)) (k : ph_key) (w : V)
    (t : nat) (n : node O) (name : string) (v : V),
  n_ph n = Some name -> ~ feed_matches t name k ->
  (fed shape_of (pre ++ (k, w) :: post) t n v <-> fed shape_of (pre ++ post) t n v).
Proof.
  exact @fed_other.
Qed.
Print Assumptions C05_other_feeds_irrelevant.

(** [set_feeder] discards the feeds given before; [feed] appends. *)
Theorem C05_set_feeder :
  forall (O V E : Type) (shape_of : V -> list nat) (compute : O -> list (opin V) -> cout V E)
    (debug : bool) (g : graph O) (ev : evaluator V) (fs fs' : list (ph_key * V)) (k : ph_key) (v : V)
    (env : list V) (fuel : nat),
  ev_run shape_of compute debug g fuel (ev_feed (ev_set_feeder ev fs) k v) env =
  eval shape_of compute debug g (fs ++ [(k, v)]) fuel (ev_targets ev) env /\
  ev_run shape_of compute debug g fuel (ev_set_feeder (ev_set_feeder ev fs') fs) env =
  ev_run shape_of compute debug g fuel (ev_set_feeder ev fs) env.
Proof.
  intros; split; reflexivity.
Qed.
Print Assumptions C05_set_feeder.

(** Creating a placeholder panics for a declared dimension that is neither -1
    nor positive (and in a full graph); otherwise the new tensor is a
    placeholder with the given name and declared shape.  It gets a shape tensor
    (the declared shape as a constant) exactly if its rank is 0 or its first
    declared dimension is known, even if later ones are -1. *)
Theorem C05_placeholder_creation :
  forall (O : Type) (ph_op : O) (const_op : list Z -> O) (c : context O) (name : string) (shape : list Z),
  (N.of_nat (length (c_graph c)) < NUM_NODES_CRITICAL)%N ->
  (placeholder ph_op const_op c name shape = None <-> exists d, In d shape /\ d <> (-1)%Z /\ (d <= 0)%Z) /\
  (forall c' id, placeholder ph_op const_op c name shape = Some (c', id) ->
     exists n, nth_error (c_graph c') id = Some n /\ n_op n = ph_op /\ n_inputs n = [] /\ n_var n = None /\
       n_ph n = Some name /\ n_known n = Some shape /\ n_diff n = true /\
       (forall d s, shape = d :: s -> d = (-1)%Z -> n_shape n = None /\ c_graph c' = c_graph c ++ [n]) /\
       (shape = [] \/ (exists d s, shape = d :: s /\ d <> (-1)%Z) ->
          n_shape n = Some (length (c_graph c)) /\
          exists k, c_graph c' = c_graph c ++ [k; n] /\ n_op k = const_op shape)).
Proof.
  intros O ph_op const_op c name shape Hroom.
  assert (Hk : forall sh, known_shape_new sh = None <-> exists d, In d sh /\ d <> (-1)%Z /\ (d <= 0)%Z).
  { intros sh. unfold known_shape_new. destruct (forallb _ sh) eqn:E; split; try discriminate; auto.
    - intros (d & Hd & Hn & Hle). rewrite forallb_forall in E. specialize (E d Hd).
      apply orb_true_iff in E. destruct E as [E|E]; [apply Z.eqb_eq in E; contradiction | apply Z.ltb_lt in E; lia].
    - intros _. clear Hroom. induction sh as [|a sh IH]; [discriminate|]. simpl in E. apply andb_false_iff in E. destruct E as [E|E].
      + apply orb_false_iff in E. destruct E as [E1 E2]. apply Z.eqb_neq in E1. apply Z.ltb_ge in E2. exists a. simpl. auto.
      + destruct (IH E) as (d & Hd & Hr). exists d. simpl. auto. }
  assert (Hks : forall sh k, known_shape_new sh = Some k -> k = sh).
  { intros sh k. unfold known_shape_new. destruct (forallb _ sh); [intros H; inv H; reflexivity|discriminate]. }
  assert (Hi : forall (b : builder) op, build (c_graph c) b op <> None).
  { intros b op H. apply build_none in H. lia. }
  assert (Hi2 : forall (b b' : builder) op op' g' id, build (c_graph c) b op = Some (g', id) -> build g' b' op' <> None).
  { intros b b' op op' g' id H1 H2. apply build_none in H2. unfold build, install in H1. destruct (_ <? _)%N; inv H1.
    rewrite app_length in H2. simpl in H2. lia. }
  split.
  - rewrite <- Hk. unfold placeholder. destruct (match shape with [] => true | d :: _ => negb (d =? -1)%Z end).
    + destruct (build (c_graph c) new_builder (const_op shape)) as [[g' sid]|] eqn:E; [|exfalso; exact (Hi _ _ E)].
      destruct (known_shape_new shape); [|tauto]. destruct (build g' _ ph_op) as [[g'' id]|] eqn:E2; [split; discriminate|]. exfalso; exact (Hi2 _ _ _ _ _ _ E E2).
    + destruct (known_shape_new shape); [|tauto]. destruct (build (c_graph c) _ ph_op) as [[g' id]|] eqn:E; [split; discriminate|]. exfalso; exact (Hi _ _ E).
  - intros c' id. unfold placeholder.
    destruct (match shape with [] => true | d :: _ => negb (d =? -1)%Z end) eqn:St.
    + destruct (build (c_graph c) new_builder (const_op shape)) as [[g' sid]|] eqn:E; [|discriminate].
      destruct (known_shape_new shape) as [k|] eqn:Ek; [|discriminate]. apply Hks in Ek. subst k.
      destruct (build g' _ ph_op) as [[g'' id']|] eqn:E2; [|discriminate]. intros H; inv H.
      unfold build, install in E, E2. destruct (_ <? _)%N in E; [discriminate|]. inv E. destruct (_ <? _)%N in E2; [discriminate|]. inv E2.
      simpl. rewrite nth_error_app2 by lia. rewrite Nat.sub_diag. simpl. eexists. split; [reflexivity|]. simpl.
      repeat (split; [reflexivity|]). split.
      * intros d s -> ->. discriminate.
      * intros _. split; [reflexivity|]. eexists. rewrite <- app_assoc. split; reflexivity.
    + destruct (known_shape_new shape) as [k|] eqn:Ek; [|discriminate]. apply Hks in Ek. subst k.
      destruct (build (c_graph c) _ ph_op) as [[g' id']|] eqn:E2; [|discriminate]. intros H; inv H.
      unfold build, install in E2. destruct (_ <? _)%N in E2; [discriminate|]. inv E2.
      simpl. rewrite nth_error_app2 by lia. rewrite Nat.sub_diag. simpl. eexists. split; [reflexivity|]. simpl.
      repeat (split; [reflexivity|]). split.
      * intros d s _ _. split; reflexivity.
      * intros [->|(d & s & -> & Hd)]; [discriminate|]. apply negb_false_iff, Z.eqb_eq in St. contradiction.
Qed.
Print Assumptions C05_placeholder_creation.

Example C05_hypotheses_met :
  (* two feeds match placeholder 1, the first one (by id) wins *)
  fed ex_shape ex_feeds 1 (ph_node "x" [-1]%Z) 5%Z /\
  eval ex_shape ex_compute true g_pure ex_feeds 3 [1%nat] [3%Z] = Ok (Outcome [inl 5%Z] [3%Z] []) /\
  (* a declared dimension that does not fit *)
  eval ex_shape ex_compute true [ph_node "x" [4]%Z] ex_feeds 3 [0%nat] [3%Z] = Ok (Outcome [inl 4%Z] [3%Z] []) /\
  eval ex_shape ex_compute true [ph_node "x" [6]%Z] ex_feeds 3 [0%nat] [3%Z] = Panic.
Proof.
  split; [|repeat split; reflexivity].
  exists "x"%string, [(KName "y", 9%Z)], (KId 1), [(KName "x", 4%Z)], [-1]%Z.
  split; [reflexivity|]. split; [reflexivity|]. split; [reflexivity|]. split; [|split; [reflexivity|]].
  - intros k' v' [H|[]]. inv H. simpl. discriminate.
  - split; [reflexivity|]. intros p d u Hd Hu Hpos. destruct p as [|p]; simpl in Hd; [inv Hd; lia | destruct p; discriminate].
Qed.

(** ** C06: variables change only through executed in-place operations *)
Theorem C06_variables :
  forall (O V E : Type) (shape_of : V -> list nat) (compute : O -> list (opin V) -> cout V E)
    (debug : bool) (g : graph O) (feeds : list (ph_key * V)) (targets : list nat) (env : list V)
    (fuel : nat) (oc : @outcome V E),
  wf_graph g -> in_range g targets ->
  eval shape_of compute debug g feeds fuel targets env = Ok oc ->
  length (oc_env oc) = length env /\
  (forall vid, nth_error (oc_env oc) vid <> nth_error env vid ->
     exists i n p xs, In (Ran i xs) (oc_log oc) /\ op_node g i n /\ inplace_operand g n p vid) /\
  (forall t n vid x, In (t, x) (combine targets (oc_results oc)) ->
     nth_error g t = Some n -> n_var n = Some vid ->
     exists v, x = inl v /\ nth_error (oc_env oc) vid = Some v).
Proof.
  intros O V E shape_of compute debug g feeds targets env fuel oc Hwf Hr He.
  exact (eval_variables shape_of compute debug g feeds Hwf targets env fuel oc Hr He).
Qed.
Print Assumptions C06_variables.

Example C06_hypotheses_met :
  (* the variable 3 is requested first but returned with its final value 11 *)
  exists oc, eval ex_shape ex_compute true g_full ex_feeds 60 [0; 8]%nat [3%Z] = Ok oc /\
    oc_results oc = [inl 11%Z; inl 0%Z] /\ oc_env oc = [11%Z] /\
    inplace_operand g_full (Node XAddAssign [Incoming 0 true 0; Incoming 2 false 0] 0 None None true None None None) 0 0.
Proof.
  eexists. split; [vm_compute; reflexivity|]. split; [reflexivity|]. split; [reflexivity|].
  eexists _, _. repeat split; reflexivity.
Qed.

(** ** C07: a computed tensor requested twice *)
Theorem C07_repeated_computed_target_panics :
  forall (O V E : Type) (shape_of : V -> list nat) (compute : O -> list (opin V) -> cout V E)
    (debug : bool) (g : graph O) (feeds : list (ph_key * V)) (env : list V) (fuel : nat)
    (l1 l2 l3 : list nat) (t : nat),
  wf_graph g -> acyclic g -> in_range g (l1 ++ t :: l2 ++ t :: l3) -> computed g t ->
  2 * (length (l1 ++ t :: l2 ++ t :: l3) + edge_count g) < fuel ->
  eval shape_of compute debug g feeds fuel (l1 ++ t :: l2 ++ t :: l3) env = Panic.
Proof.
  exact @eval_repeated_panics.
Qed.
Print Assumptions C07_repeated_computed_target_panics.

(** Variables and placeholders may be repeated: the completeness theorem
    [C01_eval_returns_values] only asks computed targets to be distinct. *)
Theorem C07_repeated_sources_fine :
  forall (O : Type) (g : graph O) (targets : list nat),
  (forall t, In t targets -> ~ computed g t) -> distinct_computed g targets.
Proof.
  exact @sources_distinct.
Qed.
Print Assumptions C07_repeated_sources_fine.

Example C07_hypotheses_met :
  eval ex_shape ex_compute true g_pure ex_feeds 60 [5; 1; 5]%nat [3%Z] = Panic /\
  exists log, eval ex_shape ex_compute true g_pure ex_feeds 60 [1; 5; 0; 1; 0]%nat [3%Z] =
    Ok (Outcome [inl 5; inl 8; inl 3; inl 5; inl 3]%Z [3%Z] log) /\
    map event_id log = [2; 4; 3; 5]%nat.
Proof. split; [vm_compute; reflexivity|]. eexists. vm_compute. split; reflexivity. Qed.

(** ** C10 (order and values): depends_on *)
Theorem C10_depends_on_order :
  forall (O V E : Type) (shape_of : V -> list nat) (compute : O -> list (opin V) -> cout V E)
    (debug : bool) (g g' : graph O) (feeds : list (ph_key * V)) (ctrl_op : O) (x : nat) (deps : list nat),
  wf_graph g -> x < length g -> (forall d, In d deps -> d < length g) ->
  control_dependencies ctrl_op g x deps = Some g' ->
  forall (targets : list nat) (env : list V) (fuel : nat) (oc : @outcome V E),
  in_range g' targets -> eval shape_of compute debug g' feeds fuel targets env = Ok oc ->
  forall before ev after, oc_log oc = before ++ ev :: after -> event_id ev = x ->
  forall d, In d deps -> computed g' d -> In d (map event_id before).
Proof.
  intros O V E shape_of compute debug g g' feeds ctrl_op x deps Hwf Hx Hd Hc targets env fuel oc Hr He.
  exact (depends_on_order shape_of compute debug g g' feeds ctrl_op x deps Hwf Hx Hd Hc targets env fuel oc Hr He).
Qed.
Print Assumptions C10_depends_on_order.

(** Values are unchanged when the prerequisites can be read successfully and the
    first operand of [x] is a read-only, first-output edge. *)
Theorem C10_depends_on_values :
  forall (O V E : Type) (shape_of : V -> list nat) (compute : O -> list (opin V) -> cout V E)
    (debug : bool) (g g' : graph O) (feeds : list (ph_key * V)) (ctrl_op : O) (x : nat) (deps : list nat),
  wf_graph g -> x < length g ->
  control_dependencies ctrl_op g x deps = Some g' ->
  forall env : list V,
  (forall v rest, compute ctrl_op (NonVar v :: rest) = CRet [] [v] None /\
                  compute ctrl_op (RdOnly v :: rest) = CRet [] [v] None) ->
  (forall op v rest, compute op (RdOnly v :: rest) = compute op (NonVar v :: rest)) ->
  (forall n i0 rest, nth_error g x = Some n -> n_inputs n = i0 :: rest -> in_mut i0 = false /\ in_sel i0 = 0) ->
  (forall d, In d deps -> exists a, arg shape_of compute debug g' feeds env (Incoming d false 0) a) ->
  forall i r, value shape_of compute debug g feeds env i r -> value shape_of compute debug g' feeds env i r.
Proof.
  intros; eapply depends_on_value; eauto.
Qed.
Print Assumptions C10_depends_on_values.

Example C10_hypotheses_met :
  exists g', control_dependencies XCtrl g_full 5 [8; 4]%nat = Some g' /\ acyclic g' /\
  exists oc, eval ex_shape ex_compute true g' ex_feeds 60 [5]%nat [3%Z] = Ok oc /\
    map event_id (oc_log oc) = [2; 4; 8; 3; 9; 5]%nat /\ oc_results oc = [inl 8%Z].
Proof.
  eexists. split; [vm_compute; reflexivity|]. split.
  - apply (acyclic_by_rank _ (fun i => if (i =? 9)%nat then 9 else if (i <? 5)%nat then i else if (i =? 8)%nat then 8 else i + 10)%nat).
    intros i j (n & inc & Hn & Hin & <-).
    do 10 (destruct i as [|i]; [simpl in Hn; inv Hn; simpl in Hin;
      repeat (destruct Hin as [<-|Hin]; [vm_compute; lia|]); destruct Hin|]).
    destruct i; discriminate.
  - eexists. split; [vm_compute; reflexivity|]. split; reflexivity.
Qed.

Example C10_values_hypotheses_met :
  exists g', control_dependencies XCtrl g_pure 3 [4]%nat = Some g' /\
  (forall op v rest, ex_compute op (RdOnly v :: rest) = ex_compute op (NonVar v :: rest)) /\
  (forall d, In d [4]%nat -> exists a, arg ex_shape ex_compute true g' ex_feeds [3%Z] (Incoming d false 0) a) /\
  value ex_shape ex_compute true g_pure ex_feeds [3%Z] 3 (inl [16%Z]).
Proof.
  assert (Hv : forall g' i n xs ws ys, op_node g' i n ->
    Forall2 (arg ex_shape ex_compute true g' ex_feeds [3%Z]) (n_inputs n) xs ->
    ex_compute (n_op n) xs = CRet ws ys None -> ys <> [] ->
    value ex_shape ex_compute true g' ex_feeds [3%Z] i (inl ys)).
  { intros g' i n xs ws ys H1 H2 H3 H4. exact (value_run _ _ _ _ _ _ i n xs ws ys None H1 H2 H3 (fun _ => H4)). }
  assert (Hf : forall g', nth_error g' 0 = Some (var_node 0) -> nth_error g' 1 = Some (ph_node "x" [-1]%Z) ->
     nth_error g' 2 = Some (plain XAdd [0;1]%nat) ->
     arg ex_shape ex_compute true g' ex_feeds [3%Z] (Incoming 2 false 0) (NonVar 8%Z)).
  { intros g' H0 H1 H2. eapply arg_op with (ys := [8%Z]); [split; [exact H2|split; reflexivity]| |reflexivity].
    eapply Hv with (xs := [RdOnly 3%Z; NonVar 5%Z]); [split; [exact H2|split; reflexivity]| |reflexivity|discriminate].
    constructor; [|constructor; [|constructor]].
    - exact (arg_var _ _ _ _ _ [3%Z] (Incoming 0 false 0) _ 0 3%Z H0 eq_refl eq_refl eq_refl).
    - apply (arg_ph _ _ _ _ _ _ (Incoming 1 false 0) _ 5%Z H1). exact (proj1 C05_hypotheses_met). }
  eexists. split; [vm_compute; reflexivity|]. split; [|split].
  - intros [] v [|b [|c rest]]; reflexivity.
  - intros d [<-|[]]. eexists. eapply arg_op with (ys := [(-8)%Z]); [split; [reflexivity|split; reflexivity]| |reflexivity].
    eapply Hv with (xs := [NonVar 8%Z]); [split; [reflexivity|split; reflexivity]| |reflexivity|discriminate].
    constructor; [|constructor]. apply Hf; reflexivity.
  - eapply Hv with (xs := [NonVar 8%Z; NonVar 8%Z]); [split; [reflexivity|split; reflexivity]| |reflexivity|discriminate].
    constructor; [|constructor; [|constructor]]; apply Hf; reflexivity.
Qed.
