(** C74: when gradient construction on array graphs returns. *)
From Coq Require Import String List Arith ZArith NArith Bool Reals Lia.
Import ListNotations.
From Verif Require Import Graph_Model Eval_Model Eval_Spec Eval_Proofs Graph_Proofs Grad_Model Grad_Spec Grad_Path_Proofs Grad_Examples
  Scalar_Model Scalar_Spec Var_Model Helper_Model.
From Verif Require Import Array_Model Array_Proofs Vjp_Spec Tens_Model Tens_Spec Tens_Lax Tens_Final Tens_Examples Helper_Tens
  Returns_Spec Tens_Total Tens_New Tens_Returns.
Local Set Bullet Behavior "Strict Subproofs".

Lemma room_limit k : (N.of_nat k <= 499998)%N -> (k + 3 <= node_limit)%nat.
Proof.
  intros H. assert (Q : (N.of_nat (k + 3) <= N.of_nat node_limit)%N).
  { unfold node_limit. rewrite N2Nat.id. unfold NUM_NODES_CRITICAL. lia. }
  lia.
Qed.

(** With room in the graph, [grad] returns if and only if every variable asked for that
    an output depends on through differentiable tensors is reached by a path along which
    every operation supplies a gradient. *)
Theorem C74_grad_returns_iff :
  forall (pop : tgraph -> list nat -> option (nat * list nat)) (debug : bool) (fuel : nat)
    (ls : nat -> list nat) (ys xs : list nat) (g : tgraph),
  twf ls g -> (forall g, heap_pop g (pop g)) ->
  (forall y, In y ys -> fits ls g y /\ exists sh, shaped ls g y sh) -> ys <> [] ->
  NoDup xs -> (forall x, In x xs -> t_input_leaf g x) ->
  2 * (2 * length ys + backprop_edges g) < fuel -> length g + length ys < fuel ->
  (N.of_nat (67 * (length g + length ys) + 4 * length xs) <= 499998)%N ->
  (debug = true -> forall z n, between g ys xs z -> nth_error g z = Some n -> comparison (n_op n) = false) ->
  ((exists l g' log, t_grad pop debug fuel ys xs g = Ok (l, g', log)) <->
   forall x, In x xs -> matters g ys x -> flows g ys x).
Proof.
  intros pop debug fuel ls ys xs g W Hp Hy Hne Nx Hx Hf1 Hf2 Hr Hd. apply room_limit in Hr.
  exact (proj1 (grad_returns_iff false pop Hp debug ls g ys xs (sound_false ls g W) Hy Nx Hx fuel Hne Hf1 Hf2 Hr Hd)).
Qed.
Print Assumptions C74_grad_returns_iff.

(** Otherwise it panics. *)
Theorem C74_grad_panics_iff :
  forall (pop : tgraph -> list nat -> option (nat * list nat)) (debug : bool) (fuel : nat)
    (ls : nat -> list nat) (ys xs : list nat) (g : tgraph),
  twf ls g -> (forall g, heap_pop g (pop g)) ->
  (forall y, In y ys -> fits ls g y /\ exists sh, shaped ls g y sh) -> ys <> [] ->
  NoDup xs -> (forall x, In x xs -> t_input_leaf g x) ->
  2 * (2 * length ys + backprop_edges g) < fuel -> length g + length ys < fuel ->
  (N.of_nat (67 * (length g + length ys) + 4 * length xs) <= 499998)%N ->
  (debug = true -> forall z n, between g ys xs z -> nth_error g z = Some n -> comparison (n_op n) = false) ->
  (t_grad pop debug fuel ys xs g = Panic <-> exists x, In x xs /\ matters g ys x /\ ~ flows g ys x).
Proof.
  intros pop debug fuel ls ys xs g W Hp Hy Hne Nx Hx Hf1 Hf2 Hr Hd. apply room_limit in Hr.
  destruct (grad_returns_iff false pop Hp debug ls g ys xs (sound_false ls g W) Hy Nx Hx fuel Hne Hf1 Hf2 Hr Hd) as [Q T].
  split.
  - intros E. apply Classical_Prop.NNPP. intros H.
    assert (R : exists l g' log, t_grad pop debug fuel ys xs g = Ok (l, g', log)).
    { apply Q. intros x Hin Hm. apply Classical_Prop.NNPP. intros Hn. apply H. eauto. }
    destruct R as (l & g' & log & R). congruence.
  - intros (x & Hin & Hm & Hn). destruct (t_grad pop debug fuel ys xs g) as [[[l g'] log]| |] eqn:E; [|reflexivity|congruence].
    exfalso. apply Hn. apply (proj1 Q); eauto.
Qed.
Print Assumptions C74_grad_panics_iff.

(** The same where rows of tables are looked up with [gather]. *)
Theorem C74_grad_returns_iff_with_lookups :
  forall (pop : tgraph -> list nat -> option (nat * list nat)) (debug : bool) (fuel : nat)
    (ls : nat -> list nat) (ys xs : list nat) (g : tgraph),
  twf ls g -> attached g -> (forall g, heap_pop g (pop g)) ->
  (forall y, In y ys -> uses ls g y /\ exists sh, shaped ls g y sh) -> ys <> [] ->
  NoDup xs -> (forall x, In x xs -> t_input_leaf g x) ->
  2 * (2 * length ys + backprop_edges g) < fuel -> length g + length ys < fuel ->
  (N.of_nat (67 * (length g + length ys) + 4 * length xs) <= 499998)%N ->
  (debug = true -> forall z n, between g ys xs z -> nth_error g z = Some n -> comparison (n_op n) = false) ->
  ((exists l g' log, t_grad pop debug fuel ys xs g = Ok (l, g', log)) <->
   forall x, In x xs -> matters g ys x -> flows g ys x).
Proof.
  intros pop debug fuel ls ys xs g W At Hp Hy Hne Nx Hx Hf1 Hf2 Hr Hd. apply room_limit in Hr.
  exact (proj1 (grad_returns_iff true pop Hp debug ls g ys xs (conj W (fun _ => At)) Hy Nx Hx fuel Hne Hf1 Hf2 Hr Hd)).
Qed.
Print Assumptions C74_grad_returns_iff_with_lookups.

(** [grad_helper] returns if and only if this holds for the variables of the namespace
    that already have a tensor; the others cannot matter. *)
Theorem C74_grad_helper_returns_iff :
  forall (A : Type) (pop : tgraph -> list nat -> option (nat * list nat)) (debug : bool) (fuel : nat)
    (ls : nat -> list nat) (losses : list nat) (e : env A) (ns : string) (c : context top),
  twf ls (c_graph c) -> var_leaves c -> (forall g, heap_pop g (pop g)) ->
  (forall y, In y losses -> fits ls (c_graph c) y /\ exists sh, shaped ls (c_graph c) y sh) ->
  NoDup (current_var_ids e ns) -> losses <> [] ->
  2 * (2 * length losses + backprop_edges (c_graph c)) < fuel ->
  length (c_graph c) + length losses + length (current_var_ids e ns) < fuel ->
  (N.of_nat (67 * (length (c_graph c) + length losses) + 71 * length (current_var_ids e ns)) <= 499998)%N ->
  (debug = true -> forall y z n, In y losses -> reaches (c_graph c) y z -> nth_error (c_graph c) z = Some n -> comparison (n_op n) = false) ->
  ((exists vs ts c' log, t_grad_helper pop debug fuel losses e ns c = Ok (vs, ts, c', log)) <->
   forall vid t, In vid (current_var_ids e ns) -> find_var vid (c_vars c) = Some t ->
     matters (c_graph c) losses t -> flows (c_graph c) losses t).
Proof.
  intros A pop debug fuel ls losses e ns c W V Hp Hl Nv Hne Hf1 Hf2 Hr Hd. apply room_limit in Hr.
  exact (helper_returns_iff false pop debug fuel ls losses e ns c (sound_false ls _ W) V Hp Hl Nv Hne Hf1 Hf2 Hr Hd).
Qed.
Print Assumptions C74_grad_helper_returns_iff.

(** Evaluating distinct array tensors returns their values and leaves the variables
    alone: no operation of a well-formed array graph panics. *)
Theorem C74_evaluation_returns :
  forall (debug : bool) (ls : nat -> list nat) (g : tgraph) (feeds : list (ph_key * tv)) (env : list tv)
    (rho : nat -> arr R) (fuel : nat) (targets : list nat),
  twf ls g -> conform ls rho -> t_leaf_values g feeds env rho ->
  (forall t, In t targets -> exists sh, shaped ls g t sh) -> NoDup targets ->
  2 * (length targets + edge_count g) < fuel ->
  exists log, eval tv_shape tens_compute debug g feeds fuel targets env
    = Ok (Outcome (map (fun t => inl (TA (aval rho g t))) targets) env log).
Proof.
  intros debug ls g feeds env rho fuel targets W C HL HT HN Hf.
  apply (eval_arrays false ls g (twf_loose ls g W) debug feeds env rho C HL fuel targets HT); [|exact Hf].
  intros l1 t l2 -> _. apply NoDup_remove_2 in HN. rewrite in_app_iff in HN. tauto.
Qed.
Print Assumptions C74_evaluation_returns.

(** Asking for gradients and evaluating one of them: both calls return, and the result
    is the gradient of the sum of all elements of the outputs. *)
Theorem C74_gradients_total :
  forall (pop : tgraph -> list nat -> option (nat * list nat)) (debug : bool) (fuel : nat)
    (ls : nat -> list nat) (ys xs : list nat) (g : tgraph),
  twf ls g -> (forall g, heap_pop g (pop g)) ->
  (forall y, In y ys -> fits ls g y /\ exists sh, shaped ls g y sh) -> ys <> [] ->
  NoDup xs -> (forall x, In x xs -> t_input_leaf g x) ->
  2 * (2 * length ys + backprop_edges g) < fuel -> length g + length ys < fuel ->
  (N.of_nat (67 * (length g + length ys) + 4 * length xs) <= 499998)%N ->
  (debug = true -> forall z n, between g ys xs z -> nth_error g z = Some n -> comparison (n_op n) = false) ->
  (forall x, In x xs -> matters g ys x -> flows g ys x) ->
  exists l g' log, t_grad pop debug fuel ys xs g = Ok (l, g', log) /\
    Forall2 (fun x r => forall debug2 feeds env rho fuel2,
      conform ls rho -> t_leaf_values g feeds env rho -> 2 * (1 + edge_count g') < fuel2 ->
      exists gx log2, eval tv_shape tens_compute debug2 g' feeds fuel2 [fst r] env = Ok (Outcome [inl (TA gx)] env log2) /\
        has_shape (ls x) gx /\
        forall v, has_shape (ls x) v -> (forall y, In y ys -> t_smooth ls g rho x y) ->
          derivable_pt_lim
            (fun t => fold_right Rplus 0%R (map (fun y => elements_sum (aval (put rho x (step (rho x) v t)) g y)) ys))
            0%R (dot gx v)) xs l.
Proof.
  intros pop debug fuel ls ys xs g W Hp Hy Hne Nx Hx Hf1 Hf2 Hr Hd Hfl. apply room_limit in Hr.
  exact (gradients_total false pop Hp debug fuel ls g ys xs (sound_false ls g W) Hy Hne Nx Hx Hf1 Hf2 Hr Hd Hfl).
Qed.
Print Assumptions C74_gradients_total.

(** The same where rows of tables are looked up with [gather]. *)
Theorem C74_gradients_total_with_lookups :
  forall (pop : tgraph -> list nat -> option (nat * list nat)) (debug : bool) (fuel : nat)
    (ls : nat -> list nat) (ys xs : list nat) (g : tgraph),
  twf ls g -> attached g -> (forall g, heap_pop g (pop g)) ->
  (forall y, In y ys -> uses ls g y /\ exists sh, shaped ls g y sh) -> ys <> [] ->
  NoDup xs -> (forall x, In x xs -> t_input_leaf g x) ->
  2 * (2 * length ys + backprop_edges g) < fuel -> length g + length ys < fuel ->
  (N.of_nat (67 * (length g + length ys) + 4 * length xs) <= 499998)%N ->
  (debug = true -> forall z n, between g ys xs z -> nth_error g z = Some n -> comparison (n_op n) = false) ->
  (forall x, In x xs -> matters g ys x -> flows g ys x) ->
  exists l g' log, t_grad pop debug fuel ys xs g = Ok (l, g', log) /\
    Forall2 (fun x r => forall debug2 feeds env rho fuel2,
      conform ls rho -> t_leaf_values g feeds env rho -> 2 * (1 + edge_count g') < fuel2 ->
      exists gx log2, eval tv_shape tens_compute debug2 g' feeds fuel2 [fst r] env = Ok (Outcome [inl (TA gx)] env log2) /\
        has_shape (ls x) gx /\
        forall v, has_shape (ls x) v -> (forall y, In y ys -> t_smooth ls g rho x y) ->
          derivable_pt_lim
            (fun t => fold_right Rplus 0%R (map (fun y => elements_sum (aval (put rho x (step (rho x) v t)) g y)) ys))
            0%R (dot gx v)) xs l.
Proof.
  intros pop debug fuel ls ys xs g W At Hp Hy Hne Nx Hx Hf1 Hf2 Hr Hd Hfl. apply room_limit in Hr.
  exact (gradients_total true pop Hp debug fuel ls g ys xs (conj W (fun _ => At)) Hy Hne Nx Hx Hf1 Hf2 Hr Hd Hfl).
Qed.
Print Assumptions C74_gradients_total_with_lookups.

(** The gradient of [floor] is not zero, it cannot be asked for: [floor] is marked
    differentiable and supplies no gradient. *)
Definition floor_build : tbld nat := a_un Floor 0.
Definition floor_graph : tgraph := match floor_build [t_var 0] with Some (_, g) => g | None => [] end.
Definition floor_ls (_ : nat) : list nat := [2%nat].
Theorem C74_gradient_of_floor_panics :
  twf floor_ls floor_graph /\ fits floor_ls floor_graph 2 /\ shaped floor_ls floor_graph 2 [2%nat] /\ t_input_leaf floor_graph 0 /\
  matters floor_graph [2] 0 /\ ~ flows floor_graph [2] 0 /\
  forall pop debug fuel, (forall g, heap_pop g (pop g)) -> 20 < fuel -> t_grad pop debug fuel [2] [0] floor_graph = Panic.
Proof.
  assert (W : twf floor_ls floor_graph) by (apply twf_b_sound; vm_compute; reflexivity).
  assert (F : fits floor_ls floor_graph 2) by (apply fits_b_sound; vm_compute; reflexivity).
  assert (S : shaped floor_ls floor_graph 2 [2%nat]) by (vm_compute; reflexivity).
  assert (L : t_input_leaf floor_graph 0) by (eexists; split; [reflexivity|split; reflexivity]).
  assert (M : matters floor_graph [2] 0).
  { exists 2. split; [left; reflexivity|]. split; [eexists; split; reflexivity|]. split; [eexists; split; reflexivity|].
    exists [(2, 0)]. econstructor; [|exact I| |constructor]; [eexists; eexists; split; [reflexivity|split; reflexivity]|eexists; split; reflexivity]. }
  assert (N : ~ flows floor_graph [2] 0).
  { intros (y & es & [<-|[]] & _ & P). inversion P as [|? p z es' ? _ (n & Hn & Hc) _ _]; subst. cbn in Hn. injection Hn as <-. discriminate. }
  repeat (split; [assumption|]). intros pop debug fuel Hp Hf.
  apply (C74_grad_panics_iff pop debug fuel floor_ls [2] [0] floor_graph W Hp).
  - intros y [<-|[]]. split; [exact F|eauto].
  - discriminate.
  - constructor; [intros []|constructor].
  - intros x [<-|[]]. exact L.
  - cbn. lia.
  - cbn. lia.
  - vm_compute. discriminate.
  - intros _ z n _ Hz. destruct z as [|[|[|z]]]; cbn in Hz; try (injection Hz as <-; reflexivity). destruct z; discriminate.
  - exists 0. split; [left; reflexivity|auto].
Qed.
Print Assumptions C74_gradient_of_floor_panics.

(** The layer of Tens_Examples with respect to its weights and its bias. *)
Lemma net_no_comparison z n : nth_error net_graph z = Some n -> comparison (n_op n) = false.
Proof.
  intros Hz. assert (B : on_nodes net_graph (fun _ n => negb (comparison (n_op n))) = true) by (vm_compute; reflexivity).
  apply (on_nodes_sound _ _ B) in Hz. apply negb_true_iff in Hz. exact Hz.
Qed.
(** A path written out: checked by computation. *)
Fixpoint flow_b (g : tgraph) (y : nat) (es : list (nat * nat)) (x : nat) : bool :=
  match es with
  | [] => (y =? x)%nat
  | (z, p) :: es => (z =? y)%nat &&
      match nth_error g y with
      | Some n => carries (n_op n) p && match nth_error (get_backprop_inputs n) p with
        | Some i => match nth_error g (in_id i) with Some m => n_diff m | None => false end && flow_b g (in_id i) es x
        | None => false end
      | None => false end
  end.
Lemma flow_b_sound g x : forall es y, flow_b g y es x = true -> path g (carrying g) y es x.
Proof.
  induction es as [|[z p] es IH]; intros y; cbn; intros H.
  - apply Nat.eqb_eq in H. subst. constructor.
  - apply andb_prop in H. destruct H as [Hz H]. apply Nat.eqb_eq in Hz. subst z.
    destruct (nth_error g y) as [n|] eqn:Hn; [|discriminate]. apply andb_prop in H. destruct H as [Hc H].
    destruct (nth_error (get_backprop_inputs n) p) as [i|] eqn:Hi; [|discriminate]. apply andb_prop in H. destruct H as [Hd H].
    destruct (nth_error g (in_id i)) as [m|] eqn:Hm; [|discriminate].
    apply path_cons with (z := in_id i); [exists n, i; auto|exists n; auto|exists m; auto|apply IH; exact H].
Qed.
Lemma path_any {O} (g : graph O) (ok ok' : nat -> nat -> Prop) : (forall y p, ok y p -> ok' y p) ->
  forall y es x, path g ok y es x -> path g ok' y es x.
Proof. intros H y es x P. induction P; [constructor|econstructor; eauto]. Qed.
Lemma flows_matters g ys x : differentiable g x -> flows g ys x -> matters g ys x.
Proof.
  intros Hx (y & es & Hy & Hd & P). exists y. split; [exact Hy|]. split; [exact Hd|]. split; [exact Hx|].
  exists es. revert P. apply path_any. intros; exact I.
Qed.
Lemma net_flows x : In x [1; 2] -> flows net_graph [net_y] x.
Proof.
  intros Hx. destruct Hx as [<-|[<-|[]]].
  - exists net_y, [(12, 0); (9, 0); (8, 0); (7, 0); (3, 1)]%nat. split; [left; reflexivity|].
    split; [eexists; split; [vm_compute; reflexivity|reflexivity]|]. apply flow_b_sound. vm_compute. reflexivity.
  - exists net_y, [(12, 0); (9, 0); (8, 0); (7, 1)]%nat. split; [left; reflexivity|].
    split; [eexists; split; [vm_compute; reflexivity|reflexivity]|]. apply flow_b_sound. vm_compute. reflexivity.
Qed.
Example C74_hypotheses_met :
  twf net_ls net_graph /\ (forall g : tgraph, heap_pop g (max_pop g)) /\ fits net_ls net_graph net_y /\ shaped net_ls net_graph net_y [2%nat] /\
  (forall x, In x [1; 2] -> t_input_leaf net_graph x) /\
  2 * (2 * 1 + backprop_edges net_graph) < 200 /\ length net_graph + 1 < 200 /\
  (N.of_nat (67 * (length net_graph + 1) + 4 * 2) <= 499998)%N /\
  (forall z n, between net_graph [net_y] [1; 2] z -> nth_error net_graph z = Some n -> comparison (n_op n) = false) /\
  (forall x, In x [1; 2] -> matters net_graph [net_y] x /\ flows net_graph [net_y] x) /\
  (forall rho x, t_smooth net_ls net_graph rho x net_y) /\
  (forall rho, t_leaf_values net_graph [] (map (fun i => TA (rho i)) (seq 0 3)) rho) /\
  (2 * (1 + edge_count net_graph) < 200)%nat.
Proof.
  split; [exact net_twf|]. split; [intros; apply max_pop_ok|]. split; [exact net_fits|]. split; [exact net_shaped|].
  assert (X : forall x, In x [1; 2] -> t_input_leaf net_graph x).
  { intros x [<-|[<-|[]]]; (eexists; split; [vm_compute; reflexivity|split; reflexivity]). }
  split; [exact X|].
  split; [vm_compute; lia|]. split; [vm_compute; lia|]. split; [vm_compute; discriminate|].
  split; [intros z n _; apply net_no_comparison|].
  split; [intros x Hx; split; [apply flows_matters|]; try (apply net_flows; exact Hx)|].
  - destruct Hx as [<-|[<-|[]]]; (eexists; split; [vm_compute; reflexivity|reflexivity]).
  - split; [exact net_smooth|]. split; [intros rho; apply var_leaves_sound; vm_compute; reflexivity|vm_compute; lia].
Qed.
