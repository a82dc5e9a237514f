(** Array graphs: when [grad] returns. *)
From Coq Require Import String List Arith ZArith NArith Bool Lia Reals Relations.
Import ListNotations.
From Verif Require Import Graph_Model Eval_Model Eval_Spec Eval_Proofs Graph_Proofs Grad_Model Grad_Spec
  Grad_Path_Proofs Grad_Proofs Grad_Final Grad_Frame Grad_Room Scalar_Model Scalar_Spec Scalar_Proofs Scalar_Grad Var_Model Helper_Model Helper_Proofs.
From Verif Require Import Array_Model Array_Proofs Vjp_Spec Tens_Model Tens_Spec Tens_Fwd Tens_Build Tens_Lax Tens_Grad Tens_Final
  Helper_Tens Returns_Spec Tens_Total Tens_New.
Local Set Bullet Behavior "Strict Subproofs".

Lemma carrying_prefix ls (g g' : tgraph) y x : twf ls g' -> grows g g' -> (y < length g)%nat ->
  forall es, path g' (carrying g') y es x <-> path g (carrying g) y es x.
Proof.
  intros W [new ->] Hy es. split; intros Hp.
  - induction Hp as [y|y p z es x He Ho Hd Hp IH]; [constructor|].
    pose proof (t_edge ls _ _ _ _ W He) as Hlt. destruct He as (n & inc & Hn & Hi). rewrite nth_error_app1 in Hn by lia.
    destruct Hd as (m & Hm & Hd). rewrite nth_error_app1 in Hm by lia.
    destruct Ho as (k & Hk & Hc). rewrite nth_error_app1 in Hk by lia.
    econstructor; [exists n, inc; eauto|exists k; auto|exists m; auto|]. apply IH. lia.
  - clear Hy. induction Hp as [y|y p z es x He Ho Hd Hp IH]; [constructor|].
    destruct He as (n & inc & Hn & Hi). destruct Hd as (m & Hm & Hd). destruct Ho as (k & Hk & Hc).
    econstructor; [| | |exact IH].
    + exists n, inc. split; auto. rewrite nth_error_app1; auto. apply nth_error_Some. congruence.
    + exists k. split; auto. rewrite nth_error_app1; auto. apply nth_error_Some. congruence.
    + exists m. split; auto. rewrite nth_error_app1; auto. apply nth_error_Some. congruence.
Qed.

Section Sums.
  Variable ls : nat -> list nat.
  Variables g g' : tgraph.
  Variables losses ys : list nat.
  Hypothesis W : twf ls g'.
  Hypothesis G : grows g g'.
  Hypothesis Hlt : forall y, In y losses -> (y < length g)%nat.
  Hypothesis HF : Forall2 (fun y y' => (length g <= y')%nat /\ exists n, nth_error g' y' = Some n /\ t_sum_node y n) losses ys.

  Lemma sum_edge y y' n p z : nth_error g' y' = Some n -> t_sum_node y n -> edge g' y' p z -> z = y /\ p = 0%nat.
  Proof.
    intros Hn (So & Si & Sd) (n' & inc & Hn' & Hi & <-). assert (n' = n) by congruence. subst n'.
    unfold get_backprop_inputs in Hi. rewrite (twf_backprop ls g' W _ _ Hn), Si in Hi.
    destruct p as [|p]; [injection Hi as <-; auto|destruct p; discriminate].
  Qed.

  Lemma sums_flow x : ~ In x ys -> (flows g' ys x <-> flows g losses x).
  Proof.
    intros Hx. split.
    - intros (y' & es & Hy' & Hd & Hp). pose proof Hy' as Hin. apply In_nth_error in Hy'. destruct Hy' as (k & Hk).
      destruct (Forall2_nth2 _ _ _ _ _ HF Hk) as (y & Hy & Hle & n & Hn & Hs). apply nth_error_In in Hy.
      inversion Hp as [|? p z es' ? He _ Hz Hp']; subst; [contradiction|].
      destruct (sum_edge y y' n p z Hn Hs He) as [-> ->]. pose proof (Hlt y Hy) as Hyl.
      apply (carrying_prefix ls g g' y x W G Hyl) in Hp'. exists y, es'. split; [exact Hy|]. split; [|exact Hp'].
      destruct G as [new ->]. apply (differentiable_prefix g new); auto.
    - intros (y & es & Hy & Hd & Hp). apply In_nth_error in Hy. destruct Hy as (k & Hk). pose proof (Hlt y (nth_error_In _ _ Hk)) as Hyl.
      destruct (Forall2_nth _ _ _ _ _ HF Hk) as (y' & Hy' & Hle & n & Hn & Hs).
      apply (carrying_prefix ls g g' y x W G Hyl) in Hp. destruct Hs as (So & Si & Sd).
      exists y', ((y', 0%nat) :: es). split; [eapply nth_error_In; eauto|]. split; [exists n; auto|].
      econstructor; [| | |exact Hp].
      + exists n, (Incoming y false 0). split; [exact Hn|]. unfold get_backprop_inputs. rewrite (twf_backprop ls g' W _ _ Hn), Si. auto.
      + exists n. split; auto. rewrite So. reflexivity.
      + destruct Hd as (m & Hm & Hd). exists m. split; auto. eapply grows_nth; eauto.
  Qed.

  Lemma sums_between xs z : In z ys \/ between g' ys xs z ->
    (exists y n, nth_error g' z = Some n /\ t_sum_node y n) \/ ((z < length g)%nat /\ between g losses xs z).
  Proof.
    assert (Q : forall z, In z ys -> exists y n, nth_error g' z = Some n /\ t_sum_node y n).
    { intros w Hz. apply In_nth_error in Hz. destruct Hz as (k & Hk).
      destruct (Forall2_nth2 _ _ _ _ _ HF Hk) as (y & _ & _ & n & Hn & Hs). eauto. }
    intros [Hz|((y' & Hy' & Hdy & Hdz & es & Hp) & x & Hx & Hr)]; [left; auto|].
    apply In_nth_error in Hy'. destruct Hy' as (k & Hk).
    destruct (Forall2_nth2 _ _ _ _ _ HF Hk) as (y & Hy & Hle & n & Hn & Hs). apply nth_error_In in Hy.
    inversion Hp as [|? p w es' ? He _ Hw Hp']; subst; [left; eauto|]. right.
    destruct (sum_edge y y' n p w Hn Hs He) as [-> ->]. pose proof (Hlt y Hy) as Hyl.
    assert (Hrz : reaches g' y z) by (exists es'; exact Hp').
    pose proof (reaches_le ls g' y z W Hrz) as Hzy. assert (Hzl : (z < length g)%nat) by lia. split; [exact Hzl|].
    pose proof (reaches_le ls g' z x W Hr) as Hxz.
    apply (reaches_prefix ls g g' y z W G Hyl) in Hrz. apply (reaches_prefix ls g g' z x W G Hzl) in Hr.
    destruct G as [new ->]. split; [|exists x; auto]. exists y. split; auto.
    split; [apply (differentiable_prefix g new); auto|]. split; [apply (differentiable_prefix g new); auto|auto].
  Qed.
End Sums.

Lemma sum_alls_total : forall ys s, length s + length ys <= node_limit -> exists ys' s', t_sum_alls ys s = Some (ys', s').
Proof.
  induction ys as [|y ys IH]; intros s Hl; cbn [t_sum_alls].
  - eexists. eexists. reflexivity.
  - cbn [length] in Hl. destruct (most_mk [y] None true TSumAll s 1) as (t & s1 & E & L1 & L2 & _); [lia|lia|].
    unfold tbind. change (a_sum_all y s) with (tmk [y] None true TSumAll s). rewrite E.
    destruct (IH s1) as (l & s2 & E2); [lia|]. rewrite E2. eexists. eexists. reflexivity.
Qed.
Lemma sum_alls_size : forall ys s ys' s', t_sum_alls ys s = Some (ys', s') ->
  length ys' = length ys /\ length s' = length s + length ys /\ backprop_edges s' = backprop_edges s + length ys.
Proof.
  induction ys as [|y ys IH]; intros s ys' s' H; cbn [t_sum_alls] in H; [inv H; simpl; lia|].
  unfold tbind in H. destruct (a_sum_all y s) as [[t s0]|] eqn:E; [|discriminate].
  destruct (t_sum_alls ys s0) as [[l s1]|] eqn:E0; [|discriminate]. inv H.
  apply IH in E0. unfold a_sum_all, tmk in E. destruct (build s _ TSumAll) as [[s2 id]|] eqn:Hb; [|discriminate]. inv E.
  apply build_spec in Hb. destruct Hb as (-> & _ & ->). cbn [length]. destruct E0 as (A & B & C). rewrite B, C.
  unfold backprop_edges. rewrite map_app, list_sum_app, app_length. cbn. lia.
Qed.

(** ** [grad] *)
Section Grad.
  Variable lax : bool.
  Variable pop : tgraph -> list nat -> option (nat * list nat).
  Hypothesis Hpop : forall g, heap_pop g (pop g).
  Variable debug : bool.
  Variable ls : nat -> list nat.
  Variable g : tgraph.
  Variables ys xs : list nat.
  Hypothesis SW : sound lax ls g.
  Hypothesis Hys : forall y, In y ys -> usesx lax ls g y /\ exists sh, shaped ls g y sh.
  Hypothesis Nxs : NoDup xs.
  Hypothesis Hxs : forall x, In x xs -> t_input_leaf g x.

  Section With.
    Variables (ys' : list nat) (g1 : tgraph).
    Hypothesis SW1 : sound lax ls g1.
    Hypothesis G1 : grows g g1.
    Hypothesis ND : NoDup ys'.
    Hypothesis HF : Forall2 (fun y y' => (length g <= y')%nat /\ typed ls g1 y' (TyA []) /\
                       exists n, nth_error g1 y' = Some n /\ t_sum_node y n) ys ys'.
    Variable vs : list nat.
    Hypothesis Nvs : NoDup vs.
    Hypothesis Hvs : forall x, In x vs -> t_input_leaf g1 x /\ ~ In x ys'.

    Lemma w_lt y : In y ys -> (y < length g)%nat.
    Proof. intros Hy. destruct (Hys y Hy) as (_ & sh & T). eapply typed_lt; exact T. Qed.
    Lemma w_sums : Forall2 (fun y y' => (length g <= y')%nat /\ exists n, nth_error g1 y' = Some n /\ t_sum_node y n) ys ys'.
    Proof. eapply Forall2_imp; [|exact HF]. simpl. tauto. Qed.
    Lemma w_ys y' : In y' ys' -> differentiable g1 y' /\ usesx lax ls g1 y' /\ typed ls g1 y' (TyA []) /\
      forall n, nth_error g1 y' = Some n -> n_inputs n <> [].
    Proof.
      intros Hy'. apply In_nth_error in Hy'. destruct Hy' as (k & Hk).
      destruct (Forall2_nth2 _ _ _ _ _ HF Hk) as (y & Hy & Hle & N & n & Hn & Hsn). apply nth_error_In in Hy.
      split; [exists n; split; auto; apply Hsn|]. split; [eapply (usesx_sum lax ls g g1 y y' n); eauto|split; [exact N|]].
      - exact (proj1 SW).
      - apply w_lt; auto.
      - apply Hys; auto.
      - intros n' Hn'. assert (n' = n) by congruence. subst n'. destruct Hsn as (_ & -> & _). discriminate.
    Qed.
    Lemma w_vs x : In x vs -> usesx lax ls g1 x /\ exists sh, typed ls g1 x (TyA sh).
    Proof.
      intros Hx. destruct (Hvs x Hx) as (HL & _). destruct (t_leaf_facts ls g1 x (proj1 SW1) HL) as (_ & T & _ & F).
      split; [apply fits_usesx; exact F|eauto].
    Qed.
    Lemma w_acc x : In x vs -> accum_once g1 ys' x.
    Proof.
      intros Hx. destruct (Hvs x Hx) as ((n & Hn & Ho & _) & Hni). left. split; [|exact Hni]. exists n. split; auto.
      apply (twf_leaf ls g1 (proj1 SW1) x n Hn Ho).
    Qed.
    Lemma w_reached x : In x vs -> (differentiable g1 x /\ (exists y, In y ys' /\ reaches g1 y x)) <-> matters g ys x.
    Proof.
      intros Hx. destruct (Hvs x Hx) as (_ & Hni).
      apply (sums_reached ls g g1 ys ys' x (proj1 SW1) G1 w_lt w_sums Hni).
    Qed.

    Theorem w_returns fuel :
      ys <> [] -> enough_fuel g1 ys' fuel -> length g1 + 3 + 66 * length g1 + 4 * length vs <= node_limit ->
      (debug = true -> forall z n, between g ys vs z -> nth_error g z = Some n -> comparison (n_op n) = false) ->
      (forall x, In x vs -> matters g ys x -> flows g ys x) ->
      exists l s' log, t_grad_with_default pop debug fuel ys' vs None g1 = Ok (l, s', log).
    Proof.
      intros Hne Hf Hsz Hdb Hfl. unfold t_grad_with_default. pose proof (proj1 SW1) as W1.
      apply (a_returns lax ls g1 SW1 (pop g1) (Hpop g1) debug ys' vs); auto.
      - intros y Hy. destruct (w_ys y Hy) as (A & B & C & _). eauto.
      - intros y n Hy. apply (w_ys y Hy).
      - apply w_vs.
      - apply w_acc.
      - intros E z n Hz Hn. destruct (sums_between ls g g1 ys ys' W1 G1 w_lt w_sums vs z Hz) as [(y & n' & Hn' & Hs)|(Hzl & Hb)].
        + assert (n' = n) by congruence. subst n'. destruct Hs as (-> & _). reflexivity.
        + eapply (Hdb E z); eauto. destruct G1 as [new ->]. rewrite nth_error_app1 in Hn; auto.
      - intros ->. inversion HF; subst. congruence.
      - split; [exact SW1|apply grows_refl].
      - intros y Hy. apply (w_ys y Hy).
      - intros x Hx Hd Hr. destruct (Hvs x Hx) as (_ & Hni). apply (sums_flow ls g g1 ys ys' W1 G1 w_lt w_sums x Hni).
        apply Hfl; auto. apply w_reached; auto.
    Qed.
    Theorem w_only_if fuel l s' log :
      t_grad_with_default pop debug fuel ys' vs None g1 = Ok (l, s', log) ->
      forall x, In x vs -> matters g ys x -> flows g ys x.
    Proof.
      intros E x Hx Hm. pose proof (proj1 SW1) as W1. destruct (Hvs x Hx) as (_ & Hni).
      apply (sums_flow ls g g1 ys ys' W1 G1 w_lt w_sums x Hni). apply (w_reached x Hx) in Hm. destruct Hm as [Hd Hr].
      eapply (a_only_if lax ls g1 SW1 (pop g1) (Hpop g1) debug ys' vs) with (gys := None) (s := g1); eauto using w_vs.
      - intros y Hy. destruct (w_ys y Hy) as (A & B & C & _). eauto.
      - split; [exact SW1|apply grows_refl].
      - intros y Hy. apply (w_ys y Hy).
    Qed.
    Theorem w_terminates fuel : enough_fuel g1 ys' fuel -> t_grad_with_default pop debug fuel ys' vs None g1 <> OutOfFuel.
    Proof.
      intros Hf. apply (a_terminates lax ls g1 SW1 (pop g1) (Hpop g1) debug ys' vs); auto using w_vs.
      - intros y Hy. destruct (w_ys y Hy) as (A & B & C & _). eauto.
      - split; [exact SW1|apply grows_refl].
      - intros y Hy. apply (w_ys y Hy).
    Qed.
  End With.

  Theorem grad_returns_iff fuel :
    ys <> [] -> 2 * (2 * length ys + backprop_edges g) < fuel -> length g + length ys < fuel ->
    67 * (length g + length ys) + 4 * length xs + 3 <= node_limit ->
    (debug = true -> forall z n, between g ys xs z -> nth_error g z = Some n -> comparison (n_op n) = false) ->
    ((exists l g' log, t_grad pop debug fuel ys xs g = Ok (l, g', log)) <-> forall x, In x xs -> matters g ys x -> flows g ys x) /\
    (t_grad pop debug fuel ys xs g <> OutOfFuel).
  Proof.
    intros Hne Hf1 Hf2 Hsz Hdb. unfold t_grad.
    destruct (sum_alls_total ys g) as (ys' & g1 & Hsum); [lia|]. rewrite Hsum. pose proof (proj1 SW) as W.
    destruct (t_sum_alls_spec ls ys g ys' g1 W) as (W1 & G1 & ND & HF); auto.
    { apply Forall_forall. intros y Hy. apply (Hys y Hy). }
    destruct (sum_alls_size ys g ys' g1 Hsum) as (L1 & L2 & L3).
    assert (SW1 : sound lax ls g1).
    { split; [exact W1|]. intros Hl. eapply t_sum_alls_attached; [exact (proj2 SW Hl)|exact Hsum]. }
    assert (HF' : Forall2 (fun y y' => (length g <= y')%nat /\ typed ls g1 y' (TyA []) /\
                       exists n, nth_error g1 y' = Some n /\ t_sum_node y n) ys ys').
    { eapply Forall2_imp; [|exact HF]. simpl. tauto. }
    assert (Hvs : forall x, In x xs -> t_input_leaf g1 x /\ ~ In x ys').
    { intros x Hx. destruct (Hxs x Hx) as (n & Hn & A & B). split.
      + exists n. split; [eapply grows_nth; eauto|auto].
      + intros Hin. apply In_nth_error in Hin. destruct Hin as (k & Hk).
        destruct (Forall2_nth2 _ _ _ _ _ HF Hk) as (y & Hy & Hle & _).
        assert (x < length g)%nat by (apply nth_error_Some; congruence). lia. }
    split; [|apply (w_terminates ys' g1); auto; split; lia]. split.
    - intros (l & g' & log & E). eapply (w_only_if ys' g1); eauto.
    - intros H. apply (w_returns ys' g1); auto.
      + split; lia.
      + lia.
  Qed.
End Grad.

(** ** [grad_helper] *)
Lemma all_reached_flags {O S T} (g : graph O) (opgrad : nat -> T -> S -> option (list (option T) * S)) addn one zeros_like pop debug fuel ys vs s l s' log :
  ranked g -> (forall y, In y ys -> differentiable g y) -> (forall x, In x vs -> reached g ys x) ->
  grad_with_default g opgrad addn one zeros_like pop debug fuel ys vs None s = Ok (l, s', log) ->
  exists ts, l = map (fun t => (t, true)) ts.
Proof.
  intros Hrk Hys Hr H. unfold grad_with_default in H. destruct (no_outputs ys); [discriminate|].
  destruct (compute_gradients g opgrad addn one pop debug fuel ys vs None s) as [st| |] eqn:Ec; try discriminate.
  destruct (extract_all addn zeros_like vs (gs_map st) (gs_s st)) as [[l' s2]|] eqn:He; [|discriminate]. inv H.
  assert (Hf : filter (flag (gs_map st)) vs = vs).
  { pose proof (gradients_flag g opgrad addn one pop debug fuel ys vs None s st Hrk Hys Ec) as Hfl.
    assert (Q : forall x, In x vs -> flag (gs_map st) x = true) by (intros x Hx; apply Hfl; auto).
    clear -Q. induction vs as [|x vs IH]; [reflexivity|]. simpl. rewrite Q by (simpl; auto). f_equal. apply IH. intros z Hz. apply Q. simpl; auto. }
  pose proof (extract_vars_all addn zeros_like vs (gs_map st) (gs_s st)) as He'. rewrite Hf, He in He'.
  destruct (extract_vars addn vs (gs_map st) (gs_s st)) as [[[vs0 ts] s0]|]; [|discriminate].
  destruct He' as [_ E]. injection E as -> _. eauto.
Qed.

Lemma var_tensors_total : forall ents (c : context top), length (c_graph c) + length ents <= node_limit ->
  exists c' l, var_tensors TLeaf c ents = Some (c', l).
Proof.
  induction ents as [|ent ents IH]; intros c Hl; cbn [var_tensors]; [eauto|]. cbn [length] in Hl.
  unfold variable_by_id. destruct (find_var (snd ent) (c_vars c)) as [t|].
  - destruct (IH c) as (c' & l & ->); [lia|]. eauto.
  - unfold build, install. rewrite limit_ok by lia.
    match goal with |- context [var_tensors TLeaf ?c1 ents] => destruct (IH c1) as (c' & l & ->) end; [|eauto].
    cbn [c_graph]. rewrite app_length. simpl. lia.
Qed.
Lemma var_tensors_new : forall ents (c c' : context top) l, var_tensors TLeaf c ents = Some (c', l) ->
  length (c_graph c') <= length (c_graph c) + length ents /\ length l = length ents /\
  backprop_edges (c_graph c') = backprop_edges (c_graph c) /\
  forall vid t, find_var vid (c_vars c') = Some t -> find_var vid (c_vars c) = Some t \/ length (c_graph c) <= t.
Proof.
  induction ents as [|ent ents IH]; intros c c' l H; cbn [var_tensors] in H.
  - injection H as <- <-. simpl. repeat (split; [lia|]). auto.
  - destruct (variable_by_id TLeaf c (snd ent)) as [[c1 t]|] eqn:E; [|discriminate].
    destruct (var_tensors TLeaf c1 ents) as [[c2 l']|] eqn:E2; [|discriminate]. injection H as <- <-.
    destruct (IH _ _ _ E2) as (A & B & C & D). cbn [length].
    assert (X : length (c_graph c) <= length (c_graph c1) <= length (c_graph c) + 1 /\ backprop_edges (c_graph c1) = backprop_edges (c_graph c) /\
      forall vid t, find_var vid (c_vars c1) = Some t -> find_var vid (c_vars c) = Some t \/ length (c_graph c) <= t).
    { unfold variable_by_id in E. destruct (find_var (snd ent) (c_vars c)) as [t0|] eqn:Ef.
      - injection E as <- <-. split; [lia|auto].
      - destruct (build (c_graph c) _ TLeaf) as [[g1 id]|] eqn:Eb; [|discriminate]. injection E as <- <-.
        apply build_spec in Eb. destruct Eb as (-> & _ & ->). cbn [c_graph c_vars]. split; [rewrite app_length; simpl; lia|]. split.
        + unfold backprop_edges. rewrite map_app, list_sum_app. cbn. lia.
        + intros vid t Hf. rewrite find_var_cons in Hf. destruct (Nat.eqb_spec (snd ent) vid) as [<-|Hne]; [injection Hf as <-; right; lia|auto]. }
    destruct X as (X1 & X2 & X3). split; [lia|]. split; [lia|]. split; [lia|].
    intros vid t' Hf. destruct (D vid t' Hf) as [Hf'|Hf']; [auto|right; lia].
Qed.

Lemma chosen_exists {X} (P : X -> Prop) xs : exists vs, chosen P xs vs.
Proof.
  induction xs as [|x xs (vs & H)]; [exists []; constructor|].
  destruct (Classical_Prop.classic (P x)) as [Hp|Hp]; [exists (x :: vs); constructor; auto|exists vs; constructor 3; auto].
Qed.

Theorem helper_returns_iff {X} lax pop debug fuel ls losses (e : env X) ns (c : context top) :
  sound lax ls (c_graph c) -> var_leaves c -> (forall g, heap_pop g (pop g)) ->
  (forall y, In y losses -> usesx lax ls (c_graph c) y /\ exists sh, shaped ls (c_graph c) y sh) ->
  NoDup (current_var_ids e ns) -> losses <> [] ->
  2 * (2 * length losses + backprop_edges (c_graph c)) < fuel ->
  length (c_graph c) + length losses + length (current_var_ids e ns) < fuel ->
  67 * (length (c_graph c) + length losses) + 71 * length (current_var_ids e ns) + 3 <= node_limit ->
  (debug = true -> forall y z n, In y losses -> reaches (c_graph c) y z -> nth_error (c_graph c) z = Some n -> comparison (n_op n) = false) ->
  ((exists vs ts c' log, t_grad_helper pop debug fuel losses e ns c = Ok (vs, ts, c', log)) <->
   forall vid t, In vid (current_var_ids e ns) -> find_var vid (c_vars c) = Some t ->
     matters (c_graph c) losses t -> flows (c_graph c) losses t).
Proof.
  intros SW V Hpop Hl Hnd Hne Hf1 Hf2 Hsz Hdb. pose proof (proj1 SW) as W. unfold t_grad_helper, grad_helper.
  assert (Hent : length (in_namespace ns (name_to_id e)) = length (current_var_ids e ns)) by (unfold current_var_ids; rewrite map_length; reflexivity).
  destruct (sum_alls_total losses (c_graph c)) as (ys & g1 & Hsum); [lia|].
  destruct losses as [|y0 losses0]; [congruence|]. set (losses := y0 :: losses0) in *. rewrite Hsum.
  destruct (t_sum_alls_spec ls losses (c_graph c) ys g1 W) as (W1 & G1 & ND & HF); auto.
  { apply Forall_forall. intros y Hy. apply (Hl y Hy). }
  destruct (sum_alls_size losses (c_graph c) ys g1 Hsum) as (L1 & L2 & L3).
  assert (Hlt : forall y, In y losses -> (y < length (c_graph c))%nat).
  { intros y Hy. destruct (Hl y Hy) as (_ & sh & T). eapply typed_lt; exact T. }
  assert (SW1 : sound lax ls g1).
  { split; [exact W1|]. intros Hlx. eapply t_sum_alls_attached; [exact (proj2 SW Hlx)|exact Hsum]. }
  destruct (var_tensors_total (in_namespace ns (name_to_id e)) (Context g1 (c_vars c))) as (c2 & l & Hvt); [cbn [c_graph]; lia|].
  unfold var_tensors_by_name. rewrite Hvt.
  assert (Vg : var_leaves (Context g1 (c_vars c))).
  { intros vid t Hf. destruct (V vid t Hf) as (n & Hn & Hr). exists n. split; [|exact Hr]. eapply grows_nth; [exact G1|exact Hn]. }
  destruct (var_tensors_tens ls lax (in_namespace ns (name_to_id e)) (Context g1 (c_vars c)) c2 l SW1 Vg Hvt) as (SW2 & G2 & V2 & F2 & HT).
  destruct (var_tensors_new _ _ _ _ Hvt) as (N1 & N2 & N3 & N4).
  cbn [c_graph c_vars] in G2, F2, N1, N3, N4. pose proof (proj1 SW2) as W2. set (g2 := c_graph c2) in *.
  assert (G : grows (c_graph c) g2) by (eapply grows_trans; eauto).
  assert (HF2 : Forall2 (fun y y' => (length (c_graph c) <= y')%nat /\ typed ls g2 y' (TyA []) /\ exists n, nth_error g2 y' = Some n /\ t_sum_node y n) losses ys).
  { eapply Forall2_imp; [|exact HF]. simpl. intros a b (A1 & A2 & _ & n & Hn & Hsn). split; [exact A1|].
    split; [eapply (grows_typed ls g1 g2); eauto|]. exists n. split; [exact (grows_nth g1 g2 b n G2 Hn)|exact Hsn]. }
  assert (Hsn : forall y', In y' ys -> exists y n, In y losses /\ nth_error g2 y' = Some n /\ t_sum_node y n).
  { intros y' Hy'. apply In_nth_error in Hy'. destruct Hy' as (k & Hk).
    destruct (Forall2_nth2 _ _ _ _ _ HF2 Hk) as (y & Hy & _ & _ & n & Hn & Hs). exists y, n. split; auto. eapply nth_error_In; eauto. }
  assert (Hydiff : forall y', In y' ys -> differentiable g2 y').
  { intros y' Hy'. destruct (Hsn y' Hy') as (y & n & _ & Hn & _ & _ & Hd). exists n. auto. }
  assert (Hxs : forall x, In x (map snd l) -> t_input_leaf g2 x /\ ~ In x ys).
  { intros x Hx. apply in_map_iff in Hx. destruct Hx as (r & <- & Hr). apply In_nth_error in Hr. destruct Hr as (k & Hk).
    destruct (Forall2_nth2 _ _ _ _ _ HT Hk) as (ent & _ & _ & Hf). destruct (V2 _ _ Hf) as (n & Hn & Ho & Hd & _).
    split; [exists n; auto|]. intros Hin. destruct (Hsn _ Hin) as (y & n' & _ & Hn' & So & _). assert (n' = n) by (unfold g2 in Hn'; congruence). subst n'. congruence. }
  assert (Hids : Forall2 (fun vid t => find_var vid (c_vars c2) = Some t) (current_var_ids e ns) (map snd l)).
  { unfold current_var_ids. clear -HT. induction HT as [|ent r ents l (_ & Hf) _ IH]; simpl; constructor; auto. }
  assert (Nxs : NoDup (map snd l)).
  { clear -Hids Hnd V2. induction Hids as [|vid t vids tids Hf HR IH]; [constructor|].
    inversion Hnd as [|? ? Hni Hnd']; subst. constructor; [|auto]. intros Hin. apply Hni.
    apply In_nth_error in Hin. destruct Hin as (k & Hk).
    destruct (Forall2_nth2 _ _ _ _ _ HR Hk) as (vid' & Hv' & Hf').
    destruct (V2 _ _ Hf) as (n & Hn & _ & _ & Hv). destruct (V2 _ _ Hf') as (n' & Hn' & _ & _ & Hv2).
    assert (vid' = vid) by congruence. subst vid'. eapply nth_error_In; eauto. }
  assert (Hyne : ys <> []) by (intros ->; inversion HF2).
  assert (Hrk : ranked g2) by apply (a_ranked ls g2 W2).
  destruct (chosen_exists (reached g2 ys) (map snd l)) as (vs & Hch).
  assert (Hin : forall x, In x vs -> In x (map snd l) /\ reached g2 ys x) by (intros x Hx; apply (chosen_in _ _ _ x Hch) in Hx; tauto).
  assert (Nvs : NoDup vs) by (eapply chosen_nodup; eauto).
  assert (Hvs : forall x, In x vs -> t_input_leaf g2 x /\ ~ In x ys) by (intros x Hx; apply Hxs; apply (Hin x Hx)).
  assert (Lvs : length vs <= length (current_var_ids e ns)).
  { rewrite (Forall2_len _ _ _ Hids). apply NoDup_incl_length; auto. intros x Hx. apply (Hin x Hx). }
  assert (Hm : forall x, In x vs -> matters (c_graph c) losses x).
  { intros x Hx. destruct (Hin x Hx) as [Ha Hb].
    apply (w_reached lax ls (c_graph c) losses Hl ys g2 SW2 G HF2 vs Hvs x Hx). exact Hb. }
  transitivity (forall x, In x vs -> matters (c_graph c) losses x -> flows (c_graph c) losses x).
  - split.
    + intros (vs0 & ts & c' & log & H).
      match type of H with match ?d with _ => _ end = _ => destruct d as [[[[vs1 ts0] g'] log0]| |] eqn:Hdv; try discriminate end.
      apply (diff_vars_grad g2 (t_opgrad g2) a_add_n (a_scalar 1) a_zeros_like (pop g2) debug fuel ys (map snd l) g2 vs1 ts0 g' log0 Hyne Hrk Hydiff) in Hdv.
      destruct Hdv as [Hch' Hgr]. assert (vs1 = vs) by (eapply chosen_fun; eauto). subst vs1.
      eapply (w_only_if lax pop Hpop debug ls (c_graph c) losses SW Hl ys g2 SW2 G ND HF2 vs Hvs). exact Hgr.
    + intros Hfl. destruct (w_returns lax pop Hpop debug ls (c_graph c) losses SW Hl ys g2 SW2 G ND HF2 vs Nvs Hvs fuel) as (r & g' & log & Hgr); auto.
      * split; lia.
      * lia.
      * intros E z n ((y & Hy & _ & _ & Hr) & _) Hz. eapply (Hdb E y z); eauto.
      * destruct (all_reached_flags g2 (t_opgrad g2) a_add_n (a_scalar 1) a_zeros_like (pop g2) debug fuel ys vs g2 r g' log Hrk Hydiff) as (ts & ->); auto.
        { intros x Hx. apply (Hin x Hx). }
        assert (Hdv : diff_vars g2 (t_opgrad g2) a_add_n (a_scalar 1) (pop g2) debug fuel ys (map snd l) g2 = Ok (vs, ts, g', log)).
        { apply (diff_vars_grad g2 (t_opgrad g2) a_add_n (a_scalar 1) a_zeros_like (pop g2) debug fuel ys (map snd l) g2 vs ts g' log Hyne Hrk Hydiff). split; auto. }
        exists vs, ts, (Context g' (c_vars c2)), log.
        match goal with |- match ?d with _ => _ end = _ => replace d with (Ok (vs, ts, g', log)) by (symmetry; exact Hdv) end. reflexivity.
  - split.
    + intros H vid t Hv Hf Hmt. apply H; [|exact Hmt]. apply (chosen_in _ _ _ t Hch).
      apply In_nth_error in Hv. destruct Hv as (k & Hk). destruct (Forall2_nth _ _ _ _ _ Hids Hk) as (t' & Ht' & Hf').
      assert (t' = t) by (rewrite (F2 _ _ Hf) in Hf'; congruence). subst t'. apply nth_error_In in Ht'. split; [exact Ht'|].
      apply (sums_reached ls (c_graph c) g2 losses ys t W2 G Hlt); auto.
      * eapply Forall2_imp; [|exact HF2]. simpl. tauto.
      * apply Hxs; auto.
    + intros H x Hx Hmx. destruct (Hin x Hx) as [Hxl _]. apply In_nth_error in Hxl. destruct Hxl as (k & Hk).
      destruct (Forall2_nth2 _ _ _ _ _ Hids Hk) as (vid & Hv & Hf). apply nth_error_In in Hv.
      destruct (N4 vid x Hf) as [Hf'|Hge]; [eapply H; eauto|].
      exfalso. destruct Hmx as (y & Hy & _ & _ & Hr). pose proof (reaches_le ls (c_graph c) y x W Hr). specialize (Hlt y Hy). lia.
Qed.

(** ** Everything together *)
Section Total.
  Variable lax : bool.
  Variable pop : tgraph -> list nat -> option (nat * list nat).
  Hypothesis Hpop : forall g, heap_pop g (pop g).

  Theorem gradients_total debug fuel ls g ys xs :
    sound lax ls g -> (forall y, In y ys -> usesx lax ls g y /\ exists sh, shaped ls g y sh) -> ys <> [] ->
    NoDup xs -> (forall x, In x xs -> t_input_leaf g x) ->
    2 * (2 * length ys + backprop_edges g) < fuel -> length g + length ys < fuel ->
    67 * (length g + length ys) + 4 * length xs + 3 <= node_limit ->
    (debug = true -> forall z n, between g ys xs z -> nth_error g z = Some n -> comparison (n_op n) = false) ->
    (forall x, In x xs -> matters g ys x -> flows g ys x) ->
    exists l g' log, t_grad pop debug fuel ys xs g = Ok (l, g', log) /\
      Forall2 (fun x r => forall debug2 feeds env rho fuel2,
        conform ls rho -> t_leaf_values g feeds env rho -> 2 * (1 + edge_count g') < fuel2 ->
        exists gx log2, eval tv_shape tens_compute debug2 g' feeds fuel2 [fst r] env = Ok (Outcome [inl (TA gx)] env log2) /\
          has_shape (ls x) gx /\
          forall v, has_shape (ls x) v -> (forall y, In y ys -> t_smooth ls g rho x y) ->
            derivable_pt_lim
              (fun t => fold_right Rplus 0%R (map (fun y => elements_sum (aval (put rho x (step (rho x) v t)) g y)) ys))
              0%R (dot gx v)) xs l.
  Proof.
    intros SW Hys Hne Nxs Hxs Hf1 Hf2 Hsz Hdb Hfl.
    destruct (proj2 (proj1 (grad_returns_iff lax pop Hpop debug ls g ys xs SW Hys Nxs Hxs fuel Hne Hf1 Hf2 Hsz Hdb)) Hfl) as (l & g' & log & E).
    exists l, g', log. split; [exact E|].
    destruct (tgrad_derivative_x lax pop debug fuel ys xs ls g l g' log SW Hpop Hys Nxs Hxs E) as ((W' & _) & _ & HR).
    eapply Forall2_imp; [|exact HR]. cbv beta. intros x r (Ht & Hd) debug2 feeds env rho fuel2 C HL Hf.
    destruct (eval_arrays lax ls g' (twf_loose ls g' W') debug2 feeds env rho C (leaf_values_grow g g' feeds env rho (tgrad_adds_ops _ _ _ _ _ _ _ _ _ E) HL)
                fuel2 [fst r]) as (log2 & Hev).
    - intros t [<-|[]]. eauto.
    - intros l1 t l2 El _ Hin. destruct l1 as [|a [|b l1]]; [injection El as _ <-; destruct Hin|discriminate|discriminate].
    - exact Hf.
    - exists (aval rho g' (fst r)), log2. split; [exact Hev|]. split; [apply (wtyped_aval ls lax rho g' _ _ C Ht)|].
      intros v Hv Hs. apply Hd; auto.
  Qed.
End Total.
