(** [grad_helper] on array graphs. *)
From Coq Require Import String List Arith ZArith Bool Reals Lra Lia Relations.
From Coquelicot Require Import Coquelicot.
Import ListNotations.
From Verif Require Import Graph_Model Eval_Model Eval_Spec Eval_Proofs Graph_Proofs Grad_Model Grad_Spec Grad_Proofs Grad_Path_Proofs
  Scalar_Model Scalar_Spec Scalar_Proofs Tens_Rules Var_Model Helper_Model Helper_Proofs.
From Verif Require Import Array_Model Array_Proofs Arith_Final Vjp_Spec Vjp_Proofs Tens_Model Tens_Spec Tens_Build Tens_Lax Tens_Deriv Tens_Grad Tens_Final.
Local Open Scope R_scope.
Local Set Bullet Behavior "Strict Subproofs".

(** src/optimizers/mod.rs:21-46 [grad_helper] on array graphs. *)
Definition t_grad_helper {A} (pop : tgraph -> list nat -> option (nat * list nat)) (debug : bool) (fuel : nat)
  (losses : list nat) (e : env A) (ns : string) (c : context top) : Eval_Model.res (list nat * list nat * context top * list nat) :=
  grad_helper TLeaf t_sum_alls t_opgrad a_add_n (a_scalar 1) pop debug fuel losses e ns c.

(** The tensors kept for variables are the tensors of those variables, of which
    gradients may be asked for. *)
Definition var_leaves (c : context top) : Prop :=
  forall vid t, find_var vid (c_vars c) = Some t ->
    exists n, nth_error (c_graph c) t = Some n /\ n_op n = TLeaf /\ n_diff n = true /\ n_var n = Some vid.
(** A loss gradients can flow out of leads to [x]. *)
Definition matters {O} (g : graph O) (losses : list nat) (x : nat) : Prop :=
  exists y, In y losses /\ differentiable g y /\ differentiable g x /\ reaches g y x.

(** ** New variable tensors *)
Section NewVars.
  Variable ls : nat -> list nat.
  Variable lax : bool.

  Lemma var_snoc s vid g' id : sound lax ls s -> build s (Builder None [] true None None (Some vid) None) TLeaf = Some (g', id) ->
    sound lax ls g' /\ grows s g' /\ id = length s /\
    exists n, nth_error g' id = Some n /\ n_op n = TLeaf /\ n_diff n = true /\ n_var n = Some vid.
  Proof.
    intros [W At] Hb. apply build_spec in Hb. destruct Hb as (-> & _ & ->). cbn [b_inputs b_shape b_ph b_diff b_backprop b_known b_var].
    set (n := Node TLeaf _ _ _ _ _ _ _ _).
    assert (G : grows s (s ++ [n])) by (exists [n]; reflexivity).
    split; [|split; [exact G|split; [reflexivity|]]].
    2: { exists n. split; [|auto]. rewrite nth_error_app2, Nat.sub_diag; auto. }
    split.
    - destruct W as [W1 W2 W3 W4 W5 W6 W7]. constructor.
      + intros i m inc Hi Hinc. apply nth_snoc_cases in Hi. destruct Hi as [[Hi _]|[-> ->]]; [eauto|destruct Hinc].
      + intros i m sh' x Hi Hn Hx. apply nth_snoc_cases in Hi. destruct Hi as [[Hi Hl]|[-> ->]]; [|discriminate].
        apply (grows_typed ls s); auto. eapply W2; eauto. apply shaped_typed. apply (grows_typed_back ls s (s ++ [n])); auto.
      + intros i m Hi Hop. apply nth_snoc_cases in Hi. destruct Hi as [[Hi Hl]|[-> ->]]; [eauto|]. split; reflexivity.
      + intros i m Hi Hop. apply nth_snoc_cases in Hi. destruct Hi as [[Hi Hl]|[-> ->]]; [eauto|]. exfalso. apply Hop. reflexivity.
      + intros i m Hi. apply nth_snoc_cases in Hi. destruct Hi as [[Hi Hl]|[-> ->]]; [eauto|]. reflexivity.
      + intros i m inc Hi Hinc. apply nth_snoc_cases in Hi. destruct Hi as [[Hi Hl]|[-> ->]].
        * rewrite rank_of_app; [eauto|]. pose proof (W1 _ _ _ Hi Hinc). lia.
        * destruct Hinc.
      + intros i m inc Hi Hinc. apply nth_snoc_cases in Hi. destruct Hi as [[Hi Hl]|[-> ->]]; [eauto|]. destruct Hinc.
    - intros Hl i m t Hi Ht. rewrite app_length. simpl. apply nth_snoc_cases in Hi. destruct Hi as [[Hi _]|[-> ->]]; [|discriminate].
      pose proof (At Hl i m t Hi Ht). lia.
  Qed.

  Lemma var_tensors_tens : forall ents (c c' : context top) l,
    sound lax ls (c_graph c) -> var_leaves c -> var_tensors TLeaf c ents = Some (c', l) ->
    sound lax ls (c_graph c') /\ grows (c_graph c) (c_graph c') /\ var_leaves c' /\
    (forall vid t, find_var vid (c_vars c) = Some t -> find_var vid (c_vars c') = Some t) /\
    Forall2 (fun ent r => fst r = snd (fst ent) /\ find_var (snd ent) (c_vars c') = Some (snd r)) ents l.
  Proof.
    induction ents as [|ent ents IH]; intros c c' l W V H; cbn [var_tensors] in H.
    - injection H as <- <-. split; [exact W|]. split; [apply grows_refl|]. split; [exact V|]. split; [auto|constructor].
    - destruct (variable_by_id TLeaf c (snd ent)) as [[c1 t]|] eqn:E; [|discriminate].
      destruct (var_tensors TLeaf c1 ents) as [[c2 l']|] eqn:E2; [|discriminate]. injection H as <- <-.
      assert (X : sound lax ls (c_graph c1) /\ grows (c_graph c) (c_graph c1) /\ var_leaves c1 /\
                  (forall vid t, find_var vid (c_vars c) = Some t -> find_var vid (c_vars c1) = Some t) /\
                  find_var (snd ent) (c_vars c1) = Some t).
      { unfold variable_by_id in E. destruct (find_var (snd ent) (c_vars c)) as [t0|] eqn:Ef.
        - injection E as <- <-. split; [exact W|]. split; [apply grows_refl|]. auto.
        - destruct (build (c_graph c) _ TLeaf) as [[g1 id]|] eqn:Eb; [|discriminate]. injection E as <- <-. cbn [c_graph c_vars].
          destruct (var_snoc _ _ _ _ W Eb) as (W1 & G1 & Hid & n & Hn).
          split; [exact W1|]. split; [exact G1|]. split; [|split].
          + intros vid t Hf. cbn [c_vars] in Hf. rewrite find_var_cons in Hf. destruct (Nat.eqb_spec (snd ent) vid) as [<-|Hne].
            * injection Hf as <-. exists n. exact Hn.
            * destruct (V vid t Hf) as (m & Hm & Hr). exists m. split; [|exact Hr]. eapply grows_nth; eauto.
          + intros vid t Hf. rewrite find_var_cons. destruct (Nat.eqb_spec (snd ent) vid) as [<-|Hne]; [congruence|exact Hf].
          + rewrite find_var_cons, Nat.eqb_refl. reflexivity. }
      destruct X as (W1 & G1 & V1 & F1 & Ht).
      destruct (IH c1 c2 l' W1 V1 E2) as (W2 & G2 & V2 & F2 & HF).
      split; [exact W2|]. split; [eapply grows_trans; eauto|]. split; [exact V2|]. split; [auto|].
      constructor; [|exact HF]. cbn [fst snd]. split; auto.
  Qed.
End NewVars.

(** ** Reaching *)
Lemma t_edge (ls : nat -> list nat) (g : tgraph) y p x : twf ls g -> edge g y p x -> (x < y)%nat.
Proof.
  intros W (n & inc & Hn & Hi & <-). unfold get_backprop_inputs in Hi. rewrite (twf_backprop ls g W y n Hn) in Hi.
  apply (twf_input ls g W y n inc Hn). eapply nth_error_In; eauto.
Qed.
Lemma reaches_prefix ls (g g' : tgraph) y x : twf ls g' -> grows g g' -> (y < length g)%nat -> (reaches g' y x <-> reaches g y x).
Proof.
  intros W [new ->] Hy. split; intros (es & Hp); exists es.
  - induction Hp as [y|y p z es x He Ho Hd Hp IH]; [constructor|].
    pose proof (t_edge ls _ _ _ _ W He) as Hlt. destruct He as (n & inc & Hn & Hi). rewrite nth_error_app1 in Hn by lia.
    destruct Hd as (m & Hm & Hd). rewrite nth_error_app1 in Hm by lia.
    econstructor; [exists n, inc; eauto|exact I|exists m; auto|]. apply IH. lia.
  - clear Hy. induction Hp as [y|y p z es x He Ho Hd Hp IH]; [constructor|].
    destruct He as (n & inc & Hn & Hi). destruct Hd as (m & Hm & Hd).
    econstructor; [|exact I| |exact IH].
    + exists n, inc. split; auto. rewrite nth_error_app1; auto. apply nth_error_Some. congruence.
    + exists m. split; auto. rewrite nth_error_app1; auto. apply nth_error_Some. congruence.
Qed.
Lemma reaches_le ls (g : tgraph) y x : twf ls g -> reaches g y x -> (x <= y)%nat.
Proof.
  intros W (es & Hp). induction Hp as [y|y p z es x He Ho Hd Hp IH]; auto. apply (t_edge ls) in He; auto. lia.
Qed.
Lemma differentiable_prefix {O} (g new : graph O) x : (x < length g)%nat -> (differentiable (g ++ new) x <-> differentiable g x).
Proof. intros Hx. unfold differentiable. rewrite nth_error_app1 by exact Hx. tauto. Qed.

Lemma sums_reached ls (g g' : tgraph) losses ys x :
  twf ls g' -> grows g g' -> (forall y, In y losses -> (y < length g)%nat) ->
  Forall2 (fun y y' => (length g <= y')%nat /\ exists n, nth_error g' y' = Some n /\ t_sum_node y n) losses ys ->
  ~ In x ys -> (reached g' ys x <-> matters g losses x).
Proof.
  intros W G Hlt HF Hx. split.
  - intros (Hd & y' & Hy' & es & Hp). apply In_nth_error in Hy'. destruct Hy' as (k & Hk).
    destruct (Forall2_nth2 _ _ _ _ _ HF Hk) as (y & Hy & Hle & n & Hn & So & Si & Sd). apply nth_error_In in Hy.
    inversion Hp as [|? p z es' ? He _ Hz Hp']; subst.
    { exfalso. apply Hx. eapply nth_error_In; eauto. }
    assert (z = y).
    { destruct He as (n' & inc & Hn' & Hi & <-). assert (n' = n) by congruence. subst n'.
      unfold get_backprop_inputs in Hi. rewrite (twf_backprop ls g' W _ _ Hn), Si in Hi.
      destruct p as [|p]; [injection Hi as <-; reflexivity|destruct p; discriminate]. }
    subst z. exists y. split; [exact Hy|]. pose proof (Hlt y Hy) as Hyl.
    assert (Hr : reaches g' y x) by (exists es'; exact Hp'). pose proof (reaches_le ls g' y x W Hr).
    apply (reaches_prefix ls g g' y x W G Hyl) in Hr. destruct G as [new ->].
    split; [apply (differentiable_prefix g new); auto|]. split; [apply (differentiable_prefix g new); auto; lia|exact Hr].
  - intros (y & Hy & Hdy & Hdx & Hr). apply In_nth_error in Hy. destruct Hy as (k & Hk). pose proof (Hlt y (nth_error_In _ _ Hk)) as Hyl.
    destruct (Forall2_nth _ _ _ _ _ HF Hk) as (y' & Hy' & Hle & n & Hn & So & Si & Sd).
    apply (reaches_prefix ls g g' y x W G Hyl) in Hr.
    assert (Hd' : forall z, differentiable g z -> differentiable g' z).
    { intros z (m & Hm & Hd). exists m. split; auto. eapply grows_nth; eauto. }
    split; [auto|]. exists y'. split; [eapply nth_error_In; eauto|]. destruct Hr as (es & Hp). exists ((y', 0%nat) :: es).
    econstructor; [|exact I|apply Hd'; exact Hdy|exact Hp].
    exists n, (Incoming y false 0). split; [exact Hn|]. unfold get_backprop_inputs. rewrite (twf_backprop ls g' W _ _ Hn), Si. auto.
Qed.

(** ** The gradients *)
Theorem grad_helper_x {A} lax pop debug fuel ls losses (e : env A) ns (c c' : context top) vs ts log :
  sound lax ls (c_graph c) -> var_leaves c -> (forall g, heap_pop g (pop g)) ->
  (forall y, In y losses -> usesx lax ls (c_graph c) y /\ exists sh, shaped ls (c_graph c) y sh) ->
  NoDup (current_var_ids e ns) ->
  t_grad_helper pop debug fuel losses e ns c = Ok (vs, ts, c', log) ->
  sound lax ls (c_graph c') /\ grows (c_graph c) (c_graph c') /\ var_leaves c' /\
  (exists tensors, Forall2 (fun vid t => find_var vid (c_vars c') = Some t) (current_var_ids e ns) tensors /\
     chosen (matters (c_graph c) losses) tensors vs) /\
  Forall2 (fun x t => wtyped ls lax (c_graph c') t (TyA (ls x)) /\
     forall rho v, conform ls rho -> has_shape (ls x) v -> (forall y, In y losses -> t_smooth ls (c_graph c) rho x y) ->
       derivable_pt_lim
         (fun t => fold_right Rplus 0 (map (fun y => elements_sum (aval (put rho x (step (rho x) v t)) (c_graph c) y)) losses))
         0 (dot (aval rho (c_graph c') t) v))
    vs ts.
Proof.
  intros SW V Hpop Hl Hnd H. pose proof (proj1 SW) as W. unfold t_grad_helper, grad_helper in H.
  destruct losses as [|y0 losses0]; [discriminate|]. set (losses := y0 :: losses0) in *.
  destruct (t_sum_alls losses (c_graph c)) as [[ys g1]|] eqn:Hsum; [|discriminate].
  destruct (t_sum_alls_spec ls losses (c_graph c) ys g1 W) as (W1 & G1 & ND & HF); auto.
  { apply Forall_forall. intros y Hy. apply (Hl y Hy). }
  assert (Hlt : forall y, In y losses -> (y < length (c_graph c))%nat).
  { intros y Hy. destruct (Hl y Hy) as (_ & sh & T). eapply typed_lt; exact T. }
  assert (SW1 : sound lax ls g1).
  { split; [exact W1|]. intros Hlx. eapply t_sum_alls_attached; [exact (proj2 SW Hlx)|exact Hsum]. }
  destruct (var_tensors_by_name TLeaf e (Context g1 (c_vars c)) ns) as [[c2 l]|] eqn:Hvt; [|discriminate].
  unfold var_tensors_by_name in Hvt.
  assert (Vg : var_leaves (Context g1 (c_vars c))).
  { intros vid t Hf. destruct (V vid t Hf) as (n & Hn & Hr). exists n. split; [|exact Hr]. eapply grows_nth; [exact G1|exact Hn]. }
  destruct (var_tensors_tens ls lax (in_namespace ns (name_to_id e)) (Context g1 (c_vars c)) c2 l SW1 Vg Hvt) as (SW2 & G2 & V2 & F2 & HT).
  cbn [c_graph c_vars] in G2, F2. pose proof (proj1 SW2) as W2. set (g2 := c_graph c2) in *.
  assert (G : grows (c_graph c) g2) by (eapply grows_trans; eauto).
  match type of H with match ?d with _ => _ end = _ => destruct d as [[[[vs0 ts0] g'] log0]| |] eqn:Hdv; try discriminate end.
  injection H as -> -> <- ->. cbn [c_graph c_vars].
  (* facts about the sums *)
  assert (HF2 : Forall2 (fun y y' => (length (c_graph c) <= y')%nat /\ exists n, nth_error g2 y' = Some n /\ t_sum_node y n) losses ys).
  { eapply Forall2_imp; [|exact HF]. simpl. intros a b (A1 & _ & _ & n & Hn & Hsn). split; [exact A1|]. exists n. split; [exact (grows_nth g1 g2 b n G2 Hn)|exact Hsn]. }
  assert (Hsn : forall y', In y' ys -> exists y n, In y losses /\ nth_error g2 y' = Some n /\ t_sum_node y n).
  { intros y' Hy'. apply In_nth_error in Hy'. destruct Hy' as (k & Hk).
    destruct (Forall2_nth2 _ _ _ _ _ HF2 Hk) as (y & Hy & _ & n & Hn & Hs). exists y, n. split; auto. eapply nth_error_In; eauto. }
  assert (Hydiff : forall y', In y' ys -> differentiable g2 y').
  { intros y' Hy'. destruct (Hsn y' Hy') as (y & n & _ & Hn & _ & _ & Hd). exists n. auto. }
  (* facts about the variable tensors *)
  assert (Hxs : forall x, In x (map snd l) -> t_input_leaf g2 x /\ ~ In x ys).
  { intros x Hx. apply in_map_iff in Hx. destruct Hx as (r & <- & Hr). apply In_nth_error in Hr. destruct Hr as (k & Hk).
    destruct (Forall2_nth2 _ _ _ _ _ HT Hk) as (ent & _ & _ & Hf). destruct (V2 _ _ Hf) as (n & Hn & Ho & Hd & _).
    split; [exists n; auto|]. intros Hin. destruct (Hsn _ Hin) as (y & n' & _ & Hn' & So & _). assert (n' = n) by (unfold g2 in Hn'; congruence). subst n'. congruence. }
  assert (Hids : Forall2 (fun vid t => find_var vid (c_vars c2) = Some t) (current_var_ids e ns) (map snd l)).
  { unfold current_var_ids. clear -HT. induction HT as [|ent r ents l (_ & Hf) _ IH]; simpl; constructor; auto. }
  assert (Nxs : NoDup (map snd l)).
  { clear -Hids Hnd V2. induction Hids as [|vid t vids tids Hf HR IH]; [constructor|].
    inversion Hnd as [|? ? Hni Hnd']; subst. constructor; [|auto]. intros Hin. apply Hni.
    apply In_nth_error in Hin. destruct Hin as (k & Hk).
    destruct (Forall2_nth2 _ _ _ _ _ HR Hk) as (vid' & Hv' & Hf').
    destruct (V2 _ _ Hf) as (n & Hn & _ & _ & Hv). destruct (V2 _ _ Hf') as (n' & Hn' & _ & _ & Hv2).
    assert (vid' = vid) by congruence. subst vid'. eapply nth_error_In; eauto. }
  (* the reduction to [grad] *)
  assert (Hyne : ys <> []) by (intros ->; inversion HF2).
  apply (diff_vars_grad g2 (t_opgrad g2) a_add_n (a_scalar 1) a_zeros_like (pop g2) debug fuel ys (map snd l) g2 vs ts g' log Hyne (a_ranked ls g2 W2) Hydiff) in Hdv.
  destruct Hdv as [Hch Hgr].
  assert (Hin : forall x, In x vs -> In x (map snd l)) by (intros x Hx; apply (chosen_in _ _ _ x Hch) in Hx; tauto).
  change (t_grad_with_default pop debug fuel ys vs None g2 = Ok (map (fun t => (t, true)) ts, g', log)) in Hgr.
  apply (tgrad_with_default_x lax pop debug fuel ys vs None ls g2) in Hgr; auto.
  - destruct Hgr as (SW' & G' & HR). split; [exact SW'|]. split; [eapply grows_trans; eauto|]. split; [|split].
    + intros vid t Hf. cbn [c_vars c_graph] in *. destruct (V2 vid t Hf) as (n & Hn & Hr). exists n. split; [|exact Hr]. eapply grows_nth; eauto.
    + exists (map snd l). split; [exact Hids|]. eapply chosen_iff; [|exact Hch]. intros x Hx.
      apply (sums_reached ls (c_graph c) g2 losses ys x W2 G Hlt HF2). apply Hxs; auto.
    + assert (HR' : Forall2 (fun x t => wtyped ls lax g' t (TyA (ls x)) /\
         forall rho v, conform ls rho -> has_shape (ls x) v -> (forall y, In y ys -> t_smooth ls g2 rho x y) ->
         derivable_pt_lim
           (fun t => fold_right Rplus 0 (map (fun '(a, y) => dot a (aval (put rho x (step (rho x) v t)) g2 y))
                                         (combine (seed_arrays rho g2 None ys) ys)))
           0 (dot (aval rho g' t) v)) vs ts).
      { clear -HR. revert ts HR. induction vs as [|x vs IH]; intros [|t ts] HR; inversion HR; subst; constructor; auto. }
      eapply Forall2_impl_in; [|exact HR']. cbv beta. intros x r Hx [A1 B]. split; [exact A1|]. intros rho v C Hv Hsm.
      assert (Hsm' : forall y, In y ys -> t_smooth ls g2 rho x y).
      { intros y' Hy'. destruct (Hsn y' Hy') as (y & n & Hy & Hn & Hs). eapply (t_smooth_sum ls (c_graph c) g2 rho x y y' n); eauto. }
      specialize (B rho v C Hv Hsm'). apply is_derive_Reals in B. apply is_derive_Reals.
      eapply is_derive_fext; [|exact B]. intros t. cbv beta.
      pose proof (bend_conform ls rho C x v Hv t) as Ct. unfold bend in Ct.
      assert (HV : Forall2 (fun y y' => aval (put rho x (step (rho x) v t)) g2 y' = Arr [] [elements_sum (aval (put rho x (step (rho x) v t)) (c_graph c) y)]) losses ys).
      { eapply Forall2_imp; [|exact HF]. cbv beta. intros a b (_ & Tb & Vb & _). rewrite (grows_aval _ g1 g2 b G2) by (eapply typed_lt; exact Tb). apply Vb. exact Ct. }
      clear -HV. induction HV as [|y y' ls' ys V' _ IH]; simpl; [reflexivity|].
      rewrite IH, V'. f_equal. unfold dot. simpl. ring.
  - intros y' Hy'. split; [auto|]. destruct (Hsn y' Hy') as (y & n & Hy & Hn & Hs).
    eapply (usesx_sum lax ls (c_graph c) g2 y y' n); eauto. apply Hl; auto.
  - eapply chosen_nodup; eauto.
  - intros y' Hy'. apply In_nth_error in Hy'. destruct Hy' as (k & Hk).
    destruct (Forall2_nth2 _ _ _ _ _ HF Hk) as (y & _ & _ & N & _). eapply (grows_typed ls g1 g2); eauto.
Qed.
