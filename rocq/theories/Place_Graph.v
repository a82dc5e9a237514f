(** Evaluation of a graph whose tensors are views of memory: the elements are those of the
    evaluation with arrays. *)
From Coq Require Import String List Arith ZArith NArith Bool Lia Reals Relations.
Import ListNotations.
From Verif Require Import Graph_Model Eval_Model Eval_Spec Eval_Proofs Eval_Proofs2 Graph_Proofs Grad_Model Grad_Spec Scalar_Model Scalar_Spec Scalar_Proofs.
From Verif Require Import Array_Model Array_Proofs Batch_Model Vjp_Spec Tens_Model Tens_Spec Tens_Fwd Tens_Build Tens_Lax Tens_Grad Tens_Final Tens_New
  Layout_Spec Place_Model Place_Spec Place_Proofs.
Local Set Bullet Behavior "Strict Subproofs".

(** The order of an operation's result. *)
Lemma order_of_op lo g i n : nth_error g i = Some n -> n_op n <> TLeaf -> (forall inc, In inc (n_inputs n) -> (in_id inc < i)%nat) ->
  order_of lo g i = result_order (n_op n) (fold_right worse Rows (map (fun inc => order_of lo g (in_id inc)) (n_inputs n))).
Proof.
  intros Hn Ho Hi. assert (Hl : (i < length g)%nat) by (apply nth_error_Some; congruence).
  unfold order_of at 1, orders. rewrite (nth_error_nth _ _ _ (scan_nth (node_order lo) g i n Hn)).
  assert (E : node_order lo i n (scan (node_order lo) (firstn i g)) =
    result_order (n_op n) (fold_right worse Rows (map (fun inc => nth (in_id inc) (scan (node_order lo) (firstn i g)) Anyhow) (n_inputs n)))) by (unfold node_order; destruct (n_op n); congruence).
  rewrite E. f_equal. f_equal. apply map_ext_in. intros inc Hin. specialize (Hi inc Hin). unfold order_of, orders.
  assert (Hf : (in_id inc < length (firstn i g))%nat) by (rewrite firstn_length; lia).
  pose proof (scan_prefix (node_order lo) (firstn i g) (skipn i g) (in_id inc) Hf) as P. rewrite firstn_skipn in P.
  assert (Q : (in_id inc < length (scan (node_order lo) (firstn i g)))%nat) by (rewrite scan_length; exact Hf).
  apply nth_error_nth' with (d := Anyhow) in Q. rewrite Q in P. symmetry. apply nth_error_nth. exact P.
Qed.
Lemma order_of_leaf lo g i n : nth_error g i = Some n -> n_op n = TLeaf -> order_of lo g i = lo i.
Proof.
  intros Hn Ho. unfold order_of, orders. rewrite (nth_error_nth _ _ _ (scan_nth (node_order lo) g i n Hn)). unfold node_order. rewrite Ho. reflexivity.
Qed.

Section Graph.
  Variable lax : bool.
  Variable ls : nat -> list nat.
  Variable g : tgraph.
  Hypothesis W : loose g.
  Variable debug : bool.
  Variable feeds : list (ph_key * pv).
  Variable env : list pv.
  Variable w : nat -> view R.
  Variable lo : nat -> order.
  Variable place : top -> list pv -> arr R -> view R.
  Hypothesis P : places place.
  Hypothesis C : conform ls (elements_of w).
  Hypothesis HL : p_leaf_values g feeds env w.
  Hypothesis HS : forall i n, nth_error g i = Some n -> n_op n = TLeaf -> stored (lo i) (PA (w i)).
  Hypothesis M : meets must_be lo g.
  Notation rho := (elements_of w).
  Notation pvalue := (value pv_shape (place_compute place) debug g feeds env).
  Notation parg := (arg pv_shape (place_compute place) debug g feeds env).

  (** The view stands for tensor [i]. *)
  Definition stands (i : nat) (x : pv) : Prop := elems x = tval rho g i /\ stored (order_of lo g i) x.

  Lemma leaf_stands i n : nth_error g i = Some n -> n_op n = TLeaf -> stands i (PA (w i)).
  Proof.
    intros Hn Ho. split.
    - unfold tval. rewrite (leaf_holds rho g _ n Hn Ho). reflexivity.
    - rewrite (order_of_leaf lo g i n Hn Ho). eauto.
  Qed.
  (** Reading a leaf. *)
  Lemma leaf_arg inc n x : nth_error g (in_id inc) = Some n -> n_op n = TLeaf -> parg inc x -> opin_val x = PA (w (in_id inc)).
  Proof.
    intros Hn Ho Hx. destruct (HL _ n Hn Ho) as [(vid & Hv & Hp & He)|[Hv Hf]]; inversion Hx as [inc' m v Hm Hfd|inc' m vid' v Hm Hp' Hv' He'|inc' m ys v Hm]; subst.
    - assert (m = n) by congruence. subst m. destruct Hfd as (name & ? & ? & ? & ? & Q & _). congruence.
    - assert (m = n) by congruence. subst m. assert (vid' = vid) by congruence. subst vid'. destruct (in_mut inc); simpl; congruence.
    - destruct Hm as (Hm & _ & Q). assert (m = n) by congruence. subst m. congruence.
    - assert (m = n) by congruence. subst m. simpl. eapply fed_fun; eauto.
    - assert (m = n) by congruence. subst m. congruence.
    - destruct Hm as (Hm & Q & _). assert (m = n) by congruence. subst m. destruct Hf as (name & ? & ? & ? & ? & Q' & _). congruence.
  Qed.
  Lemma leaf_arg_ex inc n : nth_error g (in_id inc) = Some n -> n_op n = TLeaf -> exists x, parg inc x.
  Proof.
    intros Hn Ho. destruct (HL _ n Hn Ho) as [(vid & Hv & Hp & He)|[Hv Hf]].
    - eexists. eapply arg_var; eauto.
    - eexists. eapply arg_ph; eauto.
  Qed.

  (** What is computed from operands that stand for their tensors. *)
  Lemma node_right i n ts t vs : nth_error g i = Some n -> n_op n <> TLeaf -> wtyped ls lax g i t ->
    Forall2 (fun inc ty => in_sel inc = 0%nat /\ (in_id inc < i)%nat /\ wtyped ls lax g (in_id inc) ty) (n_inputs n) ts ->
    op_tyx lax (n_op n) ts = Some t ->
    Forall2 (fun inc v => stands (in_id inc) v) (n_inputs n) vs ->
    (exists r, pcompute place (n_op n) vs = Some r /\ stands i r) \/ (pcompute place (n_op n) vs = None /\ ~ satisfies (should_be (n_op n)) vs).
  Proof.
    intros Hn Ho Ht HT Hop HV. destruct (wtval_eq ls lax rho g i n ts t C Hn Ho HT Hop Ht) as [HI HC].
    assert (EV : map elems vs = in_vals rho g n).
    { rewrite in_vals_tval. clear -HV. induction HV as [|inc v ins vs [E _] _ IH]; simpl; [reflexivity|]. congruence. }
    set (k := fold_right worse Rows (map (fun inc => order_of lo g (in_id inc)) (n_inputs n))).
    assert (SV : Forall (stored k) vs).
    { assert (Q : forall inc, In inc (n_inputs n) -> order_leb (order_of lo g (in_id inc)) k = true).
      { intros inc Hin. apply worst_le. apply (in_map (fun inc => order_of lo g (in_id inc))). exact Hin. }
      clearbody k. clear -HV Q. induction HV as [|inc v ins vs [_ S] _ IH]; constructor.
      - eapply stored_le; [|exact S]. apply Q. left. reflexivity.
      - apply IH. intros. apply Q. right. assumption. }
    assert (SM : satisfies (must_be (n_op n)) vs).
    { intros p q v Hin Hp. destruct (nth_error (n_inputs n) p) as [inc|] eqn:Ei.
      - destruct (Forall2_nth _ _ _ _ _ HV Ei) as (v' & Hv' & _ & S). assert (v' = v) by congruence. subst v'.
        eapply stored_le; [|exact S]. eapply M; eauto.
      - apply nth_error_None in Ei. apply Forall2_len in HV. assert (p < length vs)%nat by (apply nth_error_Some; congruence). lia. }
    rewrite <- EV in HI, HC.
    destruct (op_cases place P lax (n_op n) ts t vs k Ho Hop HI SV SM) as [(r & A & B & D)|D]; [left|right; exact D].
    exists r. split; [exact A|]. split; [congruence|]. rewrite (order_of_op lo g i n Hn Ho); [exact D|]. intros inc Hin. eapply lo_input; eauto.
  Qed.

  (** Operands that exist stand for their tensors, if earlier tensors do. *)
  Lemma args_stand ins ts xs : (forall inc ty, In inc ins -> wtyped ls lax g (in_id inc) ty -> forall m, nth_error g (in_id inc) = Some m -> n_op m <> TLeaf ->
      forall r, pvalue (in_id inc) r -> exists x, r = inl [x] /\ stands (in_id inc) x) ->
    Forall2 (fun inc ty => in_sel inc = 0%nat /\ wtyped ls lax g (in_id inc) ty) ins ts -> Forall2 parg ins xs ->
    Forall2 (fun inc v => stands (in_id inc) v) ins (map opin_val xs).
  Proof.
    intros IH HT HX. revert ts HT. induction HX as [|inc x ins xs Hx _ IHX]; intros ts HT; simpl; constructor.
    - inversion HT as [|? ty ? ts' [Hs Hty] _]; subst. pose proof (wtyped_lt ls lax g _ _ Hty) as Hlt.
      apply nth_error_Some in Hlt. destruct (nth_error g (in_id inc)) as [m|] eqn:Hm; [clear Hlt|congruence].
      destruct (wtyped_inputs ls lax g _ m ty Hm Hty) as [[Eo _]|(Ho & _)].
      + rewrite (leaf_arg inc m x Hm Eo Hx). eapply leaf_stands; eauto.
      + destruct (lo_op g W _ m Hm Ho) as [Hv Hp]. inversion Hx as [inc' m' v Hm' Hfd|inc' m' vid' v Hm' Hp' Hv' He'|inc' m' ys v Hm' Hval Hy]; subst.
        * assert (m' = m) by congruence. subst m'. destruct Hfd as (name & ? & ? & ? & ? & Q & _). congruence.
        * assert (m' = m) by congruence. subst m'. congruence.
        * destruct (IH inc ty (or_introl eq_refl) Hty m Hm Ho _ Hval) as (y & E & S). injection E as ->. rewrite Hs in Hy. injection Hy as <-. exact S.
    - inversion HT as [|? ty ? ts' _ HT']; subst. eapply IHX; [|exact HT']. intros inc' ty' Hin. apply IH. right. exact Hin.
  Qed.

  Lemma value_stands i : forall n t r, nth_error g i = Some n -> n_op n <> TLeaf -> wtyped ls lax g i t -> pvalue i r ->
    exists x, r = inl [x] /\ stands i x.
  Proof.
    induction i as [i IH] using (well_founded_induction lt_wf). intros n t r Hn Ho Ht Hr.
    destruct (wtyped_inputs ls lax g i n t Hn Ht) as [[Eo _]|(_ & ts & HT & Hop)]; [congruence|].
    assert (HT2 : Forall2 (fun inc ty => in_sel inc = 0%nat /\ wtyped ls lax g (in_id inc) ty) (n_inputs n) ts).
    { clear -HT. induction HT as [|inc ty ins ts (A & _ & B)]; constructor; auto. }
    inversion Hr as [i' n' xs ws ys status Hn' HX HC Hd|i' n' pre inc post m e Hn' Hin Hpre Hm Hv]; subst.
    - destruct Hn' as (Hn' & _). assert (n' = n) by congruence. subst n'.
      assert (SV : Forall2 (fun inc v => stands (in_id inc) v) (n_inputs n) (map opin_val xs)).
      { eapply args_stand; [|exact HT2|exact HX]. intros inc ty Hin Hty m Hm Hom r Hr'. eapply (IH (in_id inc)); eauto. eapply lo_input; eauto. }
      unfold place_compute in HC. destruct (node_right i n ts t _ Hn Ho Ht HT Hop SV) as [(x & Ex & Sx)|[Ex _]]; rewrite Ex in HC; [|discriminate].
      injection HC as <- <- <-. exists x. auto.
    - destruct Hn' as (Hn' & _). assert (n' = n) by congruence. subst n'. exfalso.
      assert (Hi : In inc (n_inputs n)) by (rewrite Hin; apply in_or_app; right; left; reflexivity).
      apply In_nth_error in Hi. destruct Hi as (p & Hp). destruct (Forall2_nth _ _ _ _ _ HT Hp) as (ty & _ & _ & Hlt & Hty).
      destruct Hm as (Hm & Q1 & Q2). assert (Hom : n_op m <> TLeaf).
      { intros Eo. destruct (lo_leaf g W _ m Hm Eo) as [_ E]. unfold is_variable, is_placeholder in E. rewrite Q1, Q2 in E. discriminate. }
      destruct (IH _ Hlt m ty _ Hm Hom Hty Hv) as (x & E & _). discriminate.
  Qed.

  (** If no operand is stored so that an operation panics, every tensor has a value. *)
  Lemma value_ex i : meets should_be lo g -> forall n t, nth_error g i = Some n -> n_op n <> TLeaf -> wtyped ls lax g i t -> exists x, pvalue i (inl [x]).
  Proof.
    intros MS. induction i as [i IH] using (well_founded_induction lt_wf). intros n t Hn Ho Ht.
    destruct (wtyped_inputs ls lax g i n t Hn Ht) as [[Eo _]|(_ & ts & HT & Hop)]; [congruence|].
    assert (HT2 : Forall2 (fun inc ty => in_sel inc = 0%nat /\ wtyped ls lax g (in_id inc) ty) (n_inputs n) ts).
    { clear -HT. induction HT as [|inc ty ins ts (A & _ & B)]; constructor; auto. }
    assert (HA : exists xs, Forall2 parg (n_inputs n) xs).
    { clear -HT IH W HL. induction HT as [|inc ty ins ts (Hs & Hlt & Hty) _ IH2]; [exists []; constructor|].
      destruct IH2 as (xs & HX). pose proof (wtyped_lt ls lax g _ _ Hty) as Hlt2.
      apply nth_error_Some in Hlt2. destruct (nth_error g (in_id inc)) as [m|] eqn:Hm; [clear Hlt2|congruence].
      assert (HB : exists x, parg inc x).
      { destruct (wtyped_inputs ls lax g _ m ty Hm Hty) as [[Eo _]|(Ho & _)]; [eapply leaf_arg_ex; eauto|].
        destruct (IH _ Hlt m ty Hm Ho Hty) as (x & Hx). exists (NonVar x). eapply arg_op; [|exact Hx|rewrite Hs; reflexivity].
        destruct (lo_op g W _ m Hm Ho). split; [exact Hm|]. split; auto. }
      destruct HB as (x & Hx). exists (x :: xs). constructor; auto. }
    destruct HA as (xs & HX).
    assert (SV : Forall2 (fun inc v => stands (in_id inc) v) (n_inputs n) (map opin_val xs)).
    { eapply args_stand; [|exact HT2|exact HX]. intros inc ty Hin Hty m Hm Hom r Hr'. eapply value_stands; eauto. }
    destruct (node_right i n ts t _ Hn Ho Ht HT Hop SV) as [(x & Ex & Sx)|[_ Ex]].
    - exists x. apply (value_run _ _ _ _ _ _ i n xs [] [x] None); auto.
      + destruct (lo_op g W i n Hn Ho). split; [exact Hn|]. split; auto.
      + unfold place_compute. rewrite Ex. reflexivity.
      + intros _. discriminate.
    - exfalso. apply Ex. intros p q v Hin Hp. destruct (nth_error (n_inputs n) p) as [inc|] eqn:Ei.
      + destruct (Forall2_nth _ _ _ _ _ SV Ei) as (v' & Hv' & _ & S). assert (v' = v) by congruence. subst v'.
        eapply stored_le; [|exact S]. eapply MS; eauto.
      + apply nth_error_None in Ei. apply Forall2_len in SV. assert (p < length (map opin_val xs))%nat by (apply nth_error_Some; congruence). lia.
  Qed.

  Lemma tensor_stands i sh r : wtyped ls lax g i (TyA sh) -> tensor_value pv_shape (place_compute place) debug g feeds env i r ->
    exists v, r = inl (PA v) /\ contents 0%R v = aval rho g i /\ stored (order_of lo g i) (PA v).
  Proof.
    intros H Hr. pose proof (wtyped_lt ls lax g i _ H) as Hl. apply nth_error_Some in Hl.
    destruct (nth_error g i) as [n|] eqn:Hn; [clear Hl|congruence].
    pose proof (wtval_aval ls lax rho g i sh C H) as Hsv.
    assert (K : forall x, stands i x -> exists v, x = PA v /\ contents 0%R v = aval rho g i /\ stored (order_of lo g i) (PA v)).
    { intros [v|l] [E S]; rewrite Hsv in E; [|discriminate]. injection E as E. eauto. }
    destruct (wtyped_inputs ls lax g i n _ Hn H) as [[Eo _]|(Ho & _)].
    - destruct (HL i n Hn Eo) as [(vid & Hv & Hp & He)|[Hv Hf]]; inversion Hr as [m vid' v Hm Hv' He'|m v Hm Hv' Hf'|y ys Hy|e He']; subst.
      + assert (m = n) by congruence. subst m. assert (vid' = vid) by congruence. subst vid'. assert (v = PA (w i)) by congruence. subst v.
        destruct (K _ (leaf_stands i n Hn Eo)) as (v & E & Q). exists v. rewrite E. auto.
      + assert (m = n) by congruence. subst m. congruence.
      + exfalso. inversion Hy as [? m ? ? ? ? (Hm & _ & Q)|? m ? ? ? ? ? (Hm & _ & Q)]; assert (m = n) by congruence; subst m; congruence.
      + exfalso. inversion He' as [? m ? ? ? ? (Hm & _ & Q)|? m ? ? ? ? ? (Hm & _ & Q)]; assert (m = n) by congruence; subst m; congruence.
      + assert (m = n) by congruence. subst m. congruence.
      + assert (m = n) by congruence. subst m. assert (v = PA (w i)) by (eapply fed_fun; eauto). subst v.
        destruct (K _ (leaf_stands i n Hn Eo)) as (v & E & Q). exists v. rewrite E. auto.
      + exfalso. destruct Hf as (name & ? & ? & ? & ? & Q' & _). inversion Hy as [? m ? ? ? ? (Hm & Q & _)|? m ? ? ? ? ? (Hm & Q & _)]; assert (m = n) by congruence; subst m; congruence.
      + exfalso. destruct Hf as (name & ? & ? & ? & ? & Q' & _). inversion He' as [? m ? ? ? ? (Hm & Q & _)|? m ? ? ? ? ? (Hm & Q & _)]; assert (m = n) by congruence; subst m; congruence.
    - destruct (lo_op g W _ n Hn Ho) as [Hv Hp]. inversion Hr as [m vid' v Hm Hv' He'|m v Hm Hv' Hf'|y ys Hy|e He']; subst.
      + assert (m = n) by congruence. subst m. congruence.
      + assert (m = n) by congruence. subst m. destruct Hf' as (name & ? & ? & ? & ? & Q' & _). congruence.
      + destruct (value_stands i n _ _ Hn Ho H Hy) as (x & E & S). injection E as -> _. destruct (K _ S) as (v & -> & Q). eauto.
      + destruct (value_stands i n _ _ Hn Ho H He') as (x & E & S). discriminate.
  Qed.

  Lemma tensor_ex i sh : meets should_be lo g -> wtyped ls lax g i (TyA sh) -> exists r, tensor_value pv_shape (place_compute place) debug g feeds env i r.
  Proof.
    intros MS H. pose proof (wtyped_lt ls lax g i _ H) as Hl. apply nth_error_Some in Hl.
    destruct (nth_error g i) as [n|] eqn:Hn; [clear Hl|congruence].
    destruct (wtyped_inputs ls lax g i n _ Hn H) as [[Eo _]|(Ho & _)].
    - destruct (HL i n Hn Eo) as [(vid & Hv & Hp & He)|[Hv Hf]]; eexists; [eapply tv_var; eauto|eapply tv_ph; eauto].
    - destruct (value_ex i MS n _ Hn Ho H) as (x & Hx). eexists. eapply tv_ok. exact Hx.
  Qed.

  (** The views an evaluation returns. *)
  Definition returns (targets : list nat) (results : list (pv + unit)) : Prop :=
    Forall2 (fun t r => exists v, r = inl (PA v) /\ contents 0%R v = aval rho g t /\ stored (order_of lo g t) (PA v)) targets results.

  Lemma eval_right fuel targets oc : (forall t, In t targets -> exists sh, wtyped ls lax g t (TyA sh)) ->
    eval pv_shape (place_compute place) debug g feeds fuel targets env = Ok oc -> returns targets (oc_results oc) /\ oc_env oc = env.
  Proof.
    intros HT He. destruct (loose_graph g W) as [Wg Ac]. apply eval_only_values in He; auto.
    - destruct He as (HF & HE & _). split; [|exact HE]. unfold returns. clear -HF HT W C HL HS M P. induction HF as [|t r ts rs H _ IH]; constructor.
      + destruct (HT t (or_introl eq_refl)) as (sh & Hty). eapply tensor_stands; eauto.
      + apply IH. intros u Hu. apply HT. right. exact Hu.
    - intros t Ht. destruct (HT t Ht) as (sh & Hty). eapply wtyped_lt; exact Hty.
    - intros i n p vid _ Hn (inc & m & Hi & Hm & _). rewrite (lo_mut g W i n inc Hn (nth_error_In _ _ Hi)) in Hm. discriminate.
  Qed.
  Lemma eval_returns fuel targets : meets should_be lo g -> (forall t, In t targets -> exists sh, wtyped ls lax g t (TyA sh)) -> distinct_computed g targets ->
    2 * (length targets + edge_count g) < fuel ->
    exists oc, eval pv_shape (place_compute place) debug g feeds fuel targets env = Ok oc.
  Proof.
    intros MS HT HD Hf. destruct (loose_graph g W) as [Wg Ac].
    assert (HR : exists rs, Forall2 (tensor_value pv_shape (place_compute place) debug g feeds env) targets rs).
    { clear HD Hf. induction targets as [|t targets IH]; [exists []; constructor|]. destruct IH as (rs & H); [intros u Hu; apply HT; right; exact Hu|].
      destruct (HT t (or_introl eq_refl)) as (sh & Hty). destruct (tensor_ex t sh MS Hty) as (r & Hr). exists (r :: rs). constructor; auto. }
    destruct HR as (rs & HR).
    assert (E : exists log, eval pv_shape (place_compute place) debug g feeds fuel targets env = Ok (Outcome rs env log)); [|destruct E as (log & E); eauto].
    apply eval_complete; auto.
    - intros i n p vid _ Hn (inc & m & Hi & Hm & _). rewrite (lo_mut g W i n inc Hn (nth_error_In _ _ Hi)) in Hm. discriminate.
    - intros i ((n & Hn & Hp & Hv) & t & Ht & Hd). destruct (HT t Ht) as (sh & Hty).
      destruct (depends_wtyped lax ls g W t i Hd _ Hty) as (ty & Hi). destruct (value_ex i MS n ty Hn) as (x & Hx); eauto.
      intros Eo. destruct (lo_leaf g W i n Hn Eo) as [_ E]. unfold is_variable, is_placeholder in E. rewrite Hp, Hv in E. discriminate.
    - intros t Ht. destruct (HT t Ht) as (sh & Hty). eapply wtyped_lt; exact Hty.
  Qed.
End Graph.
