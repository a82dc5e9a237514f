(** Graphs in which every operation fits and is applied inside its domain, and
    the constructions that keep them so. *)
From Coq Require Import String List Arith ZArith Bool Reals Lra Lia Relations.
Import ListNotations.
From Verif Require Import Graph_Model Eval_Model Eval_Spec Eval_Proofs Eval_Proofs2 Graph_Proofs Grad_Model Grad_Spec
  Scalar_Model Scalar_Spec Scalar_Proofs.
From Verif Require Import Array_Model Array_Proofs Arith_Model Arith_Final Vjp_Spec Vjp_Proofs
  Tens_Model Tens_Spec Tens_Build Tens_Final Tens_Rules Tens_Comp.
Local Open Scope R_scope.
Local Set Bullet Behavior "Strict Subproofs".

Section Clean.
Variable ls : nat -> list nat.
Variable rho : nat -> arr R.
Hypothesis C : conform ls rho.

Definition clean (s : tgraph) : Prop := forall i n, nth_error s i = Some n ->
  (forall ts, lookups (ttypes ls s) (n_inputs n) = Some ts -> op_fit (n_op n) ts = true) /\
  forall sh, shaped ls s i sh -> n_op n = TLeaf \/ n_op n = TSize \/
    (n_diff n = true /\ thawed (n_op n) = true /\ t_dom (n_op n) (in_vals rho s n)).

Lemma clean_fits s t : clean s -> fits ls s t.
Proof. intros H i n ts _ Hn HL. apply (H i n Hn). exact HL. Qed.
Lemma clean_smooth s x t : twf ls s -> clean s -> t_smooth ls s rho x t.
Proof.
  intros W H i n sh _ Dx Hne Hn Hty Hsz. destruct (H i n Hn) as [_ D]. destruct (D sh Hty) as [Q|[Q|(Q1 & Q2 & Q3)]].
  - exfalso. apply clos_rt_rt1n in Dx. inv Dx; [congruence|]. destruct H0 as (n' & inc & Hn' & Hin & Hk).
    assert (n' = n) by congruence. subst n'. destruct (twf_leaf ls s W i n Hn Q) as [E _]. rewrite E in Hin. destruct Hin.
  - contradiction.
  - split; auto. split; [left; exact Q3|]. intros p inc _ Hz. exfalso. destruct (n_op n); discriminate.
Qed.

Lemma typedl_lookups s s' ins ts : grows s s' -> typedl ls s ins ts ->
  lookups (ttypes ls s') (map (fun i => Incoming i false 0) ins) = Some ts.
Proof. intros G HT. apply lookups_spec. induction HT; simpl; constructor; auto. split; auto. eapply grows_typed; eauto. Qed.

Lemma lookups_lt (l : list (option ty)) ins ts inc : lookups l ins = Some ts -> In inc ins -> (in_id inc < length l)%nat.
Proof.
  intros H Hi. apply lookups_spec in H. apply In_nth_error in Hi. destruct Hi as (k & Hk).
  destruct (Forall2_nth _ _ _ _ _ H Hk) as (b & _ & Hb). apply nth_error_Some. destruct Hb as [_ Hb]. congruence.
Qed.
Lemma lookups_ext (l l' : list (option ty)) ins : (forall inc, In inc ins -> nth_error l (in_id inc) = nth_error l' (in_id inc)) ->
  lookups l ins = lookups l' ins.
Proof.
  induction ins as [|inc ins IH]; intros H; [reflexivity|]. simpl. rewrite IH by (intros; apply H; right; auto).
  rewrite (H inc) by (left; reflexivity). reflexivity.
Qed.

Lemma clean_grow s n : twf ls s -> clean s -> twf ls (s ++ [n]) ->
  (forall ts, lookups (ttypes ls (s ++ [n])) (n_inputs n) = Some ts -> op_fit (n_op n) ts = true) ->
  (forall sh, shaped ls (s ++ [n]) (length s) sh -> n_op n = TLeaf \/ n_op n = TSize \/
     (n_diff n = true /\ thawed (n_op n) = true /\ t_dom (n_op n) (in_vals rho (s ++ [n]) n))) ->
  clean (s ++ [n]).
Proof.
  intros W H W' HF HD i m Hm.
  assert (G : grows s (s ++ [n])) by (exists [n]; reflexivity).
  destruct (Nat.lt_ge_cases i (length s)) as [Hi|Hi].
  - rewrite nth_error_app1 in Hm by auto. destruct (H i m Hm) as [A B].
    assert (Hin : forall inc, In inc (n_inputs m) -> (in_id inc < length s)%nat).
    { intros inc Hinc. pose proof (twf_input ls s W i m inc Hm Hinc). lia. }
    split.
    + intros ts HL. apply A. rewrite <- HL. apply lookups_ext. intros inc Hinc. symmetry. apply t_types_prefix; auto.
    + intros sh Hsh. replace (in_vals rho (s ++ [n]) m) with (in_vals rho s m).
      * apply (B sh). unfold shaped in *. rewrite <- (t_types_prefix ls s (s ++ [n])); auto.
      * unfold in_vals. apply map_ext_in. intros inc Hinc. rewrite (tvalues_prefix rho s (s ++ [n])); auto.
  - assert (i = length s).
    { assert (i < length (s ++ [n]))%nat by (apply nth_error_Some; congruence). rewrite app_length in *. simpl in *. lia. }
    subst i. rewrite nth_error_app2, Nat.sub_diag in Hm by lia. inv Hm. auto.
Qed.

Lemma tmk_clean ins sh diff o ts ty vs s t s' : twf ls s -> clean s -> twf ls s' -> tmk ins sh diff o s = Some (t, s') ->
  o <> TLeaf -> typedl ls s ins ts -> op_ty o ts = Some ty -> op_fit o ts = true -> holdsl rho s ins vs ->
  (forall sh', ty = TyA sh' -> o = TSize \/ (diff = true /\ thawed o = true /\ t_dom o vs)) ->
  clean s'.
Proof.
  intros W H W' Hm Ho HT Hty HF HV HD. destruct (tmk_node _ _ _ _ _ _ _ Hm) as (-> & n & -> & Eo & Ed & Ei).
  assert (G : grows s (s ++ [n])) by (exists [n]; reflexivity).
  assert (HL : lookups (ttypes ls (s ++ [n])) (n_inputs n) = Some ts) by (rewrite Ei; eapply typedl_lookups; eauto).
  apply clean_grow; auto.
  - intros ts' HL'. assert (ts' = ts) by congruence. subst ts'. rewrite Eo. exact HF.
  - intros sh' Hs. right.
    assert (Hn : nth_error (s ++ [n]) (length s) = Some n) by (rewrite nth_error_app2, Nat.sub_diag; auto).
    destruct (typed_inputs ls (s ++ [n]) _ n _ Hn Hs) as [[E _]|(_ & ts' & HT' & Hop)]; [congruence|].
    assert (HL2 : lookups (ttypes ls (s ++ [n])) (n_inputs n) = Some ts').
    { apply lookups_spec. eapply Forall2_imp; [|exact HT']. simpl. tauto. }
    assert (ts' = ts) by congruence. subst ts'. rewrite Eo in *.
    destruct (HD sh') as [Q|(Q1 & Q2 & Q3)]; [congruence|left; exact Q|right].
    split; [congruence|]. split; [exact Q2|].
    replace (in_vals rho (s ++ [n]) n) with vs; auto. unfold in_vals. rewrite Ei. clear -HV G.
    induction HV as [|a v ins vs Ha _ IH]; simpl; [reflexivity|]. rewrite <- IH. f_equal.
    pose proof (grows_holds rho s (s ++ [n]) a v G Ha) as Q. unfold holds in Q. rewrite Q. reflexivity.
Qed.

Lemma typed_holds s a ta : typed ls s a ta -> exists v, holds rho s a v /\ has_ty v ta.
Proof. apply typed_values. exact C. Qed.

Lemma a_shape_of_clean x sh s t s' : twf ls s -> clean s -> typed ls s x (TyA sh) -> a_shape_of x s = Some (t, s') -> clean s'.
Proof.
  intros W H HT E. pose proof (a_shape_of_spec ls x sh s t s' W HT E) as (W' & _). unfold a_shape_of in E.
  destruct (nth_error s x) as [n|]; [|discriminate]. destruct (n_shape n); [inv E; auto|].
  destruct (typed_holds s x _ HT) as (v & Hv & _).
  eapply (tmk_clean _ _ _ _ [TyA sh] (TyI (shape_vec sh)) [v]); [exact W|exact H|exact W'|exact E|discriminate| |reflexivity|reflexivity| |discriminate];
    (constructor; [auto|constructor]).
Qed.
Lemma a_ints_clean l s t s' : twf ls s -> clean s -> a_ints l s = Some (t, s') -> clean s'.
Proof.
  intros W H E. pose proof (a_ints_spec ls l s t s' W E) as (W' & _). unfold a_ints in E. bindH E.
  pose proof (tmk_spec ls [] None true (TConstI [Z.of_nat (length l)]) [] (TyI [Z.of_nat (length l)]) s a s0) as (W1 & _); auto; try discriminate; [constructor|].
  assert (H1 : clean s0).
  { eapply (tmk_clean [] _ _ _ [] (TyI [Z.of_nat (length l)]) []); [exact W|exact H|exact W1|exact E0| | | | | |]; try discriminate; try reflexivity; constructor. }
  eapply (tmk_clean [] _ _ _ [] (TyI l) []); [exact W1|exact H1|exact W'|exact E| | | | | |]; try discriminate; try reflexivity; constructor.
Qed.
Lemma a_scalar_clean r s t s' : twf ls s -> clean s -> a_scalar r s = Some (t, s') -> clean s'.
Proof.
  intros W H E. pose proof (a_scalar_spec ls r s t s' W E) as (W' & _). unfold a_scalar in E. bindH E.
  pose proof (a_ints_spec ls [] s a s0 W E0) as (W1 & _). pose proof (a_ints_clean _ _ _ _ W H E0) as H1.
  eapply (tmk_clean [] _ _ _ [] (TyA []) []); [exact W1|exact H1|exact W'|exact E|discriminate|constructor|reflexivity|reflexivity|constructor|].
  intros sh' _. right. repeat split.
Qed.
Lemma a_zeros_like_clean x sh s t s' : twf ls s -> clean s -> typed ls s x (TyA sh) -> a_zeros_like x s = Some (t, s') -> clean s'.
Proof.
  intros W H HT E. pose proof (a_zeros_like_spec ls x sh s t s' W HT E) as (W' & _). unfold a_zeros_like in E. bindH E.
  pose proof (a_shape_of_spec ls x sh s a s0 W HT E0) as (W1 & G1 & T1 & _). pose proof (a_shape_of_clean _ _ _ _ _ W H HT E0) as H1.
  destruct (typed_holds _ _ _ T1) as (v & Hv & _).
  eapply (tmk_clean _ _ _ _ [TyI (shape_vec sh)] (TyA sh) [v]); [exact W1|exact H1|exact W'|exact E|discriminate| | |reflexivity| |].
  - constructor; [auto|constructor].
  - unfold op_ty. rewrite Tens_Fwd.dims_shape_vec. reflexivity.
  - constructor; [auto|constructor].
  - intros sh' _. right. repeat split.
Qed.
Lemma a_sum_all_clean x sh s t s' : twf ls s -> clean s -> typed ls s x (TyA sh) -> a_sum_all x s = Some (t, s') -> clean s'.
Proof.
  intros W H HT E. pose proof (a_sum_all_spec ls x sh s t s' W HT E) as (W' & _). unfold a_sum_all in E.
  destruct (typed_holds _ _ _ HT) as (v & Hv & Tv).
  eapply (tmk_clean _ _ _ _ [TyA sh] (TyA []) [v]); [exact W|exact H|exact W'|exact E|discriminate| |reflexivity|reflexivity| |].
  - constructor; [auto|constructor].
  - constructor; [auto|constructor].
  - intros sh' _. right. repeat split.
Qed.
Lemma a_add_n_clean l sh s t s' : twf ls s -> clean s -> List.Forall (fun x => typed ls s x (TyA sh)) l -> a_add_n l s = Some (t, s') -> clean s'.
Proof.
  intros W H HT E. pose proof (a_add_n_spec ls l sh s t s' W HT E) as (W' & _). unfold a_add_n in E.
  destruct l as [|x l]; [discriminate|]. bindH E. assert (Hx : typed ls s x (TyA sh)) by (inv HT; auto).
  pose proof (a_shape_of_spec ls x sh s a s0 W Hx E0) as (W1 & G1 & _). pose proof (a_shape_of_clean _ _ _ _ _ W H Hx E0) as H1.
  assert (HT1 : typedl ls s0 (x :: l) (map (fun _ => TyA sh) (x :: l))).
  { clear -HT G1. induction HT; simpl; constructor; auto. eapply grows_typed; eauto. }
  assert (HV1 : exists vs, holdsl rho s0 (x :: l) vs).
  { clear -HT1 C. set (L := x :: l) in *. clearbody L. set (T := map (fun _ => TyA sh) L) in *. clearbody T. induction HT1 as [|a ta L T Ha _ (vs & IH)]; [exists []; constructor|].
    destruct (typed_values ls rho s0 C a ta Ha) as (v & Hv & _). exists (v :: vs). constructor; auto. }
  destruct HV1 as (vs & HV1).
  eapply (tmk_clean _ _ _ _ _ (TyA sh) vs); [exact W1|exact H1|exact W'|exact E|discriminate|exact HT1| |reflexivity|exact HV1|].
  - simpl. replace (forallb _ _) with true; [reflexivity|]. symmetry. apply forallb_forall. intros t0 Ht. apply in_map_iff in Ht.
    destruct Ht as (z & <- & _). apply shape_eqb_refl.
  - intros sh' _. right. repeat split.
Qed.
Lemma a_un_clean u x sh v s t s' : twf ls s -> clean s -> typed ls s x (TyA sh) -> holds rho s x v ->
  op_fit (TUn u) [TyA sh] = true -> dom_at (TUn u) [v] -> a_un u x s = Some (t, s') -> clean s'.
Proof.
  intros W H HT HV HF HD E. pose proof (a_un_spec ls u x sh s t s' W HT E) as (W' & _). unfold a_un in E.
  assert (D : forall sh' : list nat, TyA sh = TyA sh' -> TUn u = TSize \/ (true = true /\ thawed (TUn u) = true /\ t_dom (TUn u) [v])).
  { intros _ _. destruct HD as [HD|HD]; [discriminate|auto]. }
  destruct (un_sets_shape u).
  - bindH E. destruct (a_shape_of_spec ls x sh s a s0 W HT E0) as (W1 & G1 & _). pose proof (a_shape_of_clean _ _ _ _ _ W H HT E0) as H1.
    eapply (tmk_clean _ _ _ _ [TyA sh] (TyA sh) [v]); [exact W1|exact H1|exact W'|exact E|discriminate| |reflexivity|exact HF| |exact D].
    + constructor; [eapply grows_typed; eauto|constructor].
    + constructor; [eapply grows_holds; eauto|constructor].
  - eapply (tmk_clean _ _ _ _ [TyA sh] (TyA sh) [v]); [exact W|exact H|exact W'|exact E|discriminate| |reflexivity|exact HF| |exact D];
      (constructor; [auto|constructor]).
Qed.
Lemma a_bin_clean b p q s0 s1 r v w s t s' : twf ls s -> clean s -> typed ls s p (TyA s0) -> typed ls s q (TyA s1) -> bin_ty b s0 s1 = Some r ->
  holds rho s p v -> holds rho s q w -> op_fit (TBin b) [TyA s0; TyA s1] = true -> dom_at (TBin b) [v; w] ->
  a_bin b p q s = Some (t, s') -> clean s'.
Proof.
  intros W H HP HQ HB HV HW HF HD E. pose proof (a_bin_spec ls b p q s0 s1 r s t s' W HP HQ HB E) as (W' & _).
  assert (D : forall sh' : list nat, TyA r = TyA sh' -> TBin b = TSize \/ (true = true /\ thawed (TBin b) = true /\ t_dom (TBin b) [v; w])).
  { intros _ _. destruct HD as [HD|HD]; [discriminate|auto]. }
  assert (Hfin : forall sa sh, grows s sa -> twf ls sa -> clean sa -> tmk [p; q] sh true (TBin b) sa = Some (t, s') -> clean s').
  { intros sa sh G Wa Ha Hm. eapply (tmk_clean _ _ _ _ [TyA s0; TyA s1] (TyA r) [v; w]); [exact Wa|exact Ha|exact W'|exact Hm|discriminate| | |exact HF| |exact D].
    - constructor; [eapply grows_typed; eauto|constructor; [eapply grows_typed; eauto|constructor]].
    - unfold op_ty. rewrite HB. reflexivity.
    - constructor; [eapply grows_holds; eauto|constructor; [eapply grows_holds; eauto|constructor]]. }
  assert (HA : arith_ty s0 s1 = Some r ->
    tbind (a_shape_of p) (fun sx => tbind (a_shape_of q) (fun sy =>
      tbind (tmk [sx; sy] None true TInferShape) (fun sh => tmk [p; q] (Some sh) true (TBin b)))) s = Some (t, s') -> clean s').
  { intros HR Hm. apply Tens_Fwd.arith_ty_ok in HR. destruct HR as (_ & HI & _).
    bindH Hm. pose proof (a_shape_of_clean _ _ _ _ _ W H HP E0) as H1. apply (a_shape_of_spec ls p s0) in E0; auto. destruct E0 as (W1 & G1 & T1 & _).
    assert (HQ1 : typed ls s2 q (TyA s1)) by (eapply grows_typed; eauto).
    bindH Hm. pose proof (a_shape_of_clean _ _ _ _ _ W1 H1 HQ1 E0) as H2. apply (a_shape_of_spec ls q s1) in E0; auto. destruct E0 as (W2 & G2 & T2 & _).
    bindH Hm. pose proof E0 as E1. assert (T1' : typed ls s3 a (TyI (shape_vec s0))) by (eapply grows_typed; eauto).
    apply (tmk_spec ls _ _ _ _ [TyI (shape_vec s0); TyI (shape_vec s1)] (TyI (shape_vec r))) in E0; auto; try discriminate.
    - destruct E0 as (W3 & G3 & T3 & _).
      assert (H3 : clean s4).
      { destruct (typed_holds _ _ _ T1') as (va & Ha & _). destruct (typed_holds _ _ _ T2) as (vb & Hb & _).
        eapply (tmk_clean _ _ _ _ [TyI (shape_vec s0); TyI (shape_vec s1)] (TyI (shape_vec r)) [va; vb]); [exact W2|exact H2|exact W3|exact E1|discriminate| | |reflexivity| |discriminate].
        - constructor; [auto|constructor; [auto|constructor]].
        - unfold op_ty. rewrite !Tens_Fwd.dims_shape_vec, HI. reflexivity.
        - constructor; [auto|constructor; [auto|constructor]]. }
      eapply Hfin; [|exact W3|exact H3|exact Hm]. eapply grows_trans; [exact G1|]. eapply grows_trans; eauto.
    - constructor; [auto|constructor; [auto|constructor]].
    - unfold op_ty. rewrite !Tens_Fwd.dims_shape_vec, HI. reflexivity. }
  assert (HS : tbind (a_shape_of q) (fun sh => tmk [p; q] (Some sh) true (TBin b)) s = Some (t, s') -> clean s').
  { intros Hm. bindH Hm. pose proof (a_shape_of_clean _ _ _ _ _ W H HQ E0) as H1. apply (a_shape_of_spec ls q s1) in E0; auto. destruct E0 as (W1 & G1 & T1 & _).
    eapply Hfin; [exact G1|exact W1|exact H1|exact Hm]. }
  destruct b; simpl in HB; unfold a_bin in E; try (apply HA; auto; fail); try (apply HS; auto; fail);
    try (apply (Hfin s None); [apply grows_refl|exact W|exact H|exact E]).
  destruct (shape_eqb s1 [1%nat]); [discriminate|]. apply HA; auto.
Qed.

Lemma stored_clean ins ts m last tl t s sh s' : twf ls s -> clean s -> typedl ls s ins ts -> typed ls s last tl ->
  stored_in ts m = true -> stored_ok ts m tl t = true -> stored ins m last s = Some (sh, s') -> clean s'.
Proof.
  intros W H TI TL A B D. destruct m; simpl in *; try (inv D; auto; fail).
  destruct (nth_error ins i) as [x|] eqn:E; [|discriminate]. destruct (Forall2_nth _ _ _ _ _ TI E) as (tx & Etx & Htx).
  rewrite Etx in A. destruct tx as [shx|]; [|discriminate]. bindH D. inv D. eapply a_shape_of_clean; eauto.
Qed.

(** What building an expression does, with its value. *)
Lemma build_expr_holds ins ts vs out gy tout tgy vo vg : forall e env tenv ve s t s' ty, twf ls s ->
  typedl ls s ins ts -> typed ls s out tout -> typed ls s gy tgy -> typedl ls s env tenv ->
  holdsl rho s ins vs -> holds rho s out vo -> holds rho s gy vg -> holdsl rho s env ve -> ety ts tout tgy tenv e = Some ty ->
  build_expr ins out gy env e s = Some (t, s') ->
  twf ls s' /\ grows s s' /\ typed ls s' t ty /\ exists v, eeval vs vo vg ve e = Some v /\ holds rho s' t v.
Proof.
  intros e env tenv ve s t s' ty W TI TO TG TE HI HO HG HE Ht Hb.
  destruct (build_expr_spec ls ins ts out gy tout tgy e env tenv s t s' ty W TI TO TG TE Ht Hb) as (W1 & G1 & T1 & V1).
  split; auto. split; auto. split; auto.
  assert (HV : forall l tl vl, typedl ls s l tl -> holdsl rho s l vl -> Forall2 has_ty vl tl).
  { intros l tl vl A. revert vl. induction A as [|a ta l tl Ha _ IH]; intros vl B; inv B; constructor; auto.
    destruct (typed_values ls rho s C _ _ Ha) as (v' & Q1 & Q2). rewrite (holds_fun rho s a y v'); auto. }
  assert (HV1 : forall a ta v, typed ls s a ta -> holds rho s a v -> has_ty v ta).
  { intros a ta v Ha Hv. destruct (typed_values ls rho s C _ _ Ha) as (v' & Q1 & Q2). rewrite (holds_fun rho s a v v'); auto. }
  destruct (ety_sound ts vs tout vo tgy vg) with (e := e) (env := tenv) (ve := ve) (t := ty) as (v & Ev & _); eauto.
  exists v. split; auto. apply V1. split; auto. exists vs, vo, vg, ve. auto.
Qed.

Ltac grow G := first [eapply grows_typed; [exact G|]; assumption | eapply grows_holds; [exact G|]; assumption
  | eapply grows_typedl; [exact G|]; assumption | eapply grows_holdsl; [exact G|]; assumption].
Lemma build_expr_clean ins ts vs out gy tout tgy vo vg : forall e env tenv ve s t s' ty, twf ls s -> clean s ->
  typedl ls s ins ts -> typed ls s out tout -> typed ls s gy tgy -> typedl ls s env tenv ->
  holdsl rho s ins vs -> holds rho s out vo -> holds rho s gy vg -> holdsl rho s env ve ->
  ety ts tout tgy tenv e = Some ty -> efitb true ts tout tgy tenv e = true -> edomb true vs vo vg ve e ->
  build_expr ins out gy env e s = Some (t, s') -> clean s'.
Proof.
  pose proof (build_expr_holds ins ts vs out gy tout tgy vo vg) as Hev.
  induction e; intros env tenv ve s t s' ty W K TI TO TG TE HI HO HG HE Ht HF HD Hb; cbn [build_expr ety efitb edomb] in *.
  - inv Hb. auto.
  - destruct (nth_error ins i) as [a|] eqn:E; [|discriminate]. inv Hb. auto.
  - inv Hb. auto.
  - destruct (nth_error env k) as [a|] eqn:E; [|discriminate]. inv Hb. auto.
  - destruct (nth_error ins i) as [a|] eqn:E; [|discriminate]. destruct (Forall2_nth _ _ _ _ _ TI E) as (ta & Eta & Ha).
    rewrite Eta in Ht. destruct ta as [sh|]; [|discriminate]. eapply a_shape_of_clean; eauto.
  - eapply a_scalar_clean; eauto.
  - eapply a_ints_clean; eauto.
  - bindH Hb. destruct (ety ts tout tgy tenv e) as [t1|] eqn:E1; [|discriminate]. apply andb_prop in HF. destruct HF as [F1 F2]. destruct HD as [D1 D2].
    destruct (Hev _ _ _ _ _ _ _ _ W TI TO TG TE HI HO HG HE E1 E) as (W1 & G1 & T1 & v1 & V1 & H1).
    destruct t1 as [sh|]; [|discriminate].
    eapply a_un_clean; [exact W1|exact (IHe _ _ _ _ _ _ _ W K TI TO TG TE HI HO HG HE E1 F1 D1 E)|exact T1|exact H1|exact F2|apply D2; exact V1|exact Hb].
  - bindH Hb. destruct (ety ts tout tgy tenv e1) as [t1|] eqn:E1; [|discriminate]. destruct (ety ts tout tgy tenv e2) as [t2|] eqn:E2; [|discriminate].
    apply andb_prop in HF. destruct HF as [F1 F3]. apply andb_prop in F1. destruct F1 as [F1 F2]. destruct HD as (D1 & D2 & D3).
    destruct (Hev _ _ _ _ _ _ _ _ W TI TO TG TE HI HO HG HE E1 E) as (W1 & G1 & T1 & v1 & V1 & H1).
    pose proof (IHe1 _ _ _ _ _ _ _ W K TI TO TG TE HI HO HG HE E1 F1 D1 E) as K1.
    bindH Hb.
    assert (TI1 : typedl ls s0 ins ts) by grow G1. assert (TO1 : typed ls s0 out tout) by grow G1. assert (TG1 : typed ls s0 gy tgy) by grow G1.
    assert (TE1 : typedl ls s0 env tenv) by grow G1. assert (HI1 : holdsl rho s0 ins vs) by grow G1. assert (HO1 : holds rho s0 out vo) by grow G1.
    assert (HG1 : holds rho s0 gy vg) by grow G1. assert (HE1 : holdsl rho s0 env ve) by grow G1.
    destruct (Hev _ _ _ _ _ _ _ _ W1 TI1 TO1 TG1 TE1 HI1 HO1 HG1 HE1 E2 E0) as (W2 & G2 & T2 & v2 & V2 & H2).
    destruct t1 as [sh1|]; [|discriminate]. destruct t2 as [sh2|]; [|discriminate].
    cbn [op_ty] in Ht. destruct (bin_ty b sh1 sh2) as [r|] eqn:EB; [|discriminate].
    eapply a_bin_clean; [exact W2|exact (IHe2 _ _ _ _ _ _ _ W1 K1 TI1 TO1 TG1 TE1 HI1 HO1 HG1 HE1 E2 F2 D2 E0)|eapply grows_typed; eauto|exact T2|exact EB|eapply grows_holds; eauto|exact H2|exact F3|apply D3; auto|exact Hb].
  - bindH Hb. destruct (ety ts tout tgy tenv e) as [t1|] eqn:E1; [|discriminate]. apply andb_prop in HF. destruct HF as [F1 F2]. destruct HD as [D1 D2].
    destruct (Hev _ _ _ _ _ _ _ _ W TI TO TG TE HI HO HG HE E1 E) as (W1 & G1 & T1 & v1 & V1 & H1).
    pose proof (IHe _ _ _ _ _ _ _ W K TI TO TG TE HI HO HG HE E1 F1 D1 E) as K1.
    apply ety_op_inv in Ht. destruct Ht as (Ht & Hl & SI & SO). bindH Hb.
    assert (TI1 : typedl ls s0 ins ts) by grow G1.
    destruct (stored_spec ls _ _ _ _ _ _ _ _ _ W1 TI1 T1 SI SO E0) as (W2 & G2 & S2).
    pose proof (stored_clean _ _ _ _ _ _ _ _ _ W1 K1 TI1 T1 SI SO E0) as K2.
    assert (T2 : typedl ls s1 [a] [t1]) by (constructor; [eapply grows_typed; eauto|constructor]).
    destruct (tmk_spec ls _ _ _ _ [t1] ty _ _ _ W2 Hl Hb) as (W3 & _); auto.
    eapply (tmk_clean _ _ _ _ [t1] ty [v1]); [exact W2|exact K2|exact W3|exact Hb|exact Hl|exact T2|exact Ht|exact F2| |].
    + constructor; [eapply grows_holds; eauto|constructor].
    + intros sh' _. destruct (D2 v1 V1) as [D|[DT D]]; auto. destruct o; auto.
  - bindH Hb. destruct (ety ts tout tgy tenv e1) as [t1|] eqn:E1; [|discriminate]. destruct (ety ts tout tgy tenv e2) as [t2|] eqn:E2; [|discriminate].
    apply andb_prop in HF. destruct HF as [F1 F3]. apply andb_prop in F1. destruct F1 as [F1 F2]. destruct HD as (D1 & D2 & D3).
    destruct (Hev _ _ _ _ _ _ _ _ W TI TO TG TE HI HO HG HE E1 E) as (W1 & G1 & T1 & v1 & V1 & H1).
    pose proof (IHe1 _ _ _ _ _ _ _ W K TI TO TG TE HI HO HG HE E1 F1 D1 E) as K1.
    bindH Hb.
    assert (TI1 : typedl ls s0 ins ts) by grow G1. assert (TO1 : typed ls s0 out tout) by grow G1. assert (TG1 : typed ls s0 gy tgy) by grow G1.
    assert (TE1 : typedl ls s0 env tenv) by grow G1. assert (HI1 : holdsl rho s0 ins vs) by grow G1. assert (HO1 : holds rho s0 out vo) by grow G1.
    assert (HG1 : holds rho s0 gy vg) by grow G1. assert (HE1 : holdsl rho s0 env ve) by grow G1.
    destruct (Hev _ _ _ _ _ _ _ _ W1 TI1 TO1 TG1 TE1 HI1 HO1 HG1 HE1 E2 E0) as (W2 & G2 & T2 & v2 & V2 & H2).
    pose proof (IHe2 _ _ _ _ _ _ _ W1 K1 TI1 TO1 TG1 TE1 HI1 HO1 HG1 HE1 E2 F2 D2 E0) as K2.
    apply ety_op_inv in Ht. destruct Ht as (Ht & Hl & SI & SO). bindH Hb.
    assert (TI2 : typedl ls s1 ins ts) by grow G2.
    destruct (stored_spec ls _ _ _ _ _ _ _ _ _ W2 TI2 T2 SI SO E3) as (W3 & G3 & S3).
    pose proof (stored_clean _ _ _ _ _ _ _ _ _ W2 K2 TI2 T2 SI SO E3) as K3.
    assert (T3 : typedl ls s2 [a; a0] [t1; t2]).
    { constructor; [eapply grows_typed; [exact G3|]; eapply grows_typed; eauto|constructor; [eapply grows_typed; eauto|constructor]]. }
    destruct (tmk_spec ls _ _ _ _ [t1; t2] ty _ _ _ W3 Hl Hb) as (W4 & _); auto.
    eapply (tmk_clean _ _ _ _ [t1; t2] ty [v1; v2]); [exact W3|exact K3|exact W4|exact Hb|exact Hl|exact T3|exact Ht|exact F3| |].
    + constructor; [eapply grows_holds; [exact G3|]; eapply grows_holds; eauto|constructor; [eapply grows_holds; eauto|constructor]].
    + intros sh' _. destruct (D3 v1 v2 V1 V2) as [D|[DT D]]; auto.
  - bindH Hb. destruct (ety ts tout tgy tenv e1) as [t1|] eqn:E1; [|discriminate]. destruct (ety ts tout tgy tenv e2) as [t2|] eqn:E2; [|discriminate].
    destruct (ety ts tout tgy tenv e3) as [t3|] eqn:E3; [|discriminate].
    apply andb_prop in HF. destruct HF as [F1 F4]. apply andb_prop in F1. destruct F1 as [F1 F3]. apply andb_prop in F1. destruct F1 as [F1 F2]. destruct HD as (D1 & D2 & D3 & D4).
    destruct (Hev _ _ _ _ _ _ _ _ W TI TO TG TE HI HO HG HE E1 E) as (W1 & G1 & T1 & v1 & V1 & H1).
    pose proof (IHe1 _ _ _ _ _ _ _ W K TI TO TG TE HI HO HG HE E1 F1 D1 E) as K1.
    bindH Hb.
    assert (TI1 : typedl ls s0 ins ts) by grow G1. assert (TO1 : typed ls s0 out tout) by grow G1. assert (TG1 : typed ls s0 gy tgy) by grow G1.
    assert (TE1 : typedl ls s0 env tenv) by grow G1. assert (HI1 : holdsl rho s0 ins vs) by grow G1. assert (HO1 : holds rho s0 out vo) by grow G1.
    assert (HG1 : holds rho s0 gy vg) by grow G1. assert (HE1 : holdsl rho s0 env ve) by grow G1.
    destruct (Hev _ _ _ _ _ _ _ _ W1 TI1 TO1 TG1 TE1 HI1 HO1 HG1 HE1 E2 E0) as (W2 & G2 & T2 & v2 & V2 & H2).
    pose proof (IHe2 _ _ _ _ _ _ _ W1 K1 TI1 TO1 TG1 TE1 HI1 HO1 HG1 HE1 E2 F2 D2 E0) as K2.
    bindH Hb.
    assert (TI2 : typedl ls s1 ins ts) by grow G2. assert (TO2 : typed ls s1 out tout) by grow G2. assert (TG2 : typed ls s1 gy tgy) by grow G2.
    assert (TE2 : typedl ls s1 env tenv) by grow G2. assert (HI2 : holdsl rho s1 ins vs) by grow G2. assert (HO2 : holds rho s1 out vo) by grow G2.
    assert (HG2 : holds rho s1 gy vg) by grow G2. assert (HE2 : holdsl rho s1 env ve) by grow G2.
    destruct (Hev _ _ _ _ _ _ _ _ W2 TI2 TO2 TG2 TE2 HI2 HO2 HG2 HE2 E3 E4) as (W3 & G3 & T3 & v3 & V3 & H3).
    pose proof (IHe3 _ _ _ _ _ _ _ W2 K2 TI2 TO2 TG2 TE2 HI2 HO2 HG2 HE2 E3 F3 D3 E4) as K3.
    apply ety_op_inv in Ht. destruct Ht as (Ht & Hl & SI & SO). bindH Hb.
    assert (TI3 : typedl ls s2 ins ts) by grow G3.
    destruct (stored_spec ls _ _ _ _ _ _ _ _ _ W3 TI3 T3 SI SO E5) as (W4 & G4 & S4).
    pose proof (stored_clean _ _ _ _ _ _ _ _ _ W3 K3 TI3 T3 SI SO E5) as K4.
    assert (G34 : grows s1 s3) by (eapply grows_trans; eauto). assert (G24 : grows s0 s3) by (eapply grows_trans; eauto).
    assert (T4 : typedl ls s3 [a; a0; a1] [t1; t2; t3]).
    { constructor; [eapply grows_typed; [exact G24|exact T1]|constructor; [eapply grows_typed; [exact G34|exact T2]|constructor; [eapply grows_typed; [exact G4|exact T3]|constructor]]]. }
    destruct (tmk_spec ls _ _ _ _ [t1; t2; t3] ty _ _ _ W4 Hl Hb) as (W5 & _); auto.
    eapply (tmk_clean _ _ _ _ [t1; t2; t3] ty [v1; v2; v3]); [exact W4|exact K4|exact W5|exact Hb|exact Hl|exact T4|exact Ht|exact F4| |].
    + constructor; [eapply grows_holds; [exact G24|exact H1]|constructor; [eapply grows_holds; [exact G34|exact H2]|constructor; [eapply grows_holds; [exact G4|exact H3]|constructor]]].
    + intros sh' _. destruct (D4 v1 v2 v3 V1 V2 V3) as [D|[DT D]]; auto.
  - bindH Hb. destruct (ety ts tout tgy tenv e1) as [t1|] eqn:E1; [|discriminate]. apply andb_prop in HF. destruct HF as [F1 F2]. destruct HD as (D1 & D2).
    destruct (Hev _ _ _ _ _ _ _ _ W TI TO TG TE HI HO HG HE E1 E) as (W1 & G1 & T1 & v1 & V1 & H1).
    pose proof (IHe1 _ _ _ _ _ _ _ W K TI TO TG TE HI HO HG HE E1 F1 D1 E) as K1.
    assert (TI1 : typedl ls s0 ins ts) by grow G1. assert (TO1 : typed ls s0 out tout) by grow G1. assert (TG1 : typed ls s0 gy tgy) by grow G1.
    assert (TE1 : typedl ls s0 (a :: env) (t1 :: tenv)) by (constructor; [exact T1|grow G1]). assert (HI1 : holdsl rho s0 ins vs) by grow G1. assert (HO1 : holds rho s0 out vo) by grow G1.
    assert (HG1 : holds rho s0 gy vg) by grow G1. assert (HE1 : holdsl rho s0 (a :: env) (v1 :: ve)) by (constructor; [exact H1|grow G1]).
    exact (IHe2 _ _ _ _ _ _ _ W1 K1 TI1 TO1 TG1 TE1 HI1 HO1 HG1 HE1 Ht F2 (D2 v1 V1) Hb).
Qed.

Lemma build_exprs_clean ins ts vs out gy tout tgy vo vg : forall rs s l s', twf ls s -> clean s ->
  typedl ls s ins ts -> typed ls s out tout -> typed ls s gy tgy ->
  holdsl rho s ins vs -> holds rho s out vo -> holds rho s gy vg ->
  (forall p e, nth_error rs p = Some (Some e) -> exists ty, ety ts tout tgy [] e = Some ty /\ efitb true ts tout tgy [] e = true /\ edomb true vs vo vg [] e) ->
  build_exprs ins out gy rs s = Some (l, s') -> clean s'.
Proof.
  induction rs as [|[e|] rs IH]; intros s l s' W K TI TO TG HI HO HG HR Hb; simpl in Hb.
  - inv Hb. auto.
  - bindH Hb. bindH Hb. inv Hb. destruct (HR 0%nat e eq_refl) as (ty & Ht & F & D).
    destruct (build_expr_holds ins ts vs out gy tout tgy vo vg e [] [] [] s a s0 ty W TI TO TG (Forall2_nil _) HI HO HG (Forall2_nil _) Ht E) as (W1 & G1 & _).
    refine (IH s0 a0 s' W1 _ _ _ _ _ _ _ _ E0); try (grow G1).
    + exact (build_expr_clean ins ts vs out gy tout tgy vo vg e [] [] [] s a s0 ty W K TI TO TG (Forall2_nil _) HI HO HG (Forall2_nil _) Ht F D E).
    + intros p e' Hp. apply (HR (S p) e' Hp).
  - bindH Hb. inv Hb. eapply (IH s _ s'); eauto. intros p e' Hp. apply (HR (S p) e' Hp).
Qed.
End Clean.
