(** Expressions built from tensors that fit and are smooth fit and are smooth. *)
From Coq Require Import String List Arith ZArith Bool Reals Lra Lia Relations.
Import ListNotations.
From Verif Require Import Graph_Model Eval_Model Eval_Spec Eval_Proofs Eval_Proofs2 Graph_Proofs Grad_Model Grad_Spec
  Scalar_Model Scalar_Spec Scalar_Proofs.
From Verif Require Import Array_Model Array_Proofs Arith_Model Arith_Final Vjp_Spec Vjp_Proofs
  Tens_Model Tens_Spec Tens_Build Tens_Final Tens_Rules.
Local Open Scope R_scope.
Local Set Bullet Behavior "Strict Subproofs".

(** Every operation of the expression is used where its rule fits; shapes of
    inputs may occur only when [shp] is set. *)
Fixpoint efitb (shp : bool) (ts : list ty) (tout tgy : ty) (env : list ty) (e : expr) : bool :=
  match e with
  | EGy | EIn _ | EOut | EVar _ | EScalar _ | EInts _ => true
  | EShape _ => shp
  | EUn u e => efitb shp ts tout tgy env e && match ety ts tout tgy env e with Some t => op_fit (TUn u) [t] | None => false end
  | EBin b e1 e2 => efitb shp ts tout tgy env e1 && efitb shp ts tout tgy env e2 &&
      match ety ts tout tgy env e1, ety ts tout tgy env e2 with Some t1, Some t2 => op_fit (TBin b) [t1; t2] | _, _ => false end
  | EOp1 o _ e => efitb shp ts tout tgy env e && match ety ts tout tgy env e with Some t => op_fit o [t] | None => false end
  | EOp2 o _ e1 e2 => efitb shp ts tout tgy env e1 && efitb shp ts tout tgy env e2 &&
      match ety ts tout tgy env e1, ety ts tout tgy env e2 with Some t1, Some t2 => op_fit o [t1; t2] | _, _ => false end
  | EOp3 o _ e1 e2 e3 => efitb shp ts tout tgy env e1 && efitb shp ts tout tgy env e2 && efitb shp ts tout tgy env e3 &&
      match ety ts tout tgy env e1, ety ts tout tgy env e2, ety ts tout tgy env e3 with
      | Some t1, Some t2, Some t3 => op_fit o [t1; t2; t3] | _, _, _ => false end
  | ELet e body => efitb shp ts tout tgy env e && match ety ts tout tgy env e with Some t => efitb shp ts tout tgy (t :: env) body | None => false end
  end.

(** Every operation of the expression is differentiable at the values it gets. *)
Definition thawed (o : top) : bool := match o with TSigmoidXent => false | _ => true end.
Definition dom_at (o : top) (vs : list tv) : Prop := o = TSize \/ (thawed o = true /\ t_dom o vs).
Fixpoint edomb (shp : bool) (vs : list tv) (vo vg : tv) (env : list tv) (e : expr) : Prop :=
  match e with
  | EGy | EIn _ | EOut | EVar _ | EScalar _ | EInts _ => True
  | EShape _ => shp = true
  | EUn u e => edomb shp vs vo vg env e /\ forall v, eeval vs vo vg env e = Some v -> dom_at (TUn u) [v]
  | EBin b e1 e2 => edomb shp vs vo vg env e1 /\ edomb shp vs vo vg env e2 /\
      forall v1 v2, eeval vs vo vg env e1 = Some v1 -> eeval vs vo vg env e2 = Some v2 -> dom_at (TBin b) [v1; v2]
  | EOp1 o _ e => edomb shp vs vo vg env e /\ forall v, eeval vs vo vg env e = Some v -> dom_at o [v]
  | EOp2 o _ e1 e2 => edomb shp vs vo vg env e1 /\ edomb shp vs vo vg env e2 /\
      forall v1 v2, eeval vs vo vg env e1 = Some v1 -> eeval vs vo vg env e2 = Some v2 -> dom_at o [v1; v2]
  | EOp3 o _ e1 e2 e3 => edomb shp vs vo vg env e1 /\ edomb shp vs vo vg env e2 /\ edomb shp vs vo vg env e3 /\
      forall v1 v2 v3, eeval vs vo vg env e1 = Some v1 -> eeval vs vo vg env e2 = Some v2 -> eeval vs vo vg env e3 = Some v3 ->
        dom_at o [v1; v2; v3]
  | ELet e body => edomb shp vs vo vg env e /\ forall v, eeval vs vo vg env e = Some v -> edomb shp vs vo vg (v :: env) body
  end.

Notation efit := (efitb false).
Notation edom := (edomb false).

Ltac bindH H := unfold tbind in H;
  match type of H with match ?m with _ => _ end = _ =>
    let a := fresh "a" in let s := fresh "s" in let E := fresh "E" in
    destruct m as [[a s]|] eqn:E; [|discriminate] end.
Section Comp.
(** [lax = true]: gathers are allowed as well. *)
Variable lax : bool.
Variable ls : nat -> list nat.

(** Both facts about a tensor, for the leaf [x] at [rho]. *)
Definition nice (rho : nat -> arr R) (x : nat) (s : tgraph) (t : nat) : Prop := usesx lax ls s t /\ t_smooth ls s rho x t.
Lemma nice_grows rho x s s' t : twf ls s -> grows s s' -> (t < length s)%nat -> nice rho x s t -> nice rho x s' t.
Proof. intros W G L [A B]. split; [eapply usesx_grows; eauto|eapply t_smooth_grows; eauto]. Qed.

Lemma tmk_node ins sh diff o s t s' : tmk ins sh diff o s = Some (t, s') ->
  t = length s /\ exists n, s' = s ++ [n] /\ n_op n = o /\ n_diff n = diff /\ n_inputs n = map (fun i => Incoming i false 0) ins.
Proof.
  unfold tmk. destruct (build s _ o) as [[s1 id]|] eqn:Hb; [|discriminate]. intros H; inv H.
  apply build_spec in Hb. destruct Hb as (-> & _ & ->). split; auto. eexists. split; [reflexivity|]. repeat split.
Qed.
Lemma tmk_nice_x rho x ins sh diff o ts vs s t s' : twf ls s -> tmk ins sh diff o s = Some (t, s') ->
  typedl ls s ins ts -> op_use lax o ts = true -> holdsl rho s ins vs ->
  (forall a, In a ins -> nice rho x s a) ->
  (o = TSize \/ (diff = true /\ thawed o = true /\ t_dom o vs)) ->
  nice rho x s' t.
Proof.
  intros W Hm HT HF HV HN HD. destruct (tmk_node _ _ _ _ _ _ _ Hm) as (-> & n & -> & Ho & Hd & Hi).
  assert (G : grows s (s ++ [n])) by (exists [n]; reflexivity).
  assert (Hn : nth_error (s ++ [n]) (length s) = Some n) by (rewrite nth_error_app2, Nat.sub_diag; auto).
  assert (Hlt : forall a, In a ins -> (a < length s)%nat).
  { intros a Ha. apply In_nth_error in Ha. destruct Ha as (k & Hk). destruct (Forall2_nth _ _ _ _ _ HT Hk) as (b & _ & Hb). eapply typed_lt; exact Hb. }
  assert (Hdep : forall i, depends (s ++ [n]) (length s) i -> i = length s \/ exists a, In a ins /\ depends (s ++ [n]) a i).
  { intros i D. apply clos_rt_rt1n in D. inv D; auto. right. destruct H as (n' & inc & Hn' & Hin & Hk).
    assert (n' = n) by congruence. subst n'. rewrite Hi in Hin. apply in_map_iff in Hin. destruct Hin as (a & <- & Ha).
    simpl in Hk. subst y. exists a. split; auto. apply clos_rt1n_rt. auto. }
  assert (HN' : forall a, In a ins -> nice rho x (s ++ [n]) a) by (intros a Ha; eapply nice_grows; eauto).
  split.
  - intros i m ts' D Hm' HL. destruct (Hdep i D) as [->|(a & Ha & Da)].
    + assert (m = n) by congruence. subst m. rewrite Ho.
      assert (ts' = ts); [|congruence].
      assert (HL2 : lookups (ttypes ls (s ++ [n])) (n_inputs n) = Some ts); [|congruence].
      apply lookups_spec. rewrite Hi. clear -HT G. induction HT; simpl; constructor; auto. split; auto. eapply grows_typed; eauto.
    + destruct (HN' a Ha) as [A _]. eapply A; eauto.
  - intros i m sh' D Dx Hne Hm' Hty Hsz. destruct (Hdep i D) as [->|(a & Ha & Da)].
    + assert (m = n) by congruence. subst m. rewrite Ho in *. destruct HD as [->|(HD & HZ & HDm)]; [congruence|]. split; [congruence|]. split.
      * left. rewrite Ho. replace (in_vals rho (s ++ [n]) n) with vs; auto. unfold in_vals. rewrite Hi. clear -HV G.
        induction HV as [|a v ins vs Ha _ IH]; simpl; [reflexivity|]. rewrite <- IH. f_equal.
        pose proof (grows_holds rho s (s ++ [n]) a v G Ha) as Q. unfold holds in Q. rewrite Q. reflexivity.
      * intros p inc _ Hz. exfalso. destruct o; try discriminate.
    + destruct (HN' a Ha) as [_ A]. eapply A; eauto.
Qed.

Lemma tmk_nice rho x ins sh diff o ts vs s t s' : twf ls s -> tmk ins sh diff o s = Some (t, s') ->
  typedl ls s ins ts -> op_fit o ts = true -> holdsl rho s ins vs ->
  (forall a, In a ins -> nice rho x s a) ->
  (o = TSize \/ (diff = true /\ thawed o = true /\ t_dom o vs)) ->
  nice rho x s' t.
Proof. intros W Hm HT HF. apply (tmk_nice_x rho x ins sh diff o ts vs s t s' W Hm HT). apply op_fit_use. exact HF. Qed.

Lemma tmk_source rho x sh diff o s t s' : tmk [] sh diff o s = Some (t, s') -> op_fit o [] = true -> twf ls s ->
  (x < length s)%nat -> nice rho x s' t.
Proof.
  intros Hm HF W Hx. destruct (tmk_node _ _ _ _ _ _ _ Hm) as (-> & n & -> & Ho & Hd & Hi).
  assert (Hn : nth_error (s ++ [n]) (length s) = Some n) by (rewrite nth_error_app2, Nat.sub_diag; auto).
  assert (Hdep : forall i, depends (s ++ [n]) (length s) i -> i = length s).
  { intros i D. apply clos_rt_rt1n in D. inv D; auto. destruct H as (n' & inc & Hn' & Hin & Hk).
    assert (n' = n) by congruence. subst n'. rewrite Hi in Hin. destruct Hin. }
  split.
  - intros i m ts' D Hm' HL. rewrite (Hdep i D) in Hm'. assert (m = n) by congruence. subst m. rewrite Ho. rewrite Hi in HL. cbn in HL. inv HL. apply op_fit_use. exact HF.
  - intros i m sh' D Dx Hne Hm' Hty Hsz. rewrite (Hdep i D) in Dx, Hne. apply Hdep in Dx. exfalso. lia.
Qed.

Lemma a_ints_nice rho x l s t s' : twf ls s -> (x < length s)%nat -> a_ints l s = Some (t, s') -> nice rho x s' t.
Proof.
  intros W Hx H. unfold a_ints in H. bindH H. destruct (tmk_node _ _ _ _ _ _ _ E) as (_ & n & -> & _).
  eapply (tmk_source rho x); [exact H|reflexivity| |rewrite app_length; lia].
  destruct (tmk_spec ls [] None true (TConstI [Z.of_nat (length l)]) [] (TyI [Z.of_nat (length l)]) s a (s ++ [n])) as (W1 & _); auto; try discriminate. constructor.
Qed.
Lemma a_scalar_nice rho x r s t s' : twf ls s -> (x < length s)%nat -> a_scalar r s = Some (t, s') -> nice rho x s' t.
Proof.
  intros W Hx H. unfold a_scalar in H. bindH H. pose proof (a_ints_spec ls [] _ _ _ W E) as (W1 & G1 & _).
  eapply tmk_source; [exact H|reflexivity|exact W1|]. apply grows_length in G1. lia.
Qed.
Lemma a_un_nice rho x u a sh v s t s' : twf ls s -> typed ls s a (TyA sh) -> holds rho s a v -> conform ls rho ->
  op_fit (TUn u) [TyA sh] = true -> dom_at (TUn u) [v] -> nice rho x s a -> a_un u a s = Some (t, s') -> nice rho x s' t.
Proof.
  intros W HT HV C HF HD HN H. unfold a_un in H.
  assert (D : TUn u = TSize \/ (true = true /\ thawed (TUn u) = true /\ t_dom (TUn u) [v])) by (destruct HD as [HD|HD]; [discriminate|auto]).
  destruct (un_sets_shape u).
  - bindH H. destruct (a_shape_of_spec ls a sh s a0 s0 W HT E) as (W1 & G1 & _).
    eapply (tmk_nice rho x _ _ _ _ [TyA sh] [v]); [exact W1|exact H| | | | |exact D]; auto.
    + constructor; [eapply grows_typed; eauto|constructor].
    + constructor; [eapply grows_holds; eauto|constructor].
    + intros b [<-|[]]. apply (nice_grows rho x s s0); auto. eapply typed_lt; eauto.
  - eapply (tmk_nice rho x _ _ _ _ [TyA sh] [v]); [exact W|exact H| | | | |exact D]; auto.
    + constructor; [auto|constructor].
    + constructor; [auto|constructor].
    + intros b [<-|[]]. auto.
Qed.
Lemma a_bin_nice rho x b p q s0 s1 r v w s t s' : twf ls s -> typed ls s p (TyA s0) -> typed ls s q (TyA s1) -> bin_ty b s0 s1 = Some r ->
  holds rho s p v -> holds rho s q w -> conform ls rho ->
  op_fit (TBin b) [TyA s0; TyA s1] = true -> dom_at (TBin b) [v; w] -> nice rho x s p -> nice rho x s q ->
  a_bin b p q s = Some (t, s') -> nice rho x s' t.
Proof.
  intros W HP HQ HB HV HW C HF HD NP NQ H.
  assert (D : TBin b = TSize \/ (true = true /\ thawed (TBin b) = true /\ t_dom (TBin b) [v; w])) by (destruct HD as [HD|HD]; [discriminate|auto]).
  assert (Hfin : forall sa sh, grows s sa -> twf ls sa -> tmk [p; q] sh true (TBin b) sa = Some (t, s') -> nice rho x s' t).
  { intros sa sh G Wa Hm. eapply (tmk_nice rho x _ _ _ _ [TyA s0; TyA s1] [v; w]); [exact Wa|exact Hm| | | | |exact D]; auto.
    - constructor; [eapply grows_typed; eauto|constructor; [eapply grows_typed; eauto|constructor]].
    - constructor; [eapply grows_holds; eauto|constructor; [eapply grows_holds; eauto|constructor]].
    - intros a [<-|[<-|[]]]; apply (nice_grows rho x s sa); auto; eapply typed_lt; eauto. }
  assert (HA : arith_ty s0 s1 = Some r ->
    tbind (a_shape_of p) (fun sx => tbind (a_shape_of q) (fun sy =>
      tbind (tmk [sx; sy] None true TInferShape) (fun sh => tmk [p; q] (Some sh) true (TBin b)))) s = Some (t, s') -> nice rho x s' t).
  { intros HR Hm. apply Tens_Fwd.arith_ty_ok in HR. destruct HR as (_ & HI & _).
    bindH Hm. apply (a_shape_of_spec ls p s0) in E; auto. destruct E as (W1 & G1 & T1 & _).
    bindH Hm. apply (a_shape_of_spec ls q s1) in E; auto; [|eapply grows_typed; eauto]. destruct E as (W2 & G2 & T2 & _).
    bindH Hm. apply (tmk_spec ls _ _ _ _ [TyI (shape_vec s0); TyI (shape_vec s1)] (TyI (shape_vec r))) in E; auto; try discriminate.
    - destruct E as (W3 & G3 & T3 & _). eapply Hfin; [|exact W3|exact Hm].
      eapply grows_trans; [exact G1|]. eapply grows_trans; eauto.
    - constructor; [eapply grows_typed; eauto|constructor; [auto|constructor]].
    - unfold op_ty. rewrite !Tens_Fwd.dims_shape_vec, HI. reflexivity. }
  assert (HS : tbind (a_shape_of q) (fun sh => tmk [p; q] (Some sh) true (TBin b)) s = Some (t, s') -> nice rho x s' t).
  { intros Hm. bindH Hm. apply (a_shape_of_spec ls q s1) in E; auto. destruct E as (W1 & G1 & T1 & _).
    eapply Hfin; [exact G1|exact W1|exact Hm]. }
  destruct b; simpl in HB; unfold a_bin in H; try (apply HA; auto; fail); try (apply HS; auto; fail);
    try (apply (Hfin s None); [apply grows_refl|exact W|exact H]).
  destruct (shape_eqb s1 [1%nat]); [discriminate|]. apply HA; auto.
Qed.

Lemma build_expr_nice rho x ins ts vs out gy tout tgy vo vg : conform ls rho ->
  forall e env tenv ve s t s' ty, twf ls s -> (x < length s)%nat ->
  typedl ls s ins ts -> typed ls s out tout -> typed ls s gy tgy -> typedl ls s env tenv ->
  holdsl rho s ins vs -> holds rho s out vo -> holds rho s gy vg -> holdsl rho s env ve ->
  (forall a, In a ins \/ a = out \/ a = gy \/ In a env -> nice rho x s a) ->
  ety ts tout tgy tenv e = Some ty -> efit ts tout tgy tenv e = true -> edom vs vo vg ve e ->
  build_expr ins out gy env e s = Some (t, s') -> nice rho x s' t.
Proof.
  intros C. 
  assert (Hnth : forall {A B} (P : A -> B -> Prop) l k i a, Forall2 P l k -> nth_error l i = Some a -> In a l) by (intros; eapply nth_error_In; eauto).
  assert (Hev : forall e env tenv ve s t s' ty, twf ls s -> typedl ls s ins ts -> typed ls s out tout -> typed ls s gy tgy -> typedl ls s env tenv ->
    holdsl rho s ins vs -> holds rho s out vo -> holds rho s gy vg -> holdsl rho s env ve -> ety ts tout tgy tenv e = Some ty ->
    build_expr ins out gy env e s = Some (t, s') ->
    twf ls s' /\ grows s s' /\ typed ls s' t ty /\ exists v, eeval vs vo vg ve e = Some v /\ holds rho s' t v).
  { intros e env tenv ve s t s' ty W TI TO TG TE HI HO HG HE Ht Hb.
    destruct (build_expr_spec ls ins ts out gy tout tgy e env tenv s t s' ty W TI TO TG TE Ht Hb) as (W1 & G1 & T1 & V1).
    split; auto. split; auto. split; auto.
    assert (HV : forall l tl vl, typedl ls s l tl -> holdsl rho s l vl -> Forall2 has_ty vl tl).
    { intros l tl vl A. revert vl. induction A as [|a ta l tl Ha _ IH]; intros vl B; inv B; constructor; auto.
      destruct (typed_values ls rho s C _ _ Ha) as (v' & Q1 & Q2). rewrite (holds_fun rho s a y v'); auto. }
    assert (HV1 : forall a ta v, typed ls s a ta -> holds rho s a v -> has_ty v ta).
    { intros a ta v Ha Hv. destruct (typed_values ls rho s C _ _ Ha) as (v' & Q1 & Q2). rewrite (holds_fun rho s a v v'); auto. }
    destruct (ety_sound ts vs tout vo tgy vg) with (e := e) (env := tenv) (ve := ve) (t := ty) as (v & Ev & _); eauto.
    exists v. split; auto. apply V1. split; auto. exists vs, vo, vg, ve. auto. }
  Ltac grow G := first [eapply grows_typed; [exact G|]; assumption | eapply grows_holds; [exact G|]; assumption
    | eapply grows_typedl; [exact G|]; assumption | eapply grows_holdsl; [exact G|]; assumption].
  assert (Hkeep : forall env tenv s s1, twf ls s -> grows s s1 -> typedl ls s ins ts -> typed ls s out tout -> typed ls s gy tgy -> typedl ls s env tenv ->
    (forall a, In a ins \/ a = out \/ a = gy \/ In a env -> nice rho x s a) -> forall a, In a ins \/ a = out \/ a = gy \/ In a env -> nice rho x s1 a).
  { intros env tenv s s1 W G TI TO TG TE HN a Ha. apply (nice_grows rho x s s1); auto.
    assert (QL : forall l tl, typedl ls s l tl -> In a l -> (a < length s)%nat).
    { intros l tl T Hin. apply In_nth_error in Hin. destruct Hin as (k & Hk). destruct (Forall2_nth _ _ _ _ _ T Hk) as (b & _ & Hb). eapply typed_lt; exact Hb. }
    destruct Ha as [Ha|[Ha|[Ha|Ha]]]; [exact (QL _ _ TI Ha)|subst a; eapply typed_lt; eauto|subst a; eapply typed_lt; eauto|exact (QL _ _ TE Ha)]. }
  assert (Hst : forall m last tl t s sh s', twf ls s -> typedl ls s ins ts -> typed ls s last tl -> stored_in ts m = true -> stored_ok ts m tl t = true ->
    stored ins m last s = Some (sh, s') -> twf ls s' /\ grows s s').
  { intros m last tl t s sh s' W TI TL A B D. destruct (stored_spec ls ins ts m last tl t s sh s' W TI TL A B D) as (W1 & G1 & _). auto. }
  induction e; intros env tenv ve s t s' ty W Hx TI TO TG TE HI HO HG HE HN Ht HF HD Hb; cbn [build_expr ety efitb edomb] in *.
  - inv Hb. apply HN. auto.
  - destruct (nth_error ins i) as [a|] eqn:E; [|discriminate]. inv Hb. apply HN. left. eapply nth_error_In; eauto.
  - inv Hb. apply HN. auto.
  - destruct (nth_error env k) as [a|] eqn:E; [|discriminate]. inv Hb. apply HN. right. right. right. eapply nth_error_In; eauto.
  - discriminate.
  - eapply a_scalar_nice; eauto.
  - eapply a_ints_nice; eauto.
  - bindH Hb. destruct (ety ts tout tgy tenv e) as [t1|] eqn:E1; [|discriminate]. apply andb_prop in HF. destruct HF as [F1 F2]. destruct HD as [D1 D2].
    destruct (Hev _ _ _ _ _ _ _ _ W TI TO TG TE HI HO HG HE E1 E) as (W1 & G1 & T1 & v1 & V1 & H1).
    destruct t1 as [sh|]; [|discriminate].
    eapply a_un_nice; [exact W1|exact T1|exact H1|exact C|exact F2|apply D2; exact V1|exact (IHe _ _ _ _ _ _ _ W Hx TI TO TG TE HI HO HG HE HN E1 F1 D1 E)|exact Hb].
  - bindH Hb. destruct (ety ts tout tgy tenv e1) as [t1|] eqn:E1; [|discriminate]. destruct (ety ts tout tgy tenv e2) as [t2|] eqn:E2; [|discriminate].
    apply andb_prop in HF. destruct HF as [F1 F3]. apply andb_prop in F1. destruct F1 as [F1 F2]. destruct HD as (D1 & D2 & D3).
    destruct (Hev _ _ _ _ _ _ _ _ W TI TO TG TE HI HO HG HE E1 E) as (W1 & G1 & T1 & v1 & V1 & H1). pose proof (grows_length _ _ G1) as L1.
    bindH Hb.
    assert (TI1 : typedl ls s0 ins ts) by grow G1. assert (TO1 : typed ls s0 out tout) by grow G1. assert (TG1 : typed ls s0 gy tgy) by grow G1.
    assert (TE1 : typedl ls s0 env tenv) by grow G1. assert (HI1 : holdsl rho s0 ins vs) by grow G1. assert (HO1 : holds rho s0 out vo) by grow G1.
    assert (HG1 : holds rho s0 gy vg) by grow G1. assert (HE1 : holdsl rho s0 env ve) by grow G1.
    destruct (Hev _ _ _ _ _ _ _ _ W1 TI1 TO1 TG1 TE1 HI1 HO1 HG1 HE1 E2 E0) as (W2 & G2 & T2 & v2 & V2 & H2).
    destruct t1 as [sh1|]; [|discriminate]. destruct t2 as [sh2|]; [|discriminate].
    cbn [op_ty] in Ht. destruct (bin_ty b sh1 sh2) as [r|] eqn:EB; [|discriminate].
    eapply a_bin_nice; [exact W2|eapply grows_typed; eauto|exact T2|exact EB|eapply grows_holds; eauto|exact H2|exact C|exact F3|apply D3; auto| | |exact Hb].
    + eapply nice_grows; [exact W1|exact G2|eapply typed_lt; eauto|]. exact (IHe1 _ _ _ _ _ _ _ W Hx TI TO TG TE HI HO HG HE HN E1 F1 D1 E).
    + exact (IHe2 _ _ _ _ _ _ _ W1 (Nat.lt_le_trans _ _ _ Hx L1) TI1 TO1 TG1 TE1 HI1 HO1 HG1 HE1 (Hkeep _ _ _ _ W G1 TI TO TG TE HN) E2 F2 D2 E0).
  - bindH Hb. destruct (ety ts tout tgy tenv e) as [t1|] eqn:E1; [|discriminate]. apply andb_prop in HF. destruct HF as [F1 F2]. destruct HD as [D1 D2].
    destruct (Hev _ _ _ _ _ _ _ _ W TI TO TG TE HI HO HG HE E1 E) as (W1 & G1 & T1 & v1 & V1 & H1).
    apply ety_op_inv in Ht. destruct Ht as (Ht & _ & SI & SO). bindH Hb.
    assert (TI1 : typedl ls s0 ins ts) by grow G1.
    destruct (Hst _ _ _ _ _ _ _ W1 TI1 T1 SI SO E0) as (W2 & G2).
    eapply (tmk_nice rho x _ _ _ _ [t1] [v1]); [exact W2|exact Hb| |exact F2| | |].
    + constructor; [eapply grows_typed; eauto|constructor].
    + constructor; [eapply grows_holds; eauto|constructor].
    + intros b [<-|[]]. eapply nice_grows; [exact W1|exact G2|eapply typed_lt; eauto|exact (IHe _ _ _ _ _ _ _ W Hx TI TO TG TE HI HO HG HE HN E1 F1 D1 E)].
    + destruct (D2 v1 V1) as [D|[DT D]]; auto. destruct o; auto.
  - bindH Hb. destruct (ety ts tout tgy tenv e1) as [t1|] eqn:E1; [|discriminate]. destruct (ety ts tout tgy tenv e2) as [t2|] eqn:E2; [|discriminate].
    apply andb_prop in HF. destruct HF as [F1 F3]. apply andb_prop in F1. destruct F1 as [F1 F2]. destruct HD as (D1 & D2 & D3).
    destruct (Hev _ _ _ _ _ _ _ _ W TI TO TG TE HI HO HG HE E1 E) as (W1 & G1 & T1 & v1 & V1 & H1). pose proof (grows_length _ _ G1) as L1.
    bindH Hb.
    assert (TI1 : typedl ls s0 ins ts) by grow G1. assert (TO1 : typed ls s0 out tout) by grow G1. assert (TG1 : typed ls s0 gy tgy) by grow G1.
    assert (TE1 : typedl ls s0 env tenv) by grow G1. assert (HI1 : holdsl rho s0 ins vs) by grow G1. assert (HO1 : holds rho s0 out vo) by grow G1.
    assert (HG1 : holds rho s0 gy vg) by grow G1. assert (HE1 : holdsl rho s0 env ve) by grow G1.
    destruct (Hev _ _ _ _ _ _ _ _ W1 TI1 TO1 TG1 TE1 HI1 HO1 HG1 HE1 E2 E0) as (W2 & G2 & T2 & v2 & V2 & H2).
    apply ety_op_inv in Ht. destruct Ht as (Ht & _ & SI & SO). bindH Hb.
    assert (TI2 : typedl ls s1 ins ts) by grow G2.
    destruct (Hst _ _ _ _ _ _ _ W2 TI2 T2 SI SO E3) as (W3 & G3).
    eapply (tmk_nice rho x _ _ _ _ [t1; t2] [v1; v2]); [exact W3|exact Hb| |exact F3| | |].
    + constructor; [eapply grows_typed; [exact G3|]; eapply grows_typed; eauto|constructor; [eapply grows_typed; eauto|constructor]].
    + constructor; [eapply grows_holds; [exact G3|]; eapply grows_holds; eauto|constructor; [eapply grows_holds; eauto|constructor]].
    + intros b [<-|[<-|[]]].
      * eapply nice_grows; [exact W1|eapply grows_trans; eauto|eapply typed_lt; eauto|]. exact (IHe1 _ _ _ _ _ _ _ W Hx TI TO TG TE HI HO HG HE HN E1 F1 D1 E).
      * eapply nice_grows; [exact W2|exact G3|eapply typed_lt; eauto|]. exact (IHe2 _ _ _ _ _ _ _ W1 (Nat.lt_le_trans _ _ _ Hx L1) TI1 TO1 TG1 TE1 HI1 HO1 HG1 HE1 (Hkeep _ _ _ _ W G1 TI TO TG TE HN) E2 F2 D2 E0).
    + destruct (D3 v1 v2 V1 V2) as [D|[DT D]]; auto.
  - bindH Hb. destruct (ety ts tout tgy tenv e1) as [t1|] eqn:E1; [|discriminate]. destruct (ety ts tout tgy tenv e2) as [t2|] eqn:E2; [|discriminate].
    destruct (ety ts tout tgy tenv e3) as [t3|] eqn:E3; [|discriminate].
    apply andb_prop in HF. destruct HF as [F1 F4]. apply andb_prop in F1. destruct F1 as [F1 F3]. apply andb_prop in F1. destruct F1 as [F1 F2]. destruct HD as (D1 & D2 & D3 & D4).
    destruct (Hev _ _ _ _ _ _ _ _ W TI TO TG TE HI HO HG HE E1 E) as (W1 & G1 & T1 & v1 & V1 & H1). pose proof (grows_length _ _ G1) as L1.
    bindH Hb.
    assert (TI1 : typedl ls s0 ins ts) by grow G1. assert (TO1 : typed ls s0 out tout) by grow G1. assert (TG1 : typed ls s0 gy tgy) by grow G1.
    assert (TE1 : typedl ls s0 env tenv) by grow G1. assert (HI1 : holdsl rho s0 ins vs) by grow G1. assert (HO1 : holds rho s0 out vo) by grow G1.
    assert (HG1 : holds rho s0 gy vg) by grow G1. assert (HE1 : holdsl rho s0 env ve) by grow G1.
    destruct (Hev _ _ _ _ _ _ _ _ W1 TI1 TO1 TG1 TE1 HI1 HO1 HG1 HE1 E2 E0) as (W2 & G2 & T2 & v2 & V2 & H2). pose proof (grows_length _ _ G2) as L2.
    bindH Hb.
    assert (TI2 : typedl ls s1 ins ts) by grow G2. assert (TO2 : typed ls s1 out tout) by grow G2. assert (TG2 : typed ls s1 gy tgy) by grow G2.
    assert (TE2 : typedl ls s1 env tenv) by grow G2. assert (HI2 : holdsl rho s1 ins vs) by grow G2. assert (HO2 : holds rho s1 out vo) by grow G2.
    assert (HG2 : holds rho s1 gy vg) by grow G2. assert (HE2 : holdsl rho s1 env ve) by grow G2.
    destruct (Hev _ _ _ _ _ _ _ _ W2 TI2 TO2 TG2 TE2 HI2 HO2 HG2 HE2 E3 E4) as (W3 & G3 & T3 & v3 & V3 & H3).
    apply ety_op_inv in Ht. destruct Ht as (Ht & _ & SI & SO). bindH Hb.
    assert (TI3 : typedl ls s2 ins ts) by grow G3.
    destruct (Hst _ _ _ _ _ _ _ W3 TI3 T3 SI SO E5) as (W4 & G4).
    assert (G34 : grows s1 s3) by (eapply grows_trans; eauto). assert (G24 : grows s0 s3) by (eapply grows_trans; eauto).
    eapply (tmk_nice rho x _ _ _ _ [t1; t2; t3] [v1; v2; v3]); [exact W4|exact Hb| |exact F4| | |].
    + constructor; [eapply grows_typed; [exact G24|exact T1]|constructor; [eapply grows_typed; [exact G34|exact T2]|constructor; [eapply grows_typed; [exact G4|exact T3]|constructor]]].
    + constructor; [eapply grows_holds; [exact G24|exact H1]|constructor; [eapply grows_holds; [exact G34|exact H2]|constructor; [eapply grows_holds; [exact G4|exact H3]|constructor]]].
    + intros b [<-|[<-|[<-|[]]]].
      * eapply nice_grows; [exact W1|exact G24|eapply typed_lt; eauto|]. exact (IHe1 _ _ _ _ _ _ _ W Hx TI TO TG TE HI HO HG HE HN E1 F1 D1 E).
      * eapply nice_grows; [exact W2|exact G34|eapply typed_lt; eauto|]. exact (IHe2 _ _ _ _ _ _ _ W1 (Nat.lt_le_trans _ _ _ Hx L1) TI1 TO1 TG1 TE1 HI1 HO1 HG1 HE1 (Hkeep _ _ _ _ W G1 TI TO TG TE HN) E2 F2 D2 E0).
      * eapply nice_grows; [exact W3|exact G4|eapply typed_lt; eauto|]. exact (IHe3 _ _ _ _ _ _ _ W2 (Nat.lt_le_trans _ _ _ Hx (Nat.le_trans _ _ _ L1 L2)) TI2 TO2 TG2 TE2 HI2 HO2 HG2 HE2 (Hkeep _ _ _ _ W (grows_trans _ _ _ G1 G2) TI TO TG TE HN) E3 F3 D3 E4).
    + destruct (D4 v1 v2 v3 V1 V2 V3) as [D|[DT D]]; auto.
  - bindH Hb. destruct (ety ts tout tgy tenv e1) as [t1|] eqn:E1; [|discriminate]. apply andb_prop in HF. destruct HF as [F1 F2]. destruct HD as (D1 & D2).
    destruct (Hev _ _ _ _ _ _ _ _ W TI TO TG TE HI HO HG HE E1 E) as (W1 & G1 & T1 & v1 & V1 & H1). pose proof (grows_length _ _ G1) as L1.
    assert (N1 : nice rho x s0 a) by (exact (IHe1 _ _ _ _ _ _ _ W Hx TI TO TG TE HI HO HG HE HN E1 F1 D1 E)).
    assert (TI1 : typedl ls s0 ins ts) by grow G1. assert (TO1 : typed ls s0 out tout) by grow G1. assert (TG1 : typed ls s0 gy tgy) by grow G1.
    assert (TE1 : typedl ls s0 (a :: env) (t1 :: tenv)) by (constructor; [exact T1|grow G1]). assert (HI1 : holdsl rho s0 ins vs) by grow G1. assert (HO1 : holds rho s0 out vo) by grow G1.
    assert (HG1 : holds rho s0 gy vg) by grow G1. assert (HE1 : holdsl rho s0 (a :: env) (v1 :: ve)) by (constructor; [exact H1|grow G1]).
    refine (IHe2 _ _ _ _ _ _ _ W1 (Nat.lt_le_trans _ _ _ Hx L1) TI1 TO1 TG1 TE1 HI1 HO1 HG1 HE1 _ Ht F2 (D2 v1 V1) Hb).
    intros b Hb'. assert (Q : b = a \/ (In b ins \/ b = out \/ b = gy \/ In b env)) by (simpl in Hb'; intuition auto).
    destruct Q as [->|Q]; auto. apply (Hkeep env tenv s s0); auto.
Qed.
End Comp.
