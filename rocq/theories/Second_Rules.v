(** The rules of operations that can be differentiated twice fit and stay inside
    the domains of the operations they use. *)
From Coq Require Import String List Arith ZArith Bool Lia Reals Lra.
Import ListNotations.
From Verif Require Import Graph_Model Eval_Model Eval_Spec Eval_Proofs Graph_Proofs Grad_Model Grad_Spec
  Scalar_Model Scalar_Spec Scalar_Rules Scalar_Proofs.
From Verif Require Import Array_Model Array_Proofs Array_Sum Arith_Model Arith_Proofs Arith_Final Vjp_Spec Vjp_Proofs
  Tens_Model Tens_Spec Tens_Fwd Tens_Build Tens_Rules Tens_Rules2 Tens_Ops Tens_Comp Second_Spec.
Local Set Bullet Behavior "Strict Subproofs".
Local Open Scope R_scope.

(** ** Shapes *)
Definition ne (t : ty) : Prop := match t with TyA sh => nonempty sh = true | TyI _ => True end.

(** Expressions whose value is not empty if no input is. *)
Fixpoint full (env : list bool) (e : expr) : bool :=
  match e with
  | EGy | EIn _ | EOut | EScalar _ | EInts _ | EShape _ => true
  | EVar k => nth k env false
  | EUn _ e => full env e
  | EBin b _ _ => match b with ELUGrad _ | ClipGrad _ _ => false | _ => true end
  | EOp2 TMaybeReduceSum _ _ (EShape _) => true
  | ELet e body => full (full env e :: env) body
  | _ => false
  end.
Definition plain_op (o : top) : bool :=
  match o with
  | TMaybeReduceSum | TMaybeBroadcast | TSumAll | TSumAllGrad | TReduceSum _ | TReshape | TTranspose _ | TExpandDims | TSqueeze => true
  | _ => false
  end.
Fixpoint plain (env : list bool) (e : expr) : bool :=
  match e with
  | EGy | EIn _ | EOut | EVar _ | EScalar _ | EInts _ | EShape _ => true
  | EUn u e => negb (divides u) && full env e && plain env e
  | EBin b e1 e2 => match b with Maximum | Minimum => false | _ => true end && plain env e1 && plain env e2
  | EOp1 (TSoftmax _ _) _ e => full env e && plain env e
  | EOp1 o _ e => plain_op o && plain env e
  | EOp2 o _ e1 e2 => plain_op o && plain env e1 && plain env e2
  | EOp3 _ _ _ _ _ => false
  | ELet e body => plain env e && plain (full env e :: env) body
  end.

Lemma plain_op_fit o ts : plain_op o = true -> op_fit o ts = true.
Proof. destruct o; intros H; try discriminate; reflexivity. Qed.
Lemma cmp_ne a b r : cmp_ty a b = Some r -> nonempty r = true.
Proof.
  unfold cmp_ty. destruct (nonempty a) eqn:A; [|discriminate]. destruct (nonempty b) eqn:B; [|discriminate]. cbn [andb].
  destruct (shape_eqb b []); [intros H; inv H; auto|]. destruct (shape_eqb a []); [intros H; inv H; auto|].
  destruct (shape_eqb a b); [intros H; inv H; auto|]. destruct (_ && _); [intros H; inv H; auto|discriminate].
Qed.
Lemma bin_ne b s0 s1 r : bin_ty b s0 s1 = Some r -> match b with ELUGrad _ | ClipGrad _ _ => false | _ => true end = true -> nonempty r = true.
Proof.
  destruct b; simpl; intros H Hb; try discriminate; try (eapply cmp_ne; eauto; fail); try (apply arith_reduces in H; apply H).
  destruct (shape_eqb s1 [1%nat]); [discriminate|]. apply arith_reduces in H. apply H.
Qed.

Lemma plain_fit ts tout tgy : List.Forall ne ts -> ne tout -> ne tgy -> forall e env fenv ty,
  Forall2 (fun (b : bool) t => b = true -> ne t) fenv env -> ety ts tout tgy env e = Some ty ->
  (full fenv e = true -> ne ty) /\ (plain fenv e = true -> efitb true ts tout tgy env e = true).
Proof.
  intros HI HO HG. induction e; intros env fenv ty HE Ht; cbn [ety efitb] in *.
  - inv Ht. auto.
  - split; auto. intros _. rewrite Forall_forall in HI. apply HI. eapply nth_error_In; eauto.
  - inv Ht. auto.
  - split; auto. simpl. intros Hk. destruct (Forall2_nth2 _ _ _ _ _ HE Ht) as (b & Hb & Hn). apply Hn.
    rewrite (nth_error_nth _ _ false Hb) in Hk. exact Hk.
  - split; auto. intros _. destruct (nth_error ts i) as [[sh|]|]; inv Ht. exact I.
  - inv Ht. auto.
  - inv Ht. split; auto. intros _. exact I.
  - destruct (ety ts tout tgy env e) as [t1|] eqn:E; [|discriminate]. destruct (IHe env fenv t1 HE E) as [A B].
    destruct t1 as [sh|]; [|discriminate]. simpl in Ht. inv Ht. split; [exact A|]. simpl. intros H. apply andb_prop in H. destruct H as [H P].
    apply andb_prop in H. destruct H as [D F]. rewrite B by auto. cbn [andb]. specialize (A F). simpl in A. rewrite A.
    destruct (divides u); [discriminate|reflexivity].
  - destruct (ety ts tout tgy env e1) as [t1|] eqn:E1; [|discriminate]. destruct (ety ts tout tgy env e2) as [t2|] eqn:E2; [|discriminate].
    destruct (IHe1 env fenv t1 HE E1) as [A1 B1]. destruct (IHe2 env fenv t2 HE E2) as [A2 B2].
    destruct t1 as [sh1|]; [|discriminate]. destruct t2 as [sh2|]; [|discriminate]. cbn [op_ty] in Ht.
    destruct (bin_ty b sh1 sh2) as [r|] eqn:EB; inv Ht. split.
    + cbn [full]. intros H. eapply bin_ne; eauto.
    + cbn [plain]. intros H. apply andb_prop in H. destruct H as [H P2]. apply andb_prop in H. destruct H as [Hb P1].
      rewrite B1, B2 by auto. cbn [andb]. destruct b; try discriminate; reflexivity.
  - destruct (ety ts tout tgy env e) as [t1|] eqn:E; [|discriminate]. destruct (IHe env fenv t1 HE E) as [A B]. split; [discriminate|].
    apply ety_op_inv in Ht. destruct Ht as (Ht & _). intros H.
    assert (Q : (plain_op o && plain fenv e = true) \/ exists m0 ax, o = TSoftmax m0 ax /\ full fenv e && plain fenv e = true).
    { destruct o; cbn [plain] in H; auto. right. eauto. }
    destruct Q as [Q|(m0 & ax & -> & Q)]; apply andb_prop in Q; destruct Q as [Q1 Q2]; rewrite B by auto; cbn [andb].
    + apply plain_op_fit. auto.
    + specialize (A Q1). destruct t1 as [sh|]; [|discriminate]. exact A.
  - destruct (ety ts tout tgy env e1) as [t1|] eqn:E1; [|discriminate]. destruct (ety ts tout tgy env e2) as [t2|] eqn:E2; [|discriminate].
    destruct (IHe1 env fenv t1 HE E1) as [A1 B1]. destruct (IHe2 env fenv t2 HE E2) as [A2 B2].
    apply ety_op_inv in Ht. destruct Ht as (Ht & _). split.
    + intros H. cbn [full] in H. destruct o; try discriminate. destruct e2; try discriminate. cbn [ety] in E2.
      destruct (nth_error ts i) as [[sh|]|] eqn:Ei; inv E2. destruct t1 as [g1|]; [|discriminate]. unfold op_ty in Ht. rewrite dims_shape_vec in Ht.
      destruct (reduces_to sh g1); inv Ht. rewrite Forall_forall in HI. apply (HI (TyA sh)). eapply nth_error_In; eauto.
    + cbn [plain]. intros H. apply andb_prop in H. destruct H as [H P2]. apply andb_prop in H. destruct H as [Hb P1].
      rewrite B1, B2 by auto. cbn [andb]. apply plain_op_fit. auto.
  - split; discriminate.
  - destruct (ety ts tout tgy env e1) as [t1|] eqn:E1; [|discriminate]. destruct (IHe1 env fenv t1 HE E1) as [A1 B1].
    destruct (IHe2 (t1 :: env) (full fenv e1 :: fenv) ty) as [A2 B2]; [constructor; auto|exact Ht|]. split; [exact A2|].
    cbn [plain]. intros H. apply andb_prop in H. destruct H as [P1 P2]. rewrite B1, B2 by auto. reflexivity.
Qed.

(** ** Domains: operations differentiable everywhere *)
Definition free_un (u : uop) : bool :=
  match u with
  | Sin | Cos | Sinh | Cosh | Tanh | Asinh | Atan | Exp | Exp2 | Exp10 | Square | Neg | Sigmoid | Softplus | Identity => true
  | _ => false
  end.
Definition free_bin (b : bop) : bool := match b with Add | Sub | Mul => true | _ => false end.
Definition free_op (o : top) : bool := plain_op o || match o with TSoftmax _ _ => true | _ => false end.
Fixpoint free (e : expr) : bool :=
  match e with
  | EGy | EIn _ | EOut | EVar _ | EScalar _ | EInts _ | EShape _ => true
  | EUn u e => free_un u && free e
  | EBin b e1 e2 => free_bin b && free e1 && free e2
  | EOp1 o _ e => free_op o && free e
  | EOp2 o _ e1 e2 => free_op o && free e1 && free e2
  | EOp3 o _ e1 e2 e3 => free_op o && free e1 && free e2 && free e3
  | ELet e body => free e && free body
  end.
Lemma free_op_dom o vs : free_op o = true -> dom_at o vs.
Proof.
  intros H. right. destruct o; try discriminate; split; try reflexivity; exact I.
Qed.
Lemma free_un_dom u v : free_un u = true -> dom_at (TUn u) [v].
Proof.
  intros H. right. split; [reflexivity|]. destruct v as [x|]; [|exact I]. simpl. apply Forall_forall. intros y _.
  destruct u; try discriminate; exact I.
Qed.
Lemma free_bin_dom b v w : free_bin b = true -> dom_at (TBin b) [v; w].
Proof.
  intros H. right. split; [reflexivity|]. destruct v as [x|]; [|exact I]. destruct w as [y|]; [|exact I]. simpl. intros r i _ _.
  destruct b; try discriminate; exact I.
Qed.
Lemma free_dom vs vo vg : forall e env, free e = true -> edomb true vs vo vg env e.
Proof.
  induction e; intros env H; cbn [free edomb] in *; auto;
    repeat match goal with H : _ && _ = true |- _ => apply andb_prop in H; destruct H end;
    repeat split; auto; intros; auto using free_un_dom, free_bin_dom, free_op_dom.
Qed.

(** ** Domains of the elementwise rules *)
Fixpoint rdom (ins : list R) (out gy : R) (env : list R) (e : rexp) : Prop :=
  match e with
  | RGy | RIn _ | ROut | RVar _ | RScalar _ => True
  | RUn u e => rdom ins out gy env e /\ un_dom u (rval ins out gy env e)
  | RBin b e1 e2 => rdom ins out gy env e1 /\ rdom ins out gy env e2 /\ bin_dom b (rval ins out gy env e1) (rval ins out gy env e2)
  | RLet a b => rdom ins out gy env a /\ rdom ins out gy (rval ins out gy env a :: env) b
  | _ => False
  end.

Lemma position_of sh k : (k < prod sh)%nat -> exists i, in_bounds sh i /\ ravel sh i = k.
Proof.
  intros H. assert (Hin : In k (map (ravel sh) (indices sh))) by (rewrite ravel_indices; apply in_seq; lia).
  apply in_map_iff in Hin. destruct Hin as (i & E & Hi). exists i. split; [apply indices_in; exact Hi|exact E].
Qed.
Lemma in_data_pos sh (a : arr R) y : has_shape sh a -> In y (a_data a) -> exists k, in_bounds sh k /\ rget a k = y.
Proof.
  intros [S L] H. apply (In_nth _ _ 0) in H. destruct H as (n & Hn & E). rewrite L in Hn.
  destruct (position_of sh n Hn) as (i & Hi & Er). exists i. split; [exact Hi|]. unfold aget. rewrite S, Er. exact E.
Qed.
Lemma some_position sh : nonempty sh = true -> exists i, in_bounds sh i.
Proof.
  intros H. apply nonempty_prod in H. destruct (position_of sh 0) as (i & Hi & _); [lia|]. eauto.
Qed.

Section Elem2.
Variables (sh : list nat) (dv : bool).
Hypothesis NE : nonempty sh = true.
Hypothesis DV : dv = true -> sh <> [1%nat].
Lemma fpos_onto f k : in_bounds (fsh sh f) k -> exists i, in_bounds sh i /\ fpos f i = k.
Proof.
  destruct f; simpl; intros H; [eauto|]. inv H. destruct (some_position sh NE) as (i & Hi). eauto.
Qed.
Lemma elem_dom ins out gy : List.Forall (fok sh) ins -> fok sh out -> fok sh gy -> forall e env f, List.Forall (fok sh) env ->
  flag dv (map fst ins) (fst out) (fst gy) (map fst env) e = Some f ->
  (forall i, in_bounds sh i -> rdom (map (fat i) ins) (fat i out) (fat i gy) (map (fat i) env) e) ->
  edomb true (map fval ins) (fval out) (fval gy) (map fval env) (embed e).
Proof.
  intros HI HO HG. induction e; intros env f HE H HD; cbn [flag embed edomb rdom] in *; try discriminate; auto.
  - split; [eapply IHe; eauto; intros i Hi; apply (HD i Hi)|].
    destruct (elem_rule sh dv NE DV ins out gy HI HO HG e env f HE H) as (_ & a & V & S & G).
    intros v Hv. rewrite V in Hv. inv Hv. right. split; [reflexivity|]. simpl. apply Forall_forall. intros y Hy.
    destruct (in_data_pos _ _ _ S Hy) as (k & Hk & <-). destruct (fpos_onto f k Hk) as (i & Hi & <-). rewrite G by auto. apply (HD i Hi).
  - destruct (flag dv (map fst ins) (fst out) (fst gy) (map fst env) e1) as [f1|] eqn:E1; [|discriminate].
    destruct (flag dv (map fst ins) (fst out) (fst gy) (map fst env) e2) as [f2|] eqn:E2; [|discriminate].
    split; [eapply IHe1; eauto; intros i Hi; apply (HD i Hi)|]. split; [eapply IHe2; eauto; intros i Hi; apply (HD i Hi)|].
    destruct (elem_rule sh dv NE DV ins out gy HI HO HG e1 env f1 HE E1) as (_ & a1 & V1 & S1 & G1).
    destruct (elem_rule sh dv NE DV ins out gy HI HO HG e2 env f2 HE E2) as (_ & a2 & V2 & S2 & G2).
    intros v1 v2 Hv1 Hv2. rewrite V1 in Hv1. rewrite V2 in Hv2. inv Hv1. inv Hv2. right. split; [reflexivity|]. simpl. intros r i Hr Hi.
    destruct S1 as [S1 _]. destruct S2 as [S2 _]. rewrite S1, S2 in *.
    assert (Er : co_broadcast (fsh sh f1) (fsh sh f2) = Some (fsh sh (f1 || f2))).
    { pose proof (arith_fsh sh NE f1 f2) as Q. apply arith_ty_ok in Q. apply Q. }
    rewrite Er in Hr. inv Hr. destruct (fpos_onto _ _ Hi) as (j & Hj & <-). rewrite fpos_bc by auto.
    rewrite (orb_comm f1 f2), fpos_bc by auto. rewrite G1, G2 by auto. apply (HD j Hj).
  - destruct (flag dv (map fst ins) (fst out) (fst gy) (map fst env) e1) as [f1|] eqn:E1; [|discriminate].
    split; [eapply IHe1; eauto; intros i Hi; apply (HD i Hi)|].
    destruct (elem_rule sh dv NE DV ins out gy HI HO HG e1 env f1 HE E1) as (_ & a1 & V1 & S1 & G1).
    intros v Hv. rewrite V1 in Hv. inv Hv. apply (IHe2 ((f1, a1) :: env) f); [constructor; auto|exact H|].
    intros i Hi. cbn [map]. change (fat i (f1, a1)) with (rget a1 (fpos f1 i)). rewrite G1 by auto. apply (HD i Hi).
Qed.
End Elem2.

Definition un_dom2 (u : uop) (x : R) : Prop :=
  match u with
  | Pow a => 0 < x \/ (x <> 0 /\ exists z : Z, a = IZR z) \/ (exists n : nat, a = INR (S n))
  | _ => un_dom u x
  end.
Lemma un_dom2_ok u x : un_dom2 u x -> un_dom u x.
Proof. destruct u; auto. simpl. intros [H|[H|(n & H)]]; [left; exact H|right; left; exact H|right; right; exists (S n); exact H]. Qed.
Lemma un_rdom u x gy e : twice (TUn u) = true -> un_dom2 u x -> un_rule u = Some e -> rdom [x] (un u x) gy [] e.
Proof.
  intros HT HD HR. destruct u; inv HR; try discriminate; cbn -[Rplus Rminus Rmult Rdiv Ropp Rinv IZR INR] in *; repeat split; auto.
  - nra.
  - nra.
  - nra.
  - nra.
  - assert (Q : 0 < x * x + 1) by nra. pose proof (sqrt_lt_R0 _ Q). lra.
  - nra.
  - assert (Q : 0 < x * x - 1) by nra. pose proof (sqrt_lt_R0 _ Q). lra.
  - nra.
  - lra.
  - apply Rmult_integral_contrapositive_currified; [|lra]. assert (Q : ln 1 < ln (1 + 1)) by (apply ln_increasing; lra). rewrite ln_1 in Q. lra.
  - apply Rmult_integral_contrapositive_currified; [|lra]. assert (Q : ln 1 < ln 10) by (apply ln_increasing; lra). rewrite ln_1 in Q. lra.
  - destruct HD as [H|[(H & z & ->)|(n & ->)]]; [left; exact H|right; left|right; right].
    + split; [exact H|]. exists (z - 1)%Z. rewrite minus_IZR. reflexivity.
    + exists n. rewrite S_INR. ring.
  - pose proof (exp_pos x). lra.
Qed.

(** ** All rules *)
Lemma dom2_un u x : t_dom2 (TUn u) [TA x] -> List.Forall (un_dom2 u) (a_data x).
Proof. destruct u; intros H; exact H. Qed.
Lemma dom2_dom o ts vs sh : op_ty o ts = Some (TyA sh) -> Forall2 has_ty vs ts -> t_dom2 o vs -> t_dom o vs.
Proof.
  intros Ht HV H. destruct o; try exact H.
  - destruct vs as [|[x|] [|]]; try (destruct u; exact H). apply dom2_un in H. simpl. eapply Forall_impl; [|exact H]. apply un_dom2_ok.
  - destruct b; try exact H. destruct vs as [|[x|] [|[y|] [|]]]; try exact H. simpl in H |- *. intros r i Hr Hi. 
    rewrite Forall_forall in H. apply H.
    inversion HV as [|? t0 ? ? H0 HV1]; subst. inversion HV1 as [|? t1 ? ? H1 HV2]; subst. inversion HV2; subst.
    destruct t1 as [s1|]; [|destruct H1]. simpl in H1. pose proof H1 as S1. pose proof S1 as [E1 _]. rewrite <- E1 in S1.
    apply (rget_in y (a_shape y)); [exact S1|]. eapply bc_bounds; [|exact Hi]. eapply co_broadcast_ok_r; eauto.
Qed.

Lemma rules_again o ts vs sh out gy rs p e : twice o = true -> op_ty o ts = Some (TyA sh) -> op_fit o ts = true ->
  List.Forall ne ts -> nonempty sh = true -> t_dom2 o vs -> Forall2 has_ty vs ts -> tcompute o vs = Some (TA out) -> has_shape sh gy ->
  trule o (length ts) = Some rs -> nth_error rs p = Some (Some e) ->
  efitb true ts (TyA sh) (TyA sh) [] e = true /\ edomb true vs (TA out) (TA gy) [] e.
Proof.
  intros HT Ht HF HN HS HD HV HC HG HR He.
  destruct (op_correct o ts vs sh out Ht HF HV HC) as (K & HK).
  destruct (cr_rule _ _ _ _ _ _ HK rs p e HR He) as (shp & _ & HE & _).
  pose proof (proj2 (plain_fit ts (TyA sh) (TyA sh) HN HS HS e [] [] (TyA shp) (Forall2_nil _) HE)) as HP.
  assert (Q : plain [] e = true -> free e = true -> efitb true ts (TyA sh) (TyA sh) [] e = true /\ edomb true vs (TA out) (TA gy) [] e).
  { intros A B. split; [auto|apply free_dom; exact B]. }
  destruct o; try discriminate HT; cbn [trule] in HR; inversion HR; subst rs; clear HR;
    try (destruct p as [|[|p]]; simpl in He; inv He; apply Q; reflexivity);
    try (destruct p as [|[|[|p]]]; simpl in He; inv He; apply Q; reflexivity).
  - apply nth_error_In in He. apply repeat_spec in He. inv He. apply Q; reflexivity.
  - (* functions of one argument *)
    destruct p as [|[|p]]; simpl in He; try discriminate He.
    destruct (un_rule u) as [e0|] eqn:EU; simpl in He; inv He.
    split; [apply HP; destruct u; inv EU; try discriminate; reflexivity|].
    inversion HV as [|v t ? ? Hv HV1]; subst; [discriminate|]. inversion HV1; subst; [|destruct t; discriminate].
    destruct t as [s0|]; [|discriminate]. simpl in Ht. inv Ht. apply has_tyA in Hv. destruct Hv as (x & -> & Hx).
    simpl in HC. inv HC. simpl in HF. apply andb_prop in HF. destruct HF as [_ HF].
    assert (DV : divides u = true -> sh <> [1%nat]) by (intros E ->; rewrite E in HF; discriminate).
    apply dom2_un in HD. rewrite Forall_forall in HD.
    apply (elem_dom sh (divides u) HS DV [(true, x)] (true, amap (un u) x) (true, gy)) with (env := @nil (bool * arr R)) (f := true).
    + constructor; [exact Hx|constructor].
    + red. simpl. rewrite (amap_tab _ sh) by auto. apply tab_has_shape.
    + exact HG.
    + constructor.
    + apply un_flag. exact EU.
    + intros i Hi. unfold fat. simpl. rewrite (amap_tab _ sh) by auto. rewrite aget_tab by exact Hi.
      apply un_rdom; auto. apply HD. eapply rget_in; eauto.
  - (* functions of two arguments *)
    destruct b; try discriminate HT; try (destruct p as [|[|[|p]]]; simpl in He; inv He; apply Q; reflexivity).
    inversion HV as [|v t ? ? Hv HV1]; subst; [discriminate|]. inversion HV1 as [|w t' ? ? Hw HV2]; subst; [destruct t; discriminate|].
    inversion HV2; subst; [|destruct t; destruct t'; discriminate].
    destruct t as [s0|]; [|discriminate]. destruct t' as [s1|]; [|discriminate].
    apply has_tyA in Hv. destruct Hv as (x & -> & Hx). apply has_tyA in Hw. destruct Hw as (y & -> & Hy). cbn [t_dom2] in HD.
    assert (HY : forall i, in_bounds s1 i -> rget y i <> 0).
    { intros i Hi. rewrite Forall_forall in HD. apply HD. eapply rget_in; eauto. }
    destruct p as [|[|p]]; simpl in He.
    + inv He. split; [apply HP; reflexivity|]. cbn [embed edomb]. split; [|split; [reflexivity|intros; apply free_op_dom; reflexivity]].
      split; [exact I|]. split; [exact I|]. intros v1 v2 E1 E2. inv E1. inv E2. right. split; [reflexivity|]. simpl. intros r i Hr Hi.
      destruct Hy as [Ey _]. rewrite Ey in *. apply HY. eapply bc_bounds; [|exact Hi]. eapply co_broadcast_ok_r; eauto.
    + inv He. split; [apply HP; reflexivity|]. cbn [embed edomb].
      repeat split; try reflexivity; intros; try (apply free_op_dom; reflexivity); try (apply free_bin_dom; reflexivity); try (apply free_un_dom; reflexivity).
      simpl in H. inv H. right. split; [reflexivity|]. simpl. apply Forall_forall. intros z Hz. rewrite Forall_forall in HD.
      right. left. split; [apply HD; exact Hz|]. exists (-2)%Z. reflexivity.
    + destruct p; discriminate He.
Qed.
