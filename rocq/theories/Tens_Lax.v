(** Tensors with types but with attached shape tensors that may hold something
    else: gradients of gathers and what is computed from them. *)
From Coq Require Import String List Arith ZArith NArith Bool Lia Reals Lra.
From Coquelicot Require Import Coquelicot.
Import ListNotations.
From Verif Require Import Graph_Model Eval_Model Eval_Spec Eval_Proofs Graph_Proofs Grad_Model Grad_Spec
  Scalar_Model Scalar_Spec Scalar_Rules Scalar_Proofs.
From Verif Require Import Array_Model Array_Proofs Array_Sum Arith_Model Arith_Proofs Arith_Final Vjp_Spec Vjp_Proofs
  Reduce_Model Reduce_Spec Reduce_Proofs Mean_Model Shape_Model Shape_Spec Shape_Proofs3
  Tens_Model Tens_Spec Tens_Fwd Tens_Fwd2 Tens_Fwd5 Tens_Build Tens_Rules Tens_Rules2 Tens_Rules3 Tens_Rules4 Tens_Ops.
Local Set Bullet Behavior "Strict Subproofs".
Local Open Scope R_scope.

Local Ltac bindH H := unfold tbind in H;
  match type of H with match ?m with _ => _ end = _ =>
    let t := fresh "t" in let s := fresh "s" in let E := fresh "E" in
    destruct m as [[t s]|] eqn:E; [|discriminate] end.

Lemma op_ty_x lax o ts t : op_ty o ts = Some t -> op_tyx lax o ts = Some t.
Proof.
  intros H. unfold op_tyx. destruct lax; [|exact H]. destruct o; try exact H. destruct ts as [|[] [|[] [|[] [|]]]]; discriminate.
Qed.
Lemma op_tyx_other lax o ts : (forall axis, o <> TGatherGrad axis) -> op_tyx lax o ts = op_ty o ts.
Proof. intros H. unfold op_tyx. destruct lax; [|reflexivity]. destruct o; try reflexivity. exfalso. eapply H; eauto. Qed.
Lemma op_tyx_sound lax o ts t vs : op_tyx lax o ts = Some t -> o <> TLeaf -> Forall2 has_ty vs ts ->
  exists v, tcompute o vs = Some v /\ has_ty v t.
Proof.
  intros H Ho HV. destruct lax; [|apply (op_ty_sound o ts); auto].
  assert (HD : (exists axis, o = TGatherGrad axis) \/ op_ty o ts = Some t).
  { destruct o; try (right; exact H). left. eauto. }
  destruct HD as [(axis & ->)|HD]; [|apply (op_ty_sound o ts); auto].
  cbn [op_tyx] in H. destruct ts as [|[|idx] [|[sh|] [|[g|] [|]]]]; try discriminate.
  destruct (gather_ty true axis idx sh) as [out|] eqn:EG; [|discriminate].
  destruct (gather_back axis idx) eqn:EB; [|discriminate]. destruct (shape_eqb g out) eqn:ES; [|discriminate]. cbn in H. inv H.
  apply shape_eqb_ok in ES. subst g. inv_tys. destruct (gather_ty_ok _ _ _ _ _ EG) as (k & HA & _).
  cbn [tcompute]. eexists. split.
  - erewrite gather_grad_push; eauto. reflexivity.
  - simpl. apply push_shape.
Qed.

(** Attached shape tensors exist. *)
Definition attached (s : tgraph) : Prop := forall i n t, nth_error s i = Some n -> n_shape n = Some t -> (t < length s)%nat.

Section Lax.
Variable ls : nat -> list nat.
Variable lax : bool.
Definition wtyped (s : tgraph) (i : nat) (t : ty) : Prop := nth_error (wtypes lax ls s) i = Some (Some t).
Definition wtypedl (s : tgraph) (ins : list nat) (ts : list ty) : Prop := Forall2 (wtyped s) ins ts.

Lemma wtyped_lt g i t : wtyped g i t -> (i < length g)%nat.
Proof. unfold wtyped, wtypes. intros H. rewrite <- (scan_length (tnode_tyx lax ls) g). apply nth_error_Some. congruence. Qed.
Lemma wtyped_fun g i t t' : wtyped g i t -> wtyped g i t' -> t = t'.
Proof. unfold wtyped. congruence. Qed.
Lemma grows_wtyped s s' i t : grows s s' -> wtyped s i t -> wtyped s' i t.
Proof. intros [new ->] H. pose proof (wtyped_lt _ _ _ H). unfold wtyped, wtypes in *. rewrite scan_prefix; auto. Qed.
Lemma grows_wtyped_back s s' i t : grows s s' -> (i < length s)%nat -> wtyped s' i t -> wtyped s i t.
Proof. intros [new ->] H T. unfold wtyped, wtypes in *. rewrite scan_prefix in T; auto. Qed.
Lemma grows_wtypedl s s' l ts : grows s s' -> wtypedl s l ts -> wtypedl s' l ts.
Proof. intros G. apply Forall2_imp. intros. eapply grows_wtyped; eauto. Qed.
Lemma tnode_tyx_op i n acc : n_op n <> TLeaf ->
  tnode_tyx lax ls i n acc = match lookups acc (n_inputs n) with Some vs => op_tyx lax (n_op n) vs | None => None end.
Proof. intros H. unfold tnode_tyx. destruct (n_op n); auto. congruence. Qed.

Lemma typed_wtyped g : forall i t, typed ls g i t -> wtyped g i t.
Proof.
  unfold typed, wtyped. induction g as [|n g IH] using rev_ind; intros i t H.
  - destruct i; discriminate.
  - unfold ttypes, wtypes in *. rewrite scan_snoc in H. rewrite scan_snoc.
    apply nth_snoc_cases in H. destruct H as [[H Hl]|[-> H]].
    + rewrite nth_error_app1; auto. rewrite scan_length in Hl. rewrite scan_length. exact Hl.
    + rewrite nth_error_app2, !scan_length, Nat.sub_diag by (rewrite !scan_length; lia). cbn [nth_error]. f_equal. symmetry in H.
      assert (HD : n_op n = TLeaf \/ n_op n <> TLeaf) by (destruct (n_op n); first [left; reflexivity|right; discriminate]).
      destruct HD as [E|Ho].
      * unfold tnode_ty in H. unfold tnode_tyx. rewrite E in H |- *. auto.
      * rewrite tnode_ty_op in H by exact Ho. rewrite tnode_tyx_op by exact Ho.
        destruct (lookups (scan (tnode_ty ls) g) (n_inputs n)) as [ts|] eqn:El; [|discriminate].
        assert (El' : lookups (scan (tnode_tyx lax ls) g) (n_inputs n) = Some ts).
        { apply lookups_spec in El. apply lookups_spec. eapply Forall2_imp; [|exact El]. intros inc u [A B]. split; auto. }
        rewrite El'. apply op_ty_x. auto.
Qed.
Lemma typedl_wtypedl g l ts : typedl ls g l ts -> wtypedl g l ts.
Proof. apply Forall2_imp. intros. apply typed_wtyped. auto. Qed.
Lemma wtypedl_fun g l ts ts' : wtypedl g l ts -> wtypedl g l ts' -> ts = ts'.
Proof.
  intros H. revert ts'. induction H as [|x t l ts Hx _ IH]; intros ts' H'; inversion H'; subst; [reflexivity|].
  f_equal; [eapply wtyped_fun; eauto|auto].
Qed.

Lemma wtyped_values rho g : conform ls rho -> forall i t, wtyped g i t -> exists v, holds rho g i v /\ has_ty v t.
Proof.
  intros HC. unfold wtyped, holds. induction g as [|n g IH] using rev_ind; intros i t H.
  - destruct i; discriminate.
  - unfold wtypes, tvalues in *. rewrite scan_snoc in H. rewrite scan_snoc.
    apply nth_snoc_cases in H. destruct H as [[H Hl]|[-> H]].
    + destruct (IH _ _ H) as (v & Hv & Hh). exists v. split; auto. rewrite nth_error_app1; auto.
      rewrite scan_length in Hl. rewrite scan_length. exact Hl.
    + rewrite nth_error_app2, !scan_length, Nat.sub_diag by (rewrite !scan_length; lia). cbn [nth_error].
      assert (HD : n_op n = TLeaf \/ n_op n <> TLeaf) by (destruct (n_op n); first [left; reflexivity|right; discriminate]).
      destruct HD as [E|Ho].
      * unfold tnode_tyx in H at 1. unfold tnode_val at 1. rewrite E in H |- *. inv H. eexists. split; [reflexivity|]. simpl. apply HC.
      * rewrite tnode_tyx_op in H by exact Ho. rewrite tnode_val_op by exact Ho.
        destruct (lookups (scan (tnode_tyx lax ls) g) (n_inputs n)) as [ts|] eqn:El; [|discriminate].
        apply lookups_spec in El.
        assert (HV : exists vs, lookups (scan (tnode_val rho) g) (n_inputs n) = Some vs /\ Forall2 has_ty vs ts).
        { clear -IH El. induction El as [|inc u ins us [Hs Hu] _ IH2].
          - exists []. split; [reflexivity|constructor].
          - destruct IH2 as (vs & Hvs & HF). destruct (IH _ _ Hu) as (v & Hv & Hh).
            exists (v :: vs). split; [simpl; rewrite Hs, Hv, Hvs; reflexivity | constructor; auto]. }
        destruct HV as (vs & -> & HF). destruct (op_tyx_sound lax (n_op n) ts t vs) as (v & Hv & Hh); auto.
        exists v. rewrite Hv. auto.
Qed.
Lemma wtyped_aval rho g i sh : conform ls rho -> wtyped g i (TyA sh) -> holds rho g i (TA (aval rho g i)) /\ has_shape sh (aval rho g i).
Proof.
  intros HC H. destruct (wtyped_values rho g HC i _ H) as (v & Hv & Ht). apply has_tyA in Ht. destruct Ht as (a & -> & Ha).
  unfold aval, holds in *. rewrite Hv. auto.
Qed.

Lemma wtyped_inputs g i n t : nth_error g i = Some n -> wtyped g i t ->
  (n_op n = TLeaf /\ t = TyA (ls i)) \/
  (n_op n <> TLeaf /\ exists ts,
     Forall2 (fun inc ty => in_sel inc = 0%nat /\ (in_id inc < i)%nat /\ wtyped g (in_id inc) ty) (n_inputs n) ts /\
     op_tyx lax (n_op n) ts = Some t).
Proof.
  intros Hi Ht. assert (Hl : (i < length g)%nat) by (apply nth_error_Some; congruence).
  unfold wtyped, wtypes in Ht. rewrite (scan_nth _ _ _ _ Hi) in Ht. injection Ht as Ht.
  assert (HD : n_op n = TLeaf \/ n_op n <> TLeaf) by (destruct (n_op n); first [left; reflexivity|right; discriminate]).
  destruct HD as [E|Ho].
  - left. unfold tnode_tyx in Ht. rewrite E in Ht. split; auto. congruence.
  - right. split; auto. rewrite tnode_tyx_op in Ht by exact Ho.
    destruct (lookups _ (n_inputs n)) as [ts|] eqn:El; [|discriminate]. exists ts. split; auto.
    apply lookups_spec in El. eapply Forall2_imp; [|exact El]. simpl. intros inc ty [Hs Hn]. split; auto.
    assert (Hlt : (in_id inc < i)%nat).
    { assert (Q : (in_id inc < length (scan (tnode_tyx lax ls) (firstn i g)))%nat) by (apply nth_error_Some; congruence).
      rewrite scan_length, firstn_length in Q. lia. }
    split; auto. unfold wtyped, wtypes. rewrite <- (firstn_skipn i g). rewrite scan_prefix; auto. rewrite firstn_length. lia.
Qed.

(** ** Building tensors *)
Definition wmakes (s : tgraph) (t : nat) (s' : tgraph) (ty : ty) (r : (nat -> arr R) -> tv -> Prop) : Prop :=
  twf ls s' /\ grows s s' /\ wtyped s' t ty /\ forall rho v, r rho v -> holds rho s' t v.
Lemma makes_wmakes s t s' ty r : makes ls s t s' ty r -> wmakes s t s' ty r.
Proof. intros (A & B & C & D). repeat (split; auto). apply typed_wtyped. exact C. Qed.
Lemma wmakes_weaken s s1 t s' ty (r r' : (nat -> arr R) -> tv -> Prop) : grows s s1 -> wmakes s1 t s' ty r -> (forall rho v, r' rho v -> r rho v) -> wmakes s t s' ty r'.
Proof. intros G (A & B & C & D) E. repeat (split; auto). eapply grows_trans; eauto. Qed.
Lemma wmakes_id s t ty : twf ls s -> wtyped s t ty -> wmakes s t s ty (fun rho v => holds rho s t v).
Proof. intros W T. repeat (split; auto). apply grows_refl. Qed.

(** Any new tensor; only a typed one must have the right shape attached. *)
Lemma tmk_any ins sh diff o s t s' :
  twf ls s -> o <> TLeaf -> tmk ins sh diff o s = Some (t, s') -> List.Forall (fun i => (i < length s)%nat) ins ->
  (forall ts sh', typedl ls s ins ts -> op_ty o ts = Some (TyA sh') -> forall x, sh = Some x -> typed ls s x (TyI (shape_vec sh'))) ->
  twf ls s' /\ grows s s' /\ t = length s /\ length s' = S (length s) /\
  forall ts ty, wtypedl s ins ts -> op_tyx lax o ts = Some ty ->
    wtyped s' t ty /\ forall rho v vs, holdsl rho s ins vs -> tcompute o vs = Some v -> holds rho s' t v.
Proof.
  intros Hwf Ho Hmk HF Hsh. unfold tmk in Hmk.
  destruct (build s _ o) as [[s1 id]|] eqn:Hb; inv Hmk.
  apply build_spec in Hb. destruct Hb as (Hid & _ & Hs). subst t.
  set (n := Node o _ _ _ _ _ _ _ _) in Hs. subst s'.
  assert (G : grows s (s ++ [n])) by (exists [n]; reflexivity).
  split; [|split; [exact G|split; [reflexivity|split; [rewrite app_length; simpl; lia|]]]].
  - destruct Hwf as [W1 W2 W3 W4 W5 W6 W7].
    assert (Hin : forall inc, In inc (n_inputs n) -> (in_id inc < length s)%nat).
    { intros inc Hinc. simpl in Hinc. apply in_map_iff in Hinc. destruct Hinc as (k & <- & Hk). simpl.
      rewrite Forall_forall in HF. auto. }
    constructor.
    + intros i m inc Hi Hinc. apply nth_snoc_cases in Hi. destruct Hi as [[Hi _]|[-> ->]]; [eauto|auto].
    + intros i m sh' x Hi Hn Hx. apply nth_snoc_cases in Hi. destruct Hi as [[Hi Hl]|[-> ->]].
      * apply (grows_typed ls s); auto. eapply W2; eauto. apply shaped_typed. apply (grows_typed_back ls s (s ++ [n])); auto.
      * apply (grows_typed ls s); auto.
        unfold shaped, ttypes in Hn. rewrite scan_snoc, nth_error_app2 in Hn; rewrite scan_length in *; auto. rewrite Nat.sub_diag in Hn. cbn [nth_error] in Hn.
        injection Hn as Hn. rewrite tnode_ty_op in Hn by exact Ho.
        destruct (lookups (scan (tnode_ty ls) s) (n_inputs n)) as [ts|] eqn:El; [|discriminate].
        apply (Hsh ts sh'); auto. apply lookups_spec in El. cbn [n_inputs n] in El. clear -El. revert ts El.
        induction ins as [|i ins IH]; intros ts El; simpl in El; inversion El as [|? ? ? ? [_ H1] H2]; subst; constructor; auto. apply IH. exact H2.
    + intros i m Hi Hop. apply nth_snoc_cases in Hi. destruct Hi as [[Hi Hl]|[-> ->]]; [eauto|]. simpl in Hop. congruence.
    + intros i m Hi Hop. apply nth_snoc_cases in Hi. destruct Hi as [[Hi Hl]|[-> ->]]; [eauto|]. simpl. auto.
    + intros i m Hi. apply nth_snoc_cases in Hi. destruct Hi as [[Hi Hl]|[-> ->]]; [eauto|]. reflexivity.
    + intros i m inc Hi Hinc. apply nth_snoc_cases in Hi. destruct Hi as [[Hi Hl]|[-> ->]].
      * rewrite rank_of_app; [eauto|]. pose proof (W1 _ _ _ Hi Hinc). lia.
      * rewrite rank_of_app by auto. simpl. apply new_rank_gt. exact Hinc.
    + intros i m inc Hi Hinc. apply nth_snoc_cases in Hi. destruct Hi as [[Hi Hl]|[-> ->]]; [eauto|].
      simpl in Hinc. apply in_map_iff in Hinc. destruct Hinc as (k & <- & _). reflexivity.
  - intros ts ty HT Hty. split.
    + unfold wtyped, wtypes. rewrite scan_snoc, nth_error_app2; rewrite scan_length; auto. rewrite Nat.sub_diag. cbn [nth_error].
      f_equal. rewrite tnode_tyx_op by exact Ho.
      assert (Hln : lookups (scan (tnode_tyx lax ls) s) (n_inputs n) = Some ts).
      { apply lookups_spec. simpl. clear -HT. induction HT; simpl; constructor; auto. }
      rewrite Hln. exact Hty.
    + intros rho v vs HV Hv. unfold holds, tvalues. rewrite scan_snoc, nth_error_app2; rewrite scan_length; auto.
      rewrite Nat.sub_diag. cbn [nth_error]. f_equal. fold (tvalues rho s).
      rewrite tnode_val_op by exact Ho.
      assert (Hlv : lookups (tvalues rho s) (n_inputs n) = Some vs).
      { apply lookups_spec. simpl. clear -HV. induction HV; simpl; constructor; auto. }
      rewrite Hlv. exact Hv.
Qed.
Lemma wtypedl_lt s l ts : wtypedl s l ts -> List.Forall (fun i => (i < length s)%nat) l.
Proof. induction 1; constructor; auto. eapply wtyped_lt; eauto. Qed.

Lemma tmk_w ins sh diff o ts ty s t s' :
  twf ls s -> o <> TLeaf -> tmk ins sh diff o s = Some (t, s') -> wtypedl s ins ts -> op_tyx lax o ts = Some ty ->
  (forall sh', typedl ls s ins ts -> ty = TyA sh' -> op_ty o ts = Some (TyA sh') -> forall x, sh = Some x -> typed ls s x (TyI (shape_vec sh'))) ->
  wmakes s t s' ty (fun rho v => exists vs, holdsl rho s ins vs /\ tcompute o vs = Some v).
Proof.
  intros W Ho Hm HT Hty Hsh. apply tmk_any in Hm; auto.
  - destruct Hm as (A & B & _ & _ & D). destruct (D _ _ HT Hty) as [D1 D2]. repeat (split; auto). intros rho v (vs & E1 & E2). eauto.
  - eapply wtypedl_lt; eauto.
  - intros ts' sh' HT' Hop x Hx. assert (ts' = ts) by (eapply wtypedl_fun; [apply typedl_wtypedl; exact HT'|exact HT]). subst ts'.
    apply (Hsh sh'); auto. apply (op_ty_x lax) in Hop. congruence.
Qed.

(** The tensor that [shape] returns. *)
Lemma a_shape_of_any x s t s' : twf ls s -> attached s -> (x < length s)%nat -> a_shape_of x s = Some (t, s') ->
  twf ls s' /\ grows s s' /\ (t < length s')%nat /\ attached s' /\
  forall sh, typed ls s x (TyA sh) -> typed ls s' t (TyI (shape_vec sh)).
Proof.
  intros W A Hx H. unfold a_shape_of in H. destruct (nth_error s x) as [n|] eqn:En; [|discriminate].
  destruct (n_shape n) as [id|] eqn:Es.
  - inv H. split; auto. split; [apply grows_refl|]. split; [eapply A; eauto|]. split; auto. intros sh Hsh. eapply (twf_shape ls s'); eauto.
  - pose proof H as Hm. apply tmk_any in H; auto; try discriminate.
    destruct H as (B & C & -> & L & _). split; auto. split; auto. split; [lia|]. split.
    + unfold tmk in Hm. destruct (build s _ TShape) as [[s1 id]|] eqn:Hb; inv Hm. apply build_spec in Hb. destruct Hb as (_ & _ & ->).
      intros i m t' Hi Ht. apply nth_snoc_cases in Hi. destruct Hi as [[Hi Hl]|[-> ->]]; [|discriminate].
      rewrite app_length. simpl. pose proof (A _ _ _ Hi Ht). lia.
    + intros sh Hsh. apply (tmk_spec ls _ _ _ _ [TyA sh] (TyI (shape_vec sh))) in Hm; auto; try discriminate; [apply Hm|].
      constructor; [auto|constructor].
Qed.
Lemma typed_at s s' i t : grows s s' -> (i < length s)%nat -> typed ls s' i t -> typed ls s i t.
Proof. apply grows_typed_back. Qed.

Lemma a_un_w u x sh s t s' : twf ls s -> attached s -> wtyped s x (TyA sh) -> a_un u x s = Some (t, s') ->
  wmakes s t s' (TyA sh) (fun rho v => exists w, holds rho s x w /\ tcompute (TUn u) [w] = Some v).
Proof.
  intros W A Hx H. pose proof (wtyped_lt _ _ _ Hx) as Lx.
  assert (Hfin : forall sa shn, grows s sa -> twf ls sa -> (forall z, shn = Some z -> forall s0, typed ls s x (TyA s0) -> typed ls sa z (TyI (shape_vec s0))) ->
    tmk [x] shn true (TUn u) sa = Some (t, s') ->
    wmakes s t s' (TyA sh) (fun rho v => exists w, holds rho s x w /\ tcompute (TUn u) [w] = Some v)).
  { intros sa shn G Wa Hs Hm. apply (tmk_w _ _ _ _ [TyA sh] (TyA sh)) in Hm; auto; try discriminate.
    - eapply wmakes_weaken; [exact G|exact Hm|]. simpl. intros rho v (w & Hw & E). exists [w]. split; [constructor; [eapply grows_holds; eauto|constructor]|auto].
    - constructor; [eapply grows_wtyped; eauto|constructor].
    - apply op_ty_x. reflexivity.
    - intros sh' HT E _ z Hz. inv E. apply (Hs z eq_refl). eapply grows_typed_back; [exact G|exact Lx|]. inversion HT; subst. auto. }
  unfold a_un in H. destruct (un_sets_shape u).
  - bindH H. apply (a_shape_of_any x) in E; auto. destruct E as (W1 & G1 & L1 & _ & T1).
    apply (Hfin s0 (Some t0)); auto. intros z Hz s2 Hs2. inv Hz. auto.
  - apply (Hfin s None); auto; [apply grows_refl|discriminate].
Qed.

Lemma a_bin_w b x y s0 s1 r s t s' : twf ls s -> attached s -> wtyped s x (TyA s0) -> wtyped s y (TyA s1) -> bin_ty b s0 s1 = Some r ->
  a_bin b x y s = Some (t, s') ->
  wmakes s t s' (TyA r) (fun rho v => exists w0 w1, holds rho s x w0 /\ holds rho s y w1 /\ tcompute (TBin b) [w0; w1] = Some v).
Proof.
  intros W A Hx Hy HB H. pose proof (wtyped_lt _ _ _ Hx) as Lx. pose proof (wtyped_lt _ _ _ Hy) as Ly.
  assert (HT : op_tyx lax (TBin b) [TyA s0; TyA s1] = Some (TyA r)) by (apply op_ty_x; simpl; rewrite HB; reflexivity).
  assert (Hfin : forall sa sh, grows s sa -> twf ls sa -> (forall z, sh = Some z -> typed ls s x (TyA s0) -> typed ls s y (TyA s1) -> typed ls sa z (TyI (shape_vec r))) ->
    tmk [x; y] sh true (TBin b) sa = Some (t, s') ->
    wmakes s t s' (TyA r) (fun rho v => exists w0 w1, holds rho s x w0 /\ holds rho s y w1 /\ tcompute (TBin b) [w0; w1] = Some v)).
  { intros sa sh G Wa Hsh Hm. apply (tmk_w _ _ _ _ [TyA s0; TyA s1] (TyA r)) in Hm; auto; try discriminate.
    - eapply wmakes_weaken; [exact G|exact Hm|]. simpl. intros rho v (w0 & w1 & P & Q & C). exists [w0; w1].
      split; [|exact C]. constructor; [eapply grows_holds; eauto|constructor; [eapply grows_holds; eauto|constructor]].
    - constructor; [eapply grows_wtyped; eauto|constructor; [eapply grows_wtyped; eauto|constructor]].
    - intros sh' HT' E _ z Hz. inv E. inversion HT' as [|? ? ? ? P HT2]; subst. inversion HT2 as [|? ? ? ? Q HT3]; subst.
      apply (Hsh z eq_refl); eapply grows_typed_back; eauto. }
  assert (HA : arith_ty s0 s1 = Some r ->
    tbind (a_shape_of x) (fun sx => tbind (a_shape_of y) (fun sy =>
      tbind (tmk [sx; sy] None true TInferShape) (fun sh => tmk [x; y] (Some sh) true (TBin b)))) s = Some (t, s') ->
    wmakes s t s' (TyA r) (fun rho v => exists w0 w1, holds rho s x w0 /\ holds rho s y w1 /\ tcompute (TBin b) [w0; w1] = Some v)).
  { intros HR Hm. apply arith_ty_ok in HR. destruct HR as (_ & HI & _).
    bindH Hm. apply (a_shape_of_any x) in E; auto. destruct E as (W1 & G1 & L1 & A1 & T1).
    assert (Ly1 : (y < length s2)%nat) by (apply grows_length in G1; lia).
    bindH Hm. apply (a_shape_of_any y) in E; auto. destruct E as (W2 & G2 & L2 & A2 & T2).
    assert (L1' : (t0 < length s3)%nat) by (apply grows_length in G2; lia).
    bindH Hm. pose proof E as Em. apply tmk_any in E; auto; try discriminate.
    destruct E as (W3 & G3 & _). eapply Hfin; [|exact W3| |exact Hm].
    - eapply grows_trans; [exact G1|]. eapply grows_trans; eauto.
    - intros z Hz TX TY. inv Hz. apply (tmk_spec ls _ _ _ _ [TyI (shape_vec s0); TyI (shape_vec s1)] (TyI (shape_vec r))) in Em; auto; try discriminate; [apply Em| |].
      + constructor; [eapply grows_typed; eauto|constructor; [apply T2; eapply grows_typed; eauto|constructor]].
      + unfold op_ty. rewrite !dims_shape_vec, HI. reflexivity. }
  assert (HS : same_ty s0 s1 = Some r ->
    tbind (a_shape_of y) (fun sh => tmk [x; y] (Some sh) true (TBin b)) s = Some (t, s') ->
    wmakes s t s' (TyA r) (fun rho v => exists w0 w1, holds rho s x w0 /\ holds rho s y w1 /\ tcompute (TBin b) [w0; w1] = Some v)).
  { intros HR Hm. unfold same_ty in HR. destruct (shape_eqb s0 s1) eqn:ES; [|discriminate]. apply shape_eqb_ok in ES. inv HR.
    bindH Hm. apply (a_shape_of_any y) in E; auto. destruct E as (W1 & G1 & L1 & A1 & T1).
    eapply Hfin; [exact G1|exact W1| |exact Hm]. intros z Hz _ TY. inv Hz. apply T1. exact TY. }
  destruct b; simpl in HB; unfold a_bin in H; try (apply HA; auto; fail); try (apply HS; auto; fail);
    try (apply (Hfin s None); [apply grows_refl|exact W|discriminate|exact H]).
  destruct (shape_eqb s1 [1%nat]); [discriminate|]. apply HA; auto.
Qed.
Lemma a_add_n_w l sh s t s' : twf ls s -> attached s -> List.Forall (fun x => wtyped s x (TyA sh)) l -> a_add_n l s = Some (t, s') ->
  wmakes s t s' (TyA sh) (fun rho v => exists w, holdsl rho s l (map TA w) /\ tcompute TAddN (map TA w) = Some v).
Proof.
  intros W A HF H. unfold a_add_n in H. destruct l as [|x l]; [discriminate|]. bindH H.
  pose proof (Forall_inv HF) as Hx. pose proof (wtyped_lt _ _ _ Hx) as Lx.
  apply (a_shape_of_any x) in E; auto. destruct E as (W1 & G1 & L1 & A1 & T1).
  apply (tmk_w _ _ _ _ (map (fun _ => TyA sh) (x :: l)) (TyA sh)) in H; auto; try discriminate.
  - eapply wmakes_weaken; [exact G1|exact H|]. simpl. intros rho v (w & Hw & E). exists (map TA w). split; [eapply grows_holdsl; eauto|auto].
  - eapply grows_wtypedl; eauto. clear -HF. induction HF; simpl; constructor; auto.
  - apply op_ty_x. unfold op_ty. simpl map. cbv iota. replace (forallb _ (map (fun _ : nat => TyA sh) l)) with true; [reflexivity|]. symmetry.
    clear. induction l; simpl; auto. rewrite (proj2 (shape_eqb_ok sh sh) eq_refl). exact IHl.
  - intros sh' HT E _ y Hy. inv E. inv Hy. apply T1. inversion HT; subst. eapply grows_typed_back; eauto.
Qed.

(** ** Rule expressions *)
Definition is_gather_grad (o : top) : bool := match o with TGatherGrad _ => true | _ => false end.
Definition wty_op (ts : list ty) (o : top) (m : smode) (args : list ty) (tlast : ty) : option ty :=
  match op_tyx lax o args with
  | Some t => if negb (is_leaf o) && (is_gather_grad o || stored_in ts m && stored_ok ts m tlast t) then Some t else None
  | None => None
  end.
Fixpoint wty (ts : list ty) (tout tgy : ty) (env : list ty) (e : expr) : option ty :=
  match e with
  | EGy => Some tgy
  | EIn i => nth_error ts i
  | EOut => Some tout
  | EVar k => nth_error env k
  | EShape i => match nth_error ts i with Some (TyA sh) => Some (TyI (shape_vec sh)) | _ => None end
  | EScalar _ => Some (TyA [])
  | EInts l => Some (TyI l)
  | EUn u e => match wty ts tout tgy env e with Some t => op_ty (TUn u) [t] | None => None end
  | EBin b e1 e2 => match wty ts tout tgy env e1, wty ts tout tgy env e2 with
                    | Some t1, Some t2 => op_ty (TBin b) [t1; t2] | _, _ => None end
  | EOp1 o m e => match wty ts tout tgy env e with Some t => wty_op ts o m [t] t | None => None end
  | EOp2 o m e1 e2 => match wty ts tout tgy env e1, wty ts tout tgy env e2 with
                      | Some t1, Some t2 => wty_op ts o m [t1; t2] t2 | _, _ => None end
  | EOp3 o m e1 e2 e3 => match wty ts tout tgy env e1, wty ts tout tgy env e2, wty ts tout tgy env e3 with
                         | Some t1, Some t2, Some t3 => wty_op ts o m [t1; t2; t3] t3 | _, _, _ => None end
  | ELet e body => match wty ts tout tgy env e with Some t => wty ts tout tgy (t :: env) body | None => None end
  end.
Lemma ety_op_w ts o m args tl t : ety_op ts o m args tl = Some t -> wty_op ts o m args tl = Some t.
Proof.
  unfold ety_op, wty_op. destruct (op_ty o args) as [t'|] eqn:E; [|discriminate]. rewrite (op_ty_x lax _ _ _ E).
  destruct (negb (is_leaf o)); [|discriminate]. cbn [andb]. destruct (stored_in ts m && stored_ok ts m tl t'); [|discriminate].
  rewrite orb_true_r. auto.
Qed.
Lemma ety_wty ts tout tgy e : forall env t, ety ts tout tgy env e = Some t -> wty ts tout tgy env e = Some t.
Proof.
  induction e; intros env t H; cbn [ety wty] in *; auto.
  - destruct (ety ts tout tgy env e) as [t1|] eqn:E; [|discriminate]. rewrite (IHe _ _ E). exact H.
  - destruct (ety ts tout tgy env e1) as [t1|] eqn:E1; [|discriminate]. destruct (ety ts tout tgy env e2) as [t2|] eqn:E2; [|discriminate].
    rewrite (IHe1 _ _ E1), (IHe2 _ _ E2). exact H.
  - destruct (ety ts tout tgy env e) as [t1|] eqn:E; [|discriminate]. rewrite (IHe _ _ E). apply ety_op_w. exact H.
  - destruct (ety ts tout tgy env e1) as [t1|] eqn:E1; [|discriminate]. destruct (ety ts tout tgy env e2) as [t2|] eqn:E2; [|discriminate].
    rewrite (IHe1 _ _ E1), (IHe2 _ _ E2). apply ety_op_w. exact H.
  - destruct (ety ts tout tgy env e1) as [t1|] eqn:E1; [|discriminate]. destruct (ety ts tout tgy env e2) as [t2|] eqn:E2; [|discriminate].
    destruct (ety ts tout tgy env e3) as [t3|] eqn:E3; [|discriminate].
    rewrite (IHe1 _ _ E1), (IHe2 _ _ E2), (IHe3 _ _ E3). apply ety_op_w. exact H.
  - destruct (ety ts tout tgy env e1) as [t1|] eqn:E1; [|discriminate]. rewrite (IHe1 _ _ E1). auto.
Qed.
Lemma wty_op_inv ts o m args tl t : wty_op ts o m args tl = Some t ->
  op_tyx lax o args = Some t /\ o <> TLeaf /\ (op_ty o args = Some t -> stored_in ts m = true /\ stored_ok ts m tl t = true).
Proof.
  unfold wty_op. destruct (op_tyx lax o args) as [t'|] eqn:EX; [|discriminate].
  destruct (negb (is_leaf o)) eqn:A; [|discriminate]. cbn [andb]. destruct (is_gather_grad o || _) eqn:B; [|discriminate]. intros H. inv H.
  split; [reflexivity|]. split; [intros ->; discriminate|]. intros Hop. apply orb_prop in B. destruct B as [B|B]; [|apply andb_prop; exact B].
  destruct o; try discriminate.
Qed.

(** Attached shape tensors keep existing. *)
Lemma tmk_attached ins sh diff o s t s' : attached s -> (forall x, sh = Some x -> (x < length s)%nat) -> tmk ins sh diff o s = Some (t, s') ->
  attached s' /\ (t < length s')%nat /\ (length s <= length s')%nat.
Proof.
  intros A Hs Hm. unfold tmk in Hm. destruct (build s _ o) as [[s1 id]|] eqn:Hb; inv Hm. apply build_spec in Hb. destruct Hb as (-> & _ & ->).
  rewrite app_length. simpl. split; [|lia].
  intros i m t' Hi Ht. rewrite app_length. simpl. apply nth_snoc_cases in Hi. destruct Hi as [[Hi Hl]|[-> ->]].
  - pose proof (A _ _ _ Hi Ht). lia.
  - simpl in Ht. pose proof (Hs _ Ht). lia.
Qed.
Lemma a_shape_of_attached x s t s' : attached s -> a_shape_of x s = Some (t, s') ->
  attached s' /\ (t < length s')%nat /\ (length s <= length s')%nat.
Proof.
  intros A H. unfold a_shape_of in H. destruct (nth_error s x) as [n|] eqn:En; [|discriminate].
  destruct (n_shape n) as [id|] eqn:Es.
  - inv H. split; auto. split; [eapply A; eauto|lia].
  - eapply tmk_attached; [exact A| |exact H]; discriminate.
Qed.
Lemma a_ints_attached l s t s' : attached s -> a_ints l s = Some (t, s') -> attached s' /\ (t < length s')%nat /\ (length s <= length s')%nat.
Proof.
  intros A H. unfold a_ints in H. bindH H. apply tmk_attached in E; auto; [|discriminate]. destruct E as (A1 & L1 & L2).
  apply tmk_attached in H; auto; [|intros x Hx; inv Hx; auto]. destruct H as (A3 & L3 & L4). split; auto. split; auto. lia.
Qed.
Lemma a_scalar_attached r s t s' : attached s -> a_scalar r s = Some (t, s') -> attached s' /\ (t < length s')%nat /\ (length s <= length s')%nat.
Proof.
  intros A H. unfold a_scalar in H. bindH H. apply a_ints_attached in E; auto. destruct E as (A1 & L1 & L2).
  apply tmk_attached in H; auto; [|intros x Hx; inv Hx; auto]. destruct H as (A3 & L3 & L4). split; auto. split; auto. lia.
Qed.
Lemma a_zeros_like_attached x s t s' : attached s -> a_zeros_like x s = Some (t, s') -> attached s' /\ (t < length s')%nat /\ (length s <= length s')%nat.
Proof.
  intros A H. unfold a_zeros_like in H. bindH H. apply a_shape_of_attached in E; auto. destruct E as (A1 & L1 & L2).
  apply tmk_attached in H; auto; [|discriminate]. destruct H as (A3 & L3 & L4). split; auto. split; auto. lia.
Qed.
Lemma a_add_n_attached l s t s' : attached s -> a_add_n l s = Some (t, s') -> attached s' /\ (t < length s')%nat /\ (length s <= length s')%nat.
Proof.
  intros A H. unfold a_add_n in H. destruct l as [|x l]; [discriminate|]. bindH H. apply a_shape_of_attached in E; auto. destruct E as (A1 & L1 & L2).
  apply tmk_attached in H; auto; [|intros z Hz; inv Hz; auto]. destruct H as (A3 & L3 & L4). split; auto. split; auto. lia.
Qed.
Lemma a_un_attached u x s t s' : attached s -> a_un u x s = Some (t, s') -> attached s' /\ (t < length s')%nat /\ (length s <= length s')%nat.
Proof.
  intros A H. unfold a_un in H. destruct (un_sets_shape u); [|eapply tmk_attached; [exact A| |exact H]; discriminate].
  bindH H. apply a_shape_of_attached in E; auto. destruct E as (A1 & L1 & L2).
  apply tmk_attached in H; auto; [|intros z Hz; inv Hz; auto]. destruct H as (A3 & L3 & L4). split; auto. split; auto. lia.
Qed.
Lemma a_bin_attached b x y s t s' : attached s -> a_bin b x y s = Some (t, s') -> attached s' /\ (t < length s')%nat /\ (length s <= length s')%nat.
Proof.
  intros A H.
  assert (HA : tbind (a_shape_of x) (fun sx => tbind (a_shape_of y) (fun sy =>
      tbind (tmk [sx; sy] None true TInferShape) (fun sh => tmk [x; y] (Some sh) true (TBin b)))) s = Some (t, s') ->
    attached s' /\ (t < length s')%nat /\ (length s <= length s')%nat).
  { clear H. intros H. bindH H. apply a_shape_of_attached in E; auto. destruct E as (A1 & L1 & L1').
    bindH H. apply a_shape_of_attached in E; auto. destruct E as (A2 & L2 & L2').
    bindH H. apply tmk_attached in E; auto; [|discriminate]. destruct E as (A3 & L3 & L3').
    apply tmk_attached in H; auto; [|intros z Hz; inv Hz; auto]. destruct H as (A4 & L4 & L4'). split; auto. split; auto. lia. }
  assert (HS : tbind (a_shape_of y) (fun sh => tmk [x; y] (Some sh) true (TBin b)) s = Some (t, s') ->
    attached s' /\ (t < length s')%nat /\ (length s <= length s')%nat).
  { clear H. intros H. bindH H. apply a_shape_of_attached in E; auto. destruct E as (A1 & L1 & L1').
    apply tmk_attached in H; auto; [|intros z Hz; inv Hz; auto]. destruct H as (A4 & L4 & L4'). split; auto. split; auto. lia. }
  destruct b; unfold a_bin in H; try (apply HA; exact H); try (apply HS; exact H); (eapply tmk_attached; [exact A| |exact H]; discriminate).
Qed.
Lemma stored_attached ins m last s sh s' : attached s -> (last < length s)%nat -> stored ins m last s = Some (sh, s') ->
  attached s' /\ (forall x, sh = Some x -> (x < length s')%nat) /\ (length s <= length s')%nat.
Proof.
  intros A HL H. destruct m as [|i|]; simpl in H.
  - inv H. split; auto. split; [discriminate|lia].
  - destruct (nth_error ins i) as [x|]; [|discriminate]. bindH H. inv H. apply a_shape_of_attached in E; auto. destruct E as (A1 & L1 & L2).
    split; auto. split; auto. intros z Hz. inv Hz. exact L1.
  - inv H. split; auto. split; [|lia]. intros z Hz. inv Hz. exact HL.
Qed.
Lemma build_expr_attached ins out gy : forall e env s t s', attached s ->
  (forall x, In x (out :: gy :: ins ++ env) -> (x < length s)%nat) -> build_expr ins out gy env e s = Some (t, s') ->
  attached s' /\ (t < length s')%nat /\ (length s <= length s')%nat.
Proof.
  assert (HM : forall (l : list nat) (s s' : tgraph), (length s <= length s')%nat -> (forall x : nat, In x l -> (x < length s)%nat) -> forall x : nat, In x l -> (x < length s')%nat).
  { intros l s s' L H x Hx. specialize (H x Hx). lia. }
  assert (fin : forall s0 s1 s' : tgraph, forall t : nat, (length s0 <= length s1)%nat -> attached s' /\ (t < length s')%nat /\ (length s1 <= length s')%nat ->
    attached s' /\ (t < length s')%nat /\ (length s0 <= length s')%nat).
  { intros s0 s1 s' t L (P & Q & U). split; auto. split; auto. lia. }
  induction e; intros env s t s' A HL H; cbn [build_expr] in H.
  - inv H. split; auto. split; [apply HL; simpl; auto|lia].
  - destruct (nth_error ins i) as [x|] eqn:Ei; [|discriminate]. inv H. split; auto. split; [|lia]. apply HL. right. right. apply in_or_app. left. eapply nth_error_In; eauto.
  - inv H. split; auto. split; [apply HL; simpl; auto|lia].
  - destruct (nth_error env k) as [x|] eqn:Ei; [|discriminate]. inv H. split; auto. split; [|lia]. apply HL. right. right. apply in_or_app. right. eapply nth_error_In; eauto.
  - destruct (nth_error ins i) as [x|] eqn:Ei; [|discriminate]. eapply a_shape_of_attached; eauto.
  - eapply a_scalar_attached; eauto.
  - eapply a_ints_attached; eauto.
  - bindH H. apply IHe in E; auto. destruct E as (A1 & L1 & L2). eapply fin; [exact L2|]. eapply a_un_attached; eauto.
  - bindH H. apply IHe1 in E; auto. destruct E as (A1 & L1 & L1'). bindH H. apply IHe2 in E; eauto. destruct E as (A2 & L2 & L2').
    eapply fin; [|eapply a_bin_attached; eauto]. lia.
  - bindH H. apply IHe in E; auto. destruct E as (A1 & L1 & L1'). bindH H. apply stored_attached in E; auto. destruct E as (A2 & L2 & L2').
    eapply fin; [|eapply tmk_attached; eauto]. lia.
  - bindH H. apply IHe1 in E; auto. destruct E as (A1 & L1 & L1'). bindH H. apply IHe2 in E; eauto. destruct E as (A2 & L2 & L2').
    bindH H. apply stored_attached in E; auto. destruct E as (A3 & L3 & L3').
    eapply fin; [|eapply tmk_attached; eauto]. lia.
  - bindH H. apply IHe1 in E; auto. destruct E as (A1 & L1 & L1'). bindH H. apply IHe2 in E; eauto. destruct E as (A2 & L2 & L2').
    bindH H. apply IHe3 in E; auto; [|apply (HM _ s); auto; lia]. destruct E as (A3 & L3 & L3').
    bindH H. apply stored_attached in E; auto. destruct E as (A4 & L4 & L4').
    eapply fin; [|eapply tmk_attached; eauto]. lia.
  - bindH H. apply IHe1 in E; auto. destruct E as (A1 & L1 & L1'). apply IHe2 in H; auto.
    + destruct H as (A2 & L2 & L2'). split; auto. split; auto. lia.
    + intros x [->|[->|Hx]]; [specialize (HL x); simpl in HL; specialize (HL (or_introl eq_refl)); lia|specialize (HL x); simpl in HL; specialize (HL (or_intror (or_introl eq_refl))); lia|].
      apply in_app_or in Hx. destruct Hx as [Hx|[->|Hx]]; auto; (assert (x < length s)%nat by (apply HL; right; right; apply in_or_app; auto); lia).
Qed.
Lemma build_exprs_attached ins out gy : forall rs s l s', attached s ->
  (forall x, In x (out :: gy :: ins) -> (x < length s)%nat) -> build_exprs ins out gy rs s = Some (l, s') -> attached s'.
Proof.
  induction rs as [|[e|] rs IH]; intros s l s' A HL H; cbn [build_exprs] in H.
  - inv H. exact A.
  - bindH H. apply build_expr_attached in E; auto; [|rewrite app_nil_r; auto]. destruct E as (A1 & _ & L). bindH H. inv H. apply IH in E; auto.
    intros x Hx. specialize (HL x Hx). lia.
  - bindH H. inv H. apply IH in E; auto.
Qed.

Definition wevals (ins : list nat) (out gy : nat) (env : list nat) (s : tgraph) (e : expr) := evals ls ins out gy env s e.

Lemma stored_w ins ts m last s sh s' : twf ls s -> attached s -> typedl ls s ins ts \/ m = SNone \/ m = SLast -> (last < length s)%nat -> stored ins m last s = Some (sh, s') ->
  twf ls s' /\ grows s s'.
Proof.
  intros W A HI HL H. destruct m as [|i|]; simpl in H.
  - inv H. split; [auto|apply grows_refl].
  - destruct (nth_error ins i) as [x|] eqn:Ei; [|discriminate]. bindH H. inv H.
    destruct HI as [HI|[HI|HI]]; try discriminate. destruct (Forall2_nth _ _ _ _ _ HI Ei) as (ty & Hty & Hx).
    apply (a_shape_of_any x) in E; auto; [|eapply typed_lt; eauto]. tauto.
  - inv H. split; [auto|apply grows_refl].
Qed.

Lemma build_op_w ins ts o m args targs last tlast ty s sh s1 t s' diff : twf ls s -> attached s -> typedl ls s ins ts ->
  wtypedl s args targs -> wty_op ts o m targs tlast = Some ty -> (exists k, nth_error args k = Some last /\ nth_error targs k = Some tlast) ->
  stored ins m last s = Some (sh, s1) -> tmk args sh diff o s1 = Some (t, s') ->
  wmakes s t s' ty (fun rho v => exists vs, holdsl rho s args vs /\ tcompute o vs = Some v).
Proof.
  intros W A HI HA Hop (k & Hk & Hk') HS Hm. apply wty_op_inv in Hop. destruct Hop as (Hop & Ho & HSt).
  assert (HL : wtyped s last tlast).
  { destruct (Forall2_nth _ _ _ _ _ HA Hk) as (b & Hb & Ht). congruence. }
  pose proof (stored_w ins ts m last s sh s1 W A (or_introl HI) (wtyped_lt _ _ _ HL) HS) as [W1 G1].
  apply (tmk_w _ _ _ _ targs ty) in Hm; auto.
  - eapply wmakes_weaken; [exact G1|exact Hm|]. intros rho v (vs & Hv & E). exists vs. split; auto. eapply grows_holdsl; eauto.
  - eapply grows_wtypedl; eauto.
  - intros sh' HT -> Hopty x Hx. destruct (HSt Hopty) as [Si So].
    assert (HTl : typed ls s last tlast).
    { destruct (Forall2_nth _ _ _ _ _ HT Hk) as (b & Hb & Ht). assert (b = tlast) by congruence. subst b.
      eapply grows_typed_back; [exact G1|eapply wtyped_lt; eauto|exact Ht]. }
    destruct (stored_spec ls ins ts m last tlast (TyA sh') s sh s1 W HI HTl Si So HS) as (_ & _ & HX). eauto.
Qed.

Lemma build_expr_w ins ts out gy tout tgy : forall e env tenv s t s' ty,
  twf ls s -> attached s -> typedl ls s ins ts -> typed ls s out tout -> wtyped s gy tgy -> wtypedl s env tenv ->
  wty ts tout tgy tenv e = Some ty -> build_expr ins out gy env e s = Some (t, s') ->
  wmakes s t s' ty (evals ls ins out gy env s e) /\ attached s'.
Proof.
  intros e env tenv s t s' ty W A HI HO HG HE Hty H. split.
  2: { apply build_expr_attached in H; auto; [apply H|]. intros x [<-|[<-|Hx]]; [eapply typed_lt; eauto|eapply wtyped_lt; eauto|].
       apply in_app_or in Hx. destruct Hx as [Hx|Hx]; apply In_nth_error in Hx; destruct Hx as (k & Hk).
       - destruct (Forall2_nth _ _ _ _ _ HI Hk) as (b & _ & Hb). eapply typed_lt; eauto.
       - destruct (Forall2_nth _ _ _ _ _ HE Hk) as (b & _ & Hb). eapply wtyped_lt; eauto. }
  revert env tenv s t s' ty W A HI HO HG HE Hty H.
  assert (HEV : forall s s1 env e rho v, grows s s1 -> evals ls ins out gy env s e rho v -> evals ls ins out gy env s1 e rho v).
  { intros s s1 env e0 rho v G (HC & vs & vo & vg & ve & A & B & C & D & E). split; [exact HC|]. exists vs, vo, vg, ve.
    repeat split; eauto using grows_holds, grows_holdsl. }
  assert (HAT : forall e0 env tenv s t s', attached s -> typedl ls s ins ts -> typed ls s out tout -> wtyped s gy tgy -> wtypedl s env tenv ->
    build_expr ins out gy env e0 s = Some (t, s') -> attached s').
  { intros e0 env tenv s t s' A HI HO HG HE H. apply build_expr_attached in H; auto; [apply H|]. intros x [<-|[<-|Hx]]; [eapply typed_lt; eauto|eapply wtyped_lt; eauto|].
       apply in_app_or in Hx. destruct Hx as [Hx|Hx]; apply In_nth_error in Hx; destruct Hx as (k & Hk).
       - destruct (Forall2_nth _ _ _ _ _ HI Hk) as (b & _ & Hb). eapply typed_lt; eauto.
       - destruct (Forall2_nth _ _ _ _ _ HE Hk) as (b & _ & Hb). eapply wtyped_lt; eauto. }
  induction e; intros env tenv s t s' ty W A HI HO HG HE Hty H; cbn [build_expr wty] in *.
  - inv H. inv Hty. eapply wmakes_weaken; [apply grows_refl|apply wmakes_id; eauto|].
    intros rho v (HC & vs & vo & vg & ve & P & B & C & D & E). simpl in E. inv E. exact C.
  - destruct (nth_error ins i) as [x|] eqn:Ei; [|discriminate]. inv H.
    destruct (Forall2_nth _ _ _ _ _ HI Ei) as (ty' & Hty' & Hx). assert (ty' = ty) by congruence. subst ty'.
    eapply wmakes_weaken; [apply grows_refl|apply wmakes_id; eauto using typed_wtyped|].
    intros rho v (HC & vs & vo & vg & ve & P & B & C & D & E). simpl in E.
    destruct (Forall2_nth _ _ _ _ _ P Ei) as (v' & Hv' & Hh). assert (v' = v) by congruence. subst. exact Hh.
  - inv H. inv Hty. eapply wmakes_weaken; [apply grows_refl|apply wmakes_id; eauto using typed_wtyped|].
    intros rho v (HC & vs & vo & vg & ve & P & B & C & D & E). simpl in E. inv E. exact B.
  - destruct (nth_error env k) as [x|] eqn:Ei; [|discriminate]. inv H.
    destruct (Forall2_nth _ _ _ _ _ HE Ei) as (ty' & Hty' & Hx). assert (ty' = ty) by congruence. subst ty'.
    eapply wmakes_weaken; [apply grows_refl|apply wmakes_id; eauto|].
    intros rho v (HC & vs & vo & vg & ve & P & B & C & D & E). simpl in E.
    destruct (Forall2_nth _ _ _ _ _ D Ei) as (v' & Hv' & Hh). assert (v' = v) by congruence. subst. exact Hh.
  - destruct (nth_error ins i) as [x|] eqn:Ei; [|discriminate].
    destruct (Forall2_nth _ _ _ _ _ HI Ei) as (ty' & Hty' & Hx). rewrite Hty' in Hty. destruct ty' as [sh|]; [|discriminate]. inv Hty.
    apply (a_shape_of_spec ls x sh) in H; auto. apply makes_wmakes in H. eapply wmakes_weaken; [apply grows_refl|exact H|].
    intros rho v (HC & vs & vo & vg & ve & P & B & C & D & E). simpl in E.
    destruct (Forall2_nth _ _ _ _ _ P Ei) as (v' & Hv' & Hh). rewrite Hv' in E.
    destruct (typed_aval ls rho s x sh HC Hx) as [Hv Hs]. pose proof (holds_fun _ _ _ _ _ Hh Hv). subst v'. inv E.
    rewrite (hs_sh _ _ Hs). auto.
  - inv Hty. apply (a_scalar_spec ls) in H; auto. apply makes_wmakes in H. eapply wmakes_weaken; [apply grows_refl|exact H|].
    intros rho v (HC & vs & vo & vg & ve & P & B & C & D & E). simpl in E. inv E. reflexivity.
  - inv Hty. apply (a_ints_spec ls) in H; auto. apply makes_wmakes in H. eapply wmakes_weaken; [apply grows_refl|exact H|].
    intros rho v (HC & vs & vo & vg & ve & P & B & C & D & E). simpl in E. inv E. reflexivity.
  - destruct (wty ts tout tgy tenv e) as [t1|] eqn:Et; [|discriminate].
    bindH H. pose proof (HAT _ _ _ _ _ _ A HI HO HG HE E) as A1. apply (IHe env tenv _ _ _ t1) in E; auto. destruct E as (W1 & G1 & T1 & V1).
    destruct t1 as [sh|]; [|discriminate]. simpl in Hty. inv Hty.
    apply (a_un_w u _ sh) in H; auto. eapply wmakes_weaken; [exact G1|exact H|].
    intros rho v (HC & vs & vo & vg & ve & P & B & C & D & E). simpl in E.
    destruct (eeval vs vo vg ve e) as [w|] eqn:Ew; [|discriminate]. exists w. split; [|exact E].
    apply V1. split; [exact HC|]. exists vs, vo, vg, ve. auto.
  - destruct (wty ts tout tgy tenv e1) as [t1|] eqn:Et1; [|discriminate]. destruct (wty ts tout tgy tenv e2) as [t2|] eqn:Et2; [|discriminate].
    bindH H. pose proof (HAT _ _ _ _ _ _ A HI HO HG HE E) as A1. apply (IHe1 env tenv _ _ _ t1) in E; auto. destruct E as (W1 & G1 & T1 & V1).
    bindH H. assert (A2 : attached s1) by (eapply HAT; [exact A1| | | | |exact E]; eauto using grows_typed, grows_typedl, grows_wtyped, grows_wtypedl).
    apply (IHe2 env tenv _ _ _ t2) in E; eauto using grows_typed, grows_typedl, grows_wtyped, grows_wtypedl. destruct E as (W2 & G2 & T2 & V2).
    simpl in Hty. destruct t1 as [sh1|]; [|discriminate]. destruct t2 as [sh2|]; [|discriminate].
    destruct (bin_ty b sh1 sh2) as [r|] eqn:EB; [|discriminate]. inv Hty.
    apply (a_bin_w b _ _ sh1 sh2 r) in H; eauto using grows_wtyped. eapply wmakes_weaken; [eapply grows_trans; eauto|exact H|].
    intros rho v HEv. destruct HEv as (HC & vs & vo & vg & ve & P & B & C & D & E). simpl in E.
    destruct (eeval vs vo vg ve e1) as [w1|] eqn:Ew1; [|discriminate]. destruct (eeval vs vo vg ve e2) as [w2|] eqn:Ew2; [|discriminate].
    exists w1, w2. split; [|split; [|exact E]].
    + eapply grows_holds; [exact G2|]. apply V1. split; [exact HC|]. exists vs, vo, vg, ve. auto.
    + apply V2. apply (HEV s); auto. split; [exact HC|]. exists vs, vo, vg, ve. auto.
  - destruct (wty ts tout tgy tenv e) as [t1|] eqn:Et; [|discriminate].
    bindH H. pose proof (HAT _ _ _ _ _ _ A HI HO HG HE E) as A1. apply (IHe env tenv _ _ _ t1) in E; auto. destruct E as (W1 & G1 & T1 & V1).
    bindH H. eapply (build_op_w ins ts o m [t0] [t1] t0 t1 ty s0) in H; eauto using grows_typedl.
    + eapply wmakes_weaken; [exact G1|exact H|]. intros rho v HEv. destruct HEv as (HC & vs & vo & vg & ve & P & B & C & D & E'). simpl in E'.
      destruct (eeval vs vo vg ve e) as [w|] eqn:Ew; [|discriminate]. exists [w]. split; [|exact E'].
      constructor; [|constructor]. apply V1. split; [exact HC|]. exists vs, vo, vg, ve. auto.
    + constructor; [auto|constructor].
    + exists 0%nat. auto.
  - destruct (wty ts tout tgy tenv e1) as [t1|] eqn:Et1; [|discriminate]. destruct (wty ts tout tgy tenv e2) as [t2|] eqn:Et2; [|discriminate].
    bindH H. pose proof (HAT _ _ _ _ _ _ A HI HO HG HE E) as A1. apply (IHe1 env tenv _ _ _ t1) in E; auto. destruct E as (W1 & G1 & T1 & V1).
    bindH H. assert (A2 : attached s1) by (eapply HAT; [exact A1| | | | |exact E]; eauto using grows_typed, grows_typedl, grows_wtyped, grows_wtypedl).
    apply (IHe2 env tenv _ _ _ t2) in E; eauto using grows_typed, grows_typedl, grows_wtyped, grows_wtypedl. destruct E as (W2 & G2 & T2 & V2).
    assert (G12 : grows s s1) by (eapply grows_trans; eauto).
    bindH H. eapply (build_op_w ins ts o m [t0; t3] [t1; t2] t3 t2 ty s1) in H; eauto using grows_typedl.
    + eapply wmakes_weaken; [exact G12|exact H|].
      intros rho v HEv. destruct HEv as (HC & vs & vo & vg & ve & P & B & C & D & E'). simpl in E'.
      destruct (eeval vs vo vg ve e1) as [w1|] eqn:Ew1; [|discriminate]. destruct (eeval vs vo vg ve e2) as [w2|] eqn:Ew2; [|discriminate].
      exists [w1; w2]. split; [|exact E']. constructor; [|constructor; [|constructor]].
      * eapply grows_holds; [exact G2|]. apply V1. split; [exact HC|]. exists vs, vo, vg, ve. auto.
      * apply V2. apply (HEV s); auto. split; [exact HC|]. exists vs, vo, vg, ve. auto.
    + constructor; [|constructor; [|constructor]]; eauto using grows_wtyped.
    + exists 1%nat. auto.
  - destruct (wty ts tout tgy tenv e1) as [t1|] eqn:Et1; [|discriminate]. destruct (wty ts tout tgy tenv e2) as [t2|] eqn:Et2; [|discriminate].
    destruct (wty ts tout tgy tenv e3) as [t3|] eqn:Et3; [|discriminate].
    bindH H. pose proof (HAT _ _ _ _ _ _ A HI HO HG HE E) as A1. apply (IHe1 env tenv _ _ _ t1) in E; auto. destruct E as (W1 & G1 & T1 & V1).
    bindH H. assert (A2 : attached s1) by (eapply HAT; [exact A1| | | | |exact E]; eauto using grows_typed, grows_typedl, grows_wtyped, grows_wtypedl).
    apply (IHe2 env tenv _ _ _ t2) in E; eauto using grows_typed, grows_typedl, grows_wtyped, grows_wtypedl. destruct E as (W2 & G2 & T2 & V2).
    assert (G12 : grows s s1) by (eapply grows_trans; eauto).
    bindH H. assert (A3 : attached s2) by (eapply HAT; [exact A2| | | | |exact E]; eauto using grows_typed, grows_typedl, grows_wtyped, grows_wtypedl).
    apply (IHe3 env tenv _ _ _ t3) in E; eauto using grows_typed, grows_typedl, grows_wtyped, grows_wtypedl. destruct E as (W3 & G3 & T3 & V3).
    assert (G13 : grows s s2) by (eapply grows_trans; eauto).
    bindH H. eapply (build_op_w ins ts o m [t0; t4; t5] [t1; t2; t3] t5 t3 ty s2) in H; eauto using grows_typedl.
    + eapply wmakes_weaken; [exact G13|exact H|].
      intros rho v HEv. destruct HEv as (HC & vs & vo & vg & ve & P & B & C & D & E'). simpl in E'.
      destruct (eeval vs vo vg ve e1) as [w1|] eqn:Ew1; [|discriminate]. destruct (eeval vs vo vg ve e2) as [w2|] eqn:Ew2; [|discriminate].
      destruct (eeval vs vo vg ve e3) as [w3|] eqn:Ew3; [|discriminate].
      exists [w1; w2; w3]. split; [|exact E']. constructor; [|constructor; [|constructor; [|constructor]]].
      * eapply grows_holds; [eapply grows_trans; [exact G2|exact G3]|]. apply V1. split; [exact HC|]. exists vs, vo, vg, ve. auto.
      * eapply grows_holds; [exact G3|]. apply V2. apply (HEV s); auto. split; [exact HC|]. exists vs, vo, vg, ve. auto.
      * apply V3. apply (HEV s); auto. split; [exact HC|]. exists vs, vo, vg, ve. auto.
    + constructor; [|constructor; [|constructor; [|constructor]]]; eauto using grows_wtyped, grows_trans.
    + exists 2%nat. auto.
  - destruct (wty ts tout tgy tenv e1) as [t1|] eqn:Et1; [|discriminate].
    bindH H. pose proof (HAT _ _ _ _ _ _ A HI HO HG HE E) as A1. apply (IHe1 env tenv _ _ _ t1) in E; auto. destruct E as (W1 & G1 & T1 & V1).
    apply (IHe2 _ (t1 :: tenv) _ _ _ ty) in H; eauto using grows_typed, grows_typedl, grows_wtyped, grows_wtypedl.
    + eapply wmakes_weaken; [exact G1|exact H|]. intros rho v HEv. destruct HEv as (HC & vs & vo & vg & ve & P & B & C & D & E). simpl in E.
      destruct (eeval vs vo vg ve e1) as [w1|] eqn:Ew1; [|discriminate]. split; [exact HC|]. exists vs, vo, vg, (w1 :: ve).
      repeat split; eauto using grows_holds, grows_holdsl. constructor; [|eapply grows_holdsl; eauto].
      apply V1. split; [exact HC|]. exists vs, vo, vg, ve. auto.
    + constructor; [auto|apply (grows_wtypedl s); auto].
Qed.

Lemma build_exprs_w ins ts out gy tout tgy : forall rs s l s',
  twf ls s -> attached s -> typedl ls s ins ts -> typed ls s out tout -> wtyped s gy tgy ->
  (forall p e, nth_error rs p = Some (Some e) -> exists ty, wty ts tout tgy [] e = Some ty) ->
  build_exprs ins out gy rs s = Some (l, s') ->
  twf ls s' /\ grows s s' /\ length l = length rs /\
  forall p, match nth_error rs p with
            | Some (Some e) => exists t ty, nth_error l p = Some (Some t) /\ wty ts tout tgy [] e = Some ty /\ wtyped s' t ty /\
                forall rho v, evals ls ins out gy [] s e rho v -> holds rho s' t v
            | Some None => nth_error l p = Some None
            | None => nth_error l p = None
            end.
Proof.
  induction rs as [|[e|] rs IH]; intros s l s' W A HI HO HG HR H; cbn [build_exprs] in H.
  - inv H. split; auto. split; [apply grows_refl|]. split; auto. intros [|p]; reflexivity.
  - bindH H. destruct (HR 0%nat e eq_refl) as (ty & Hty).
    apply (build_expr_w ins ts out gy tout tgy e [] [] _ _ _ ty) in E; auto; [|constructor]. destruct E as ((W1 & G1 & T1 & V1) & A1).
    bindH H. inv H. apply IH in E; eauto using grows_typed, grows_typedl, grows_wtyped.
    + destruct E as (W2 & G2 & L2 & P2). split; auto. split; [eauto using grows_trans|]. split; [simpl; auto|].
      intros [|p]; simpl.
      * exists t, ty. split; auto. split; auto. split; [eauto using grows_wtyped|]. intros rho v Hv. eapply grows_holds; eauto.
      * specialize (P2 p). destruct (nth_error rs p) as [[e'|]|] eqn:Er; auto.
        destruct P2 as (t' & ty' & P & B & C & D). exists t', ty'. split; auto. split; auto. split; auto. intros rho v HEv. apply D.
        destruct HEv as (HC & vs & vo & vg & ve & A2 & B1 & C1 & D1 & E1). split; [exact HC|]. exists vs, vo, vg, ve.
        repeat split; eauto using grows_holds, grows_holdsl.
    + intros p e' Hp. apply (HR (S p) e' Hp).
  - bindH H. inv H. apply IH in E; auto.
    + destruct E as (W2 & G2 & L2 & P2). split; auto. split; auto. split; [simpl; auto|].
      intros [|p]; simpl; auto. apply P2.
    + intros p e' Hp. apply (HR (S p) e' Hp).
Qed.
End Lax.

(** ** Either kind of typing *)
Definition etyx (lax : bool) := if lax then wty true else ety.
Lemma etyx_of lax ts tout tgy e t : ety ts tout tgy [] e = Some t -> etyx lax ts tout tgy [] e = Some t.
Proof. destruct lax; [apply ety_wty|auto]. Qed.
(** What is known of a graph under construction. *)
Definition sound (lax : bool) (ls : nat -> list nat) (s : tgraph) : Prop := twf ls s /\ (lax = true -> attached s).

Lemma wtyped_typed ls g i t : wtyped ls false g i t <-> typed ls g i t.
Proof. split; intros H; exact H. Qed.

Lemma build_exprs_x ls lax ins ts out gy tout tgy rs s l s' :
  sound lax ls s -> typedl ls s ins ts -> typed ls s out tout -> wtyped ls lax s gy tgy ->
  (forall p e, nth_error rs p = Some (Some e) -> exists ty, etyx lax ts tout tgy [] e = Some ty) ->
  build_exprs ins out gy rs s = Some (l, s') ->
  sound lax ls s' /\ grows s s' /\ length l = length rs /\
  forall p, match nth_error rs p with
  | Some (Some e) => exists t ty, nth_error l p = Some (Some t) /\ etyx lax ts tout tgy [] e = Some ty /\ wtyped ls lax s' t ty /\
                     forall rho v, evals ls ins out gy [] s e rho v -> holds rho s' t v
  | Some None => nth_error l p = Some None
  | None => nth_error l p = None
  end.
Proof.
  intros [W A] HI HO HG HE HB. destruct lax.
  - specialize (A eq_refl). destruct (build_exprs_w ls true ins ts out gy tout tgy rs s l s' W A HI HO HG HE HB) as (W' & G' & L & P).
    split; [|auto]. split; [exact W'|]. intros _. eapply (build_exprs_attached ins out gy rs s l s' A); [|exact HB].
    intros x [<-|[<-|Hx]]; [eapply typed_lt; exact HO|eapply wtyped_lt; exact HG|].
    clear -HI Hx. induction HI as [|a t l ts Ha _ IH]; [destruct Hx|]. destruct Hx as [<-|Hx]; [eapply typed_lt; exact Ha|auto].
  - destruct (build_exprs_spec ls ins ts out gy tout tgy rs s l s' W HI HO HG HE HB) as (W' & G' & L & P).
    split; [|auto]. split; [exact W'|discriminate].
Qed.
Lemma a_add_n_x ls lax l sh s t s' : sound lax ls s -> List.Forall (fun x => wtyped ls lax s x (TyA sh)) l ->
  a_add_n l s = Some (t, s') ->
  wmakes ls lax s t s' (TyA sh) (fun rho v => exists w, holdsl rho s l (map TA w) /\ tcompute TAddN (map TA w) = Some v) /\ sound lax ls s'.
Proof.
  intros [W A] HF H. destruct lax.
  - specialize (A eq_refl). pose proof (a_add_n_w ls true l sh s t s' W A HF H) as M. split; [exact M|].
    split; [apply M|]. intros _. eapply a_add_n_attached; eauto.
  - pose proof (a_add_n_spec ls l sh s t s' W HF H) as M. split; [exact M|]. split; [apply M|discriminate].
Qed.
Lemma a_scalar_x ls lax r s t s' : sound lax ls s -> a_scalar r s = Some (t, s') ->
  makes ls s t s' (TyA []) (fun _ v => v = TA (Arr [] [r])) /\ sound lax ls s'.
Proof.
  intros [W A] H. pose proof (a_scalar_spec ls r s t s' W H) as M. split; [exact M|]. split; [apply M|].
  intros Hl. eapply a_scalar_attached; [apply A; exact Hl|exact H].
Qed.
Lemma a_zeros_like_x ls lax x sh s t s' : sound lax ls s -> typed ls s x (TyA sh) -> a_zeros_like x s = Some (t, s') ->
  makes ls s t s' (TyA sh) (fun rho v => v = TA (full sh 0) /\ conform ls rho) /\ sound lax ls s'.
Proof.
  intros [W A] T H. pose proof (a_zeros_like_spec ls x sh s t s' W T H) as M. split; [exact M|]. split; [apply M|].
  intros Hl. eapply a_zeros_like_attached; [apply A; exact Hl|exact H].
Qed.

(** ** Rules that are right *)
Record usable (lax : bool) (o : top) (ts : list ty) (vs : list tv) (sh : list nat) (out : arr R) (K : kernel) : Prop := {
  us_rule : forall rs p e, trule o (length ts) = Some rs -> nth_error rs p = Some (Some e) ->
    exists shp, nth_error ts p = Some (TyA shp) /\ etyx lax ts (TyA sh) (TyA sh) [] e = Some (TyA shp) /\
      forall gy, has_shape sh gy -> eeval vs (TA out) (TA gy) [] e = Some (TA (applied shp sh (K p) gy));
  us_zero : forall rs p i j, trule o (length ts) = Some rs -> (forall e, nth_error rs p <> Some (Some e)) -> K p i j = 0;
  us_diff : t_dom o vs -> forall Fs d, curve ts Fs d -> (forall p j, frozen o p = true -> d p j = 0) ->
    map (fun F : R -> tv => F 0) Fs = vs ->
    forall i, in_bounds sh i -> is_derive (fun t : R => rget (run o (map (fun F : R -> tv => F t) Fs)) i) 0 (spread ts K i d)
}.
Lemma correct_usable lax o ts vs sh out K : correct o ts vs sh out K -> usable lax o ts vs sh out K.
Proof.
  intros [A B D]. constructor; auto. intros rs p e H1 H2. destruct (A rs p e H1 H2) as (shp & P & Q & V).
  exists shp. split; [exact P|]. split; [apply etyx_of; exact Q|exact V].
Qed.

(** Gather: the rule adds up at the positions that were read. *)
Lemma gather_usable norm axis idx sh0 sh x out : gather_ty norm axis idx sh0 = Some sh -> gather_back axis idx = true -> has_shape sh0 x ->
  exists K, usable true (TGather norm axis) [TyI idx; TyA sh0] [TI idx; TA x] sh out K.
Proof.
  intros HG HB Hx. destruct (gather_ty_ok _ _ _ _ _ HG) as (k & HA & Hk & HN & HF & HS).
  set (f := gpick k (nth k sh0 0%nat) idx).
  assert (Hin : forall i, in_bounds sh i -> in_bounds sh0 (f i)).
  { intros i Hi. subst sh. unfold f. eapply gpick_in; eauto. }
  exists (fun p => match p with 1%nat => fun i j => delta (f i) j | _ => fun _ _ => 0 end). constructor.
  - intros rs p e H1 H2. simpl in H1. injection H1 as <-. destruct p as [|[|[|p]]]; try discriminate H2. simpl in H2. injection H2 as <-.
    exists sh0. split; [reflexivity|]. split.
    + cbn [etyx wty nth_error]. unfold wty_op. cbn [op_tyx]. rewrite (gather_ty_true _ _ _ _ _ HG), HB.
      replace (shape_eqb sh sh) with true by (symmetry; apply shape_eqb_ok; reflexivity). reflexivity.
    + intros gy Hg. cbn [eeval nth_error]. cbn [tcompute].
      rewrite (gather_grad_push axis idx sh0 sh k x gy Hx (gather_ty_true _ _ _ _ _ HG) HA HB Hg). reflexivity.
  - intros rs p i j H1 H2. simpl in H1. injection H1 as <-. destruct p as [|[|p]]; try reflexivity. exfalso. eapply H2. reflexivity.
  - intros _ Fs d HC _ HM i Hi. destruct HC as [HT HD].
    destruct Fs as [|F0 [|F1 [|F2 Fs]]]; try (exfalso; specialize (HT 0); inversion HT as [|? ? ? ? ? Q]; subst; inversion Q as [|? ? ? ? ? Q2]; subst; inversion Q2; fail).
    assert (E0 : forall t, F0 t = TI idx /\ exists a, F1 t = TA a /\ has_shape sh0 a).
    { intros t. specialize (HT t). simpl in HT. inversion HT as [|? ? ? ? Q1 Q]; subst. inversion Q as [|? ? ? ? Q2 _]; subst.
      split; [apply has_tyI; exact Q1|]. apply has_tyA in Q2. exact Q2. }
    eapply is_derive_eq.
    + apply (is_derive_fext (fun t => rget (arr_of (F1 t)) (f i))).
      * intros t. destruct (E0 t) as (E & a & Ea & Ha). cbn [map]. rewrite E, Ea. unfold run. cbn [tcompute].
        rewrite (gather_pull norm axis idx sh0 sh k a Ha HG HA). cbn [otA option_map arr_of]. unfold pullr. rewrite aget_tab by exact Hi. reflexivity.
      * apply (HD 1%nat F1 sh0); [reflexivity|reflexivity|]. apply Hin. exact Hi.
    + unfold spread. cbn [length seq]. rewrite !rsum_cons. cbn [nth_error]. unfold sumf at 2. simpl fold_right. rewrite rsum_delta by (apply Hin; exact Hi). ring.
Qed.

Lemma op_usable lax o ts vs sh out : op_ty o ts = Some (TyA sh) -> op_use lax o ts = true -> Forall2 has_ty vs ts ->
  tcompute o vs = Some (TA out) -> exists K, usable lax o ts vs sh out K.
Proof.
  intros HT HU HV HC.
  assert (HO : op_fit o ts = true -> exists K, usable lax o ts vs sh out K).
  { intros HF. destruct (op_correct o ts vs sh out HT HF HV HC) as (K & HK). exists K. apply correct_usable. exact HK. }
  destruct lax; [|apply HO; exact HU]. destruct o; try (apply HO; exact HU).
  cbn [op_use] in HU. destruct ts as [|[|idx] [|t1 [|]]]; try (apply HO; exact HU). 
  cbn [op_ty] in HT. destruct t1 as [sh0|]; [|discriminate]. destruct (gather_ty norm axis idx sh0) as [o|] eqn:EG; [|discriminate].
  cbn in HT. inv HT. inv_tys. eapply gather_usable; eauto.
Qed.
