(** Scalar graphs: typing, values, and the tensors built by gradient rules. *)
From Coq Require Import String List Arith ZArith Bool Reals Lra Lia.
Import ListNotations.
From Verif Require Import Graph_Model Eval_Model Eval_Spec Eval_Proofs Graph_Proofs Grad_Model Grad_Spec
  Scalar_Model Scalar_Spec Scalar_Rules.
Local Open Scope R_scope.
Local Set Bullet Behavior "Strict Subproofs".

(** ** Scans *)
Section ScanLemmas.
  Context {O A : Type}.
  Variable f : nat -> node O -> list A -> A.

  Lemma scan_from_app g1 : forall acc g2, scan_from f acc (g1 ++ g2) = scan_from f (scan_from f acc g1) g2.
  Proof. induction g1 as [|n g1 IH]; intros acc g2; simpl; auto. Qed.
  Lemma scan_from_length g : forall acc, length (scan_from f acc g) = (length acc + length g)%nat.
  Proof.
    induction g as [|n g IH]; intros acc; simpl; [lia|]. rewrite IH, app_length. simpl. lia.
  Qed.
  Lemma scan_length g : length (scan f g) = length g.
  Proof. unfold scan. rewrite scan_from_length. reflexivity. Qed.
  Lemma scan_snoc g n : scan f (g ++ [n]) = scan f g ++ [f (length g) n (scan f g)].
  Proof. unfold scan at 1. rewrite scan_from_app. simpl. fold (scan f g). rewrite scan_length. reflexivity. Qed.
  Lemma scan_from_prefix g : forall acc i, (i < length acc)%nat -> nth_error (scan_from f acc g) i = nth_error acc i.
  Proof.
    induction g as [|n g IH]; intros acc i H; simpl; auto.
    rewrite IH by (rewrite app_length; simpl; lia). apply nth_error_app1. auto.
  Qed.
  Lemma scan_prefix g new i : (i < length g)%nat -> nth_error (scan f (g ++ new)) i = nth_error (scan f g) i.
  Proof. intros H. unfold scan at 1. rewrite scan_from_app. apply scan_from_prefix. fold (scan f g). rewrite scan_length. auto. Qed.
  Lemma scan_nth g i n : nth_error g i = Some n ->
    nth_error (scan f g) i = Some (f i n (scan f (firstn i g))).
  Proof.
    intros H. assert (Hi : (i < length g)%nat) by (apply nth_error_Some; congruence).
    rewrite <- (firstn_skipn (S i) g) at 1.
    rewrite scan_prefix by (rewrite firstn_length; lia).
    assert (E : firstn (S i) g = firstn i g ++ [n]).
    { clear -H. revert g H. induction i as [|i IH]; intros [|a g] H; try discriminate; simpl in *.
      - injection H as ->. reflexivity.
      - f_equal. apply IH. auto. }
    rewrite E, scan_snoc, nth_error_app2; rewrite scan_length, firstn_length, Nat.min_l by lia; [|lia].
    rewrite Nat.sub_diag. reflexivity.
  Qed.
End ScanLemmas.

Lemma lookups_spec {A} (acc : list (option A)) ins l :
  lookups acc ins = Some l <->
  Forall2 (fun inc v => in_sel inc = 0%nat /\ nth_error acc (in_id inc) = Some (Some v)) ins l.
Proof.
  revert l. induction ins as [|inc ins IH]; intros l; simpl.
  - split; [intros H; inv H; constructor | intros H; inversion H; reflexivity].
  - destruct (in_sel inc) as [|k] eqn:Es.
    + destruct (nth_error acc (in_id inc)) as [[v|]|] eqn:En.
      * destruct (lookups acc ins) as [l'|] eqn:El.
        -- split.
           ++ intros H; inv H. constructor; auto. apply IH. auto.
           ++ intros H. inversion H as [|? ? ? l2 [_ Hv] H2]; subst. rewrite En in Hv. inv Hv.
              apply IH in H2. inv H2. reflexivity.
        -- split; [discriminate|]. intros H. inversion H as [|? ? ? l2 _ H2]; subst. apply IH in H2. discriminate.
      * split; [discriminate|]. intros H. inversion H as [|? ? ? l2 [_ Hv] H2]; subst. congruence.
      * split; [discriminate|]. intros H. inversion H as [|? ? ? l2 [_ Hv] H2]; subst. congruence.
    + split; [discriminate|]. intros H. inversion H as [|? ? ? l2 [Hv _] H2]; subst. congruence.
Qed.

Lemma Forall2_imp {A B} (P Q : A -> B -> Prop) l1 l2 :
  (forall a b, P a b -> Q a b) -> Forall2 P l1 l2 -> Forall2 Q l1 l2.
Proof. induction 2; constructor; auto. Qed.
Lemma Forall2_len {A B} (P : A -> B -> Prop) l1 l2 : Forall2 P l1 l2 -> length l1 = length l2.
Proof. induction 1; simpl; auto. Qed.
Lemma Forall2_nth {A B} (P : A -> B -> Prop) l1 l2 i a : Forall2 P l1 l2 -> nth_error l1 i = Some a ->
  exists b, nth_error l2 i = Some b /\ P a b.
Proof.
  intros H. revert i. induction H as [|x y l1 l2 Hxy _ IH]; intros [|i] Hi; try discriminate; simpl in *.
  - inv Hi. eauto.
  - auto.
Qed.
Lemma Forall2_nth2 {A B} (P : A -> B -> Prop) l1 l2 i b : Forall2 P l1 l2 -> nth_error l2 i = Some b ->
  exists a, nth_error l1 i = Some a /\ P a b.
Proof.
  intros H. revert i. induction H as [|x y l1 l2 Hxy _ IH]; intros [|i] Hi; try discriminate; simpl in *.
  - inv Hi. eauto.
  - auto.
Qed.

Lemma nth_snoc_cases {A} (l : list A) x i y : nth_error (l ++ [x]) i = Some y ->
  (nth_error l i = Some y /\ (i < length l)%nat) \/ (i = length l /\ y = x).
Proof.
  intros H. destruct (Nat.lt_ge_cases i (length l)) as [Hi|Hi].
  - rewrite nth_error_app1 in H by auto. auto.
  - rewrite nth_error_app2 in H by auto. destruct (i - length l)%nat as [|k] eqn:E; [|destruct k; discriminate].
    simpl in H. inv H. right. split; auto. lia.
Qed.

(** ** Types determine values *)
Lemma op_ty_sound o ts t vs : op_ty o ts = Some t -> o <> OLeaf -> Forall2 has_ty vs ts ->
  exists v, scompute o vs = Some v /\ has_ty v t.
Proof.
  intros H Ho HF. destruct o; try congruence.
  10: { destruct ts as [|t0 ts]; [discriminate|]. unfold op_ty in H.
        destruct (forallb _ (t0 :: ts)) eqn:E; inv H. rewrite forallb_forall in E.
        assert (HN : List.Forall (fun v => has_ty v TNum) vs).
        { clear -HF E. induction HF as [|v u vs us Hv _ IH]; constructor.
          - specialize (E u (or_introl eq_refl)). destruct u; try discriminate. auto.
          - apply IH. intros x Hx. apply E. right; auto. }
        unfold scompute. rewrite nums_num by auto. inversion HF; subst. simpl. eexists; split; [reflexivity|exact I]. }
  all: destruct ts as [|[] [|[] [|? ?]]]; try discriminate H;
       inversion H; subst; clear H;
       repeat match goal with H : Forall2 _ _ (_ :: _) |- _ => inversion H; subst; clear H
                            | H : Forall2 _ _ [] |- _ => inversion H; subst; clear H end;
       repeat match goal with H : has_ty ?v _ |- _ => is_var v; destruct v; simpl in H; try contradiction; clear H end;
       simpl; eexists; (split; [reflexivity|]); try exact I.
  destruct v; simpl; exact I.
Qed.

Lemma typed_values rho g : forall i t, nth_error (types g) i = Some (Some t) ->
  exists v, nth_error (values rho g) i = Some (Some v) /\ has_ty v t.
Proof.
  induction g as [|n g IH] using rev_ind; intros i t H.
  - destruct i; discriminate.
  - unfold types, values in *. rewrite scan_snoc in H. rewrite scan_snoc.
    apply nth_snoc_cases in H. destruct H as [[H Hl]|[-> H]].
    + destruct (IH _ _ H) as (v & Hv & Hh). exists v. split; auto. rewrite nth_error_app1; auto.
      rewrite scan_length in Hl. rewrite scan_length. exact Hl.
    + rewrite nth_error_app2, !scan_length, Nat.sub_diag by (rewrite !scan_length; lia). cbn [nth_error].
      unfold node_ty in H at 1. unfold node_val at 1.
      assert (HG : forall o, o <> OLeaf ->
        match lookups (scan node_ty g) (n_inputs n) with Some ts => op_ty o ts | None => None end = Some t ->
        exists v, Some (match lookups (scan (node_val rho) g) (n_inputs n) with
                        | Some vs => scompute o vs | None => None end) = Some (Some v) /\ has_ty v t).
      { intros o Ho Hty. destruct (lookups (scan node_ty g) (n_inputs n)) as [ts|] eqn:El; [|discriminate].
        apply lookups_spec in El.
        assert (HV : exists vs, lookups (scan (node_val rho) g) (n_inputs n) = Some vs /\ Forall2 has_ty vs ts).
        { clear -IH El. induction El as [|inc u ins us [Hs Hu] _ IH2].
          - exists []. split; [reflexivity|constructor].
          - destruct IH2 as (vs & Hvs & HF). destruct (IH _ _ Hu) as (v & Hv & Hh).
            exists (v :: vs). split; [simpl; rewrite Hs, Hv, Hvs; reflexivity | constructor; auto]. }
        destruct HV as (vs & -> & HF). destruct (op_ty_sound o ts t vs) as (v & Hv & Hh); auto.
        exists v. rewrite Hv. auto. }
      destruct (n_op n); try (apply HG; [discriminate|auto]).
      inv H. eexists. split; [reflexivity|exact I].
Qed.

Lemma numeric_lt g i : numeric g i -> (i < length g)%nat.
Proof. unfold numeric, types. intros H. rewrite <- (scan_length node_ty g). apply nth_error_Some. congruence. Qed.

Lemma numeric_val rho g i : numeric g i -> nth_error (values rho g) i = Some (Some (Num (val rho g i))).
Proof.
  intros H. destruct (typed_values rho g i TNum H) as (v & Hv & Ht). unfold val. rewrite Hv.
  rewrite <- has_num by auto. reflexivity.
Qed.

Definition grows (s s' : sgraph) : Prop := exists new, s' = s ++ new.
Lemma grows_refl s : grows s s.
Proof. exists []. rewrite app_nil_r. reflexivity. Qed.
Lemma grows_trans a b c : grows a b -> grows b c -> grows a c.
Proof. intros [x ->] [y ->]. exists (x ++ y). rewrite app_assoc. reflexivity. Qed.
Lemma grows_ty s s' i t : grows s s' -> nth_error (types s) i = Some t -> nth_error (types s') i = Some t.
Proof.
  intros [new ->] H. unfold types in *. rewrite scan_prefix; auto.
  rewrite <- (scan_length node_ty s). apply nth_error_Some. congruence.
Qed.
Lemma grows_numeric s s' i : grows s s' -> numeric s i -> numeric s' i.
Proof. intros G H. eapply grows_ty; eauto. Qed.
Lemma grows_shapely s s' i : grows s s' -> shapely s i -> shapely s' i.
Proof. intros G H. eapply grows_ty; eauto. Qed.
Lemma grows_val rho s s' i : grows s s' -> (i < length s)%nat -> val rho s' i = val rho s i.
Proof. intros [new ->] H. unfold val, values. rewrite scan_prefix; auto. Qed.
Lemma grows_nth s s' i n : grows s s' -> nth_error s i = Some n -> nth_error s' i = Some n.
Proof. intros [new ->] H. rewrite nth_error_app1; auto. apply nth_error_Some. congruence. Qed.

Lemma typed_inputs g i n t : nth_error g i = Some n -> nth_error (types g) i = Some (Some t) ->
  (n_op n = OLeaf /\ t = TNum) \/
  (n_op n <> OLeaf /\ exists ts,
     Forall2 (fun inc ty => in_sel inc = 0%nat /\ (in_id inc < i)%nat /\ nth_error (types g) (in_id inc) = Some (Some ty))
       (n_inputs n) ts /\ op_ty (n_op n) ts = Some t).
Proof.
  intros Hi Ht. assert (Hl : (i < length g)%nat) by (apply nth_error_Some; congruence).
  unfold types in Ht. rewrite (scan_nth _ _ _ _ Hi) in Ht. injection Ht as Ht.
  assert (HG : n_op n <> OLeaf -> match lookups (scan node_ty (firstn i g)) (n_inputs n) with
                              | Some ts => op_ty (n_op n) ts | None => None end = Some t ->
    exists ts,
     Forall2 (fun inc ty => in_sel inc = 0%nat /\ (in_id inc < i)%nat /\ nth_error (types g) (in_id inc) = Some (Some ty))
       (n_inputs n) ts /\ op_ty (n_op n) ts = Some t).
  { intros Ho H. destruct (lookups _ (n_inputs n)) as [ts|] eqn:El; [|discriminate]. exists ts. split; auto.
    apply lookups_spec in El. eapply Forall2_imp; [|exact El]. simpl. intros inc ty [Hs Hn]. split; auto.
    assert (Hlt : (in_id inc < i)%nat).
    { assert (Q : (in_id inc < length (scan node_ty (firstn i g)))%nat) by (apply nth_error_Some; congruence).
      rewrite scan_length, firstn_length in Q. lia. }
    split; auto. unfold types. rewrite <- (firstn_skipn i g). rewrite scan_prefix; auto. rewrite firstn_length. lia. }
  unfold node_ty at 1 in Ht. destruct (n_op n) eqn:Eo; try (right; split; [discriminate|apply HG; [discriminate|auto]]).
  left. inv Ht. auto.
Qed.

Lemma node_val_op rho i n acc : n_op n <> OLeaf ->
  node_val rho i n acc = match lookups acc (n_inputs n) with Some vs => scompute (n_op n) vs | None => None end.
Proof. intros H. unfold node_val. destruct (n_op n); auto. congruence. Qed.

(** ** Building one tensor *)
Lemma mk_spec ins sh diff o ts ty s t s' :
  swf s -> o <> OLeaf -> mk ins sh diff o s = Some (t, s') ->
  Forall2 (fun i ty => nth_error (types s) i = Some (Some ty)) ins ts ->
  op_ty o ts = Some ty ->
  (ty = TNum -> forall x, sh = Some x -> shapely s x) ->
  swf s' /\ grows s s' /\ nth_error (types s') t = Some (Some ty) /\
  (forall rho vs, Forall2 (fun i v => nth_error (values rho s) i = Some (Some v)) ins vs ->
                  nth_error (values rho s') t = Some (scompute o vs)).
Proof.
  intros Hwf Ho Hmk HF Hty Hsh. unfold mk in Hmk.
  destruct (build s _ o) as [[s1 id]|] eqn:Hb; inv Hmk.
  apply build_spec in Hb. destruct Hb as (Hid & _ & Hs). subst t.
  set (n := Node o _ _ _ _ _ _ _ _) in Hs. subst s'.
  assert (Hln : lookups (types s) (n_inputs n) = Some ts).
  { apply lookups_spec. simpl. clear -HF. induction HF; simpl; constructor; auto. }
  assert (Hnt : node_ty (length s) n (types s) = Some ty).
  { unfold node_ty. simpl n_op. rewrite Hln. destruct o; auto. congruence. }
  assert (G : grows s (s ++ [n])) by (exists [n]; reflexivity).
  assert (Ht : nth_error (types (s ++ [n])) (length s) = Some (Some ty)).
  { unfold types. rewrite scan_snoc, nth_error_app2; rewrite scan_length; auto. rewrite Nat.sub_diag. simpl.
    fold (types s). rewrite Hnt. reflexivity. }
  split; [|split; [exact G|split; [exact Ht|]]].
  - destruct Hwf as [W1 W2 W3 W4 W5 W6 W7]. constructor.
    + intros i m Hi. apply nth_snoc_cases in Hi. destruct Hi as [[Hi _]|[-> ->]]; [|eauto].
      destruct (W1 i m Hi) as (u & Hu). exists u. eapply grows_ty; eauto.
    + intros i m x Hi Hn Hx. apply nth_snoc_cases in Hi. destruct Hi as [[Hi Hl]|[-> ->]].
      * eapply grows_shapely; eauto. eapply W2; eauto. unfold numeric, types in *. rewrite scan_prefix in Hn; auto.
      * eapply grows_shapely; eauto. apply Hsh; auto. unfold numeric in Hn. congruence.
    + intros i m Hi Hop. apply nth_snoc_cases in Hi. destruct Hi as [[Hi Hl]|[-> ->]]; [eauto|]. simpl in Hop. congruence.
    + intros i m Hi Hop. apply nth_snoc_cases in Hi. destruct Hi as [[Hi Hl]|[-> ->]]; [eauto|]. simpl. auto.
    + intros i m Hi. apply nth_snoc_cases in Hi. destruct Hi as [[Hi Hl]|[-> ->]]; [eauto|]. reflexivity.
    + assert (Hin : forall i m inc, nth_error s i = Some m -> In inc (n_inputs m) -> (in_id inc < length s)%nat).
      { intros i m inc Hi Hinc. destruct (W1 i m Hi) as (u & Hu). unfold types in Hu.
        destruct (typed_inputs s i m u Hi Hu) as [[Em _]|(_ & us & El & _)].
        - destruct (W3 _ _ Hi Em) as [E _]. rewrite E in Hinc. destruct Hinc.
        - apply In_nth_error in Hinc. destruct Hinc as (k & Hk).
          destruct (Forall2_nth _ _ _ _ _ El Hk) as (bb & _ & _ & Hlt & _).
          assert (i < length s)%nat by (apply nth_error_Some; congruence). lia. }
      intros i m inc Hi Hinc. apply nth_snoc_cases in Hi. destruct Hi as [[Hi Hl]|[-> ->]].
      * rewrite rank_of_app by eauto. eauto.
      * assert (Hlt : (in_id inc < length s)%nat).
        { apply lookups_spec in Hln. apply In_nth_error in Hinc. destruct Hinc as (k & Hk).
          destruct (Forall2_nth _ _ _ _ _ Hln Hk) as (bb & _ & _ & Hb2).
          rewrite <- (scan_length node_ty s). apply nth_error_Some. unfold types in Hb2. intros Q. rewrite Q in Hb2. discriminate. }
        rewrite rank_of_app by auto. simpl. apply new_rank_gt. exact Hinc.
    + intros i m inc Hi Hinc. apply nth_snoc_cases in Hi. destruct Hi as [[Hi Hl]|[-> ->]]; [eauto|].
      simpl in Hinc. apply in_map_iff in Hinc. destruct Hinc as (k & <- & _). reflexivity.
  - intros rho vs HV. unfold values. rewrite scan_snoc, nth_error_app2; rewrite scan_length; auto.
    rewrite Nat.sub_diag. cbn [nth_error]. f_equal. fold (values rho s).
    rewrite node_val_op by exact Ho.
    assert (Hlv : lookups (values rho s) (n_inputs n) = Some vs).
    { apply lookups_spec. simpl. clear -HV. induction HV; simpl; constructor; auto. }
    rewrite Hlv. reflexivity.
Qed.

(** ** Building the tensors of rules *)
(** [m] builds, from [s], a number with value [r rho]. *)
Definition makes (s : sgraph) (t : nat) (s' : sgraph) (r : (nat -> R) -> R) : Prop :=
  swf s' /\ grows s s' /\ numeric s' t /\ forall rho, val rho s' t = r rho.

Lemma val_num rho s t v : nth_error (values rho s) t = Some (Some v) -> val rho s t = num v.
Proof. unfold val. intros ->. reflexivity. Qed.

Lemma shapely_val rho g i : shapely g i -> nth_error (values rho g) i = Some (Some Shp).
Proof.
  intros H. destruct (typed_values rho g i TShp H) as (v & Hv & Ht). rewrite Hv.
  destruct v; simpl in Ht; tauto.
Qed.

Lemma t_shape_spec x s t s' : swf s -> numeric s x -> t_shape x s = Some (t, s') ->
  swf s' /\ grows s s' /\ shapely s' t.
Proof.
  intros Hwf Hx H. unfold t_shape in H. destruct (nth_error s x) as [n|] eqn:En; [|discriminate].
  destruct (n_shape n) as [id|] eqn:Es.
  - inv H. split; [auto|]. split; [apply grows_refl|]. eapply (swf_shape s'); eauto.
  - apply (mk_spec _ _ _ _ [TNum] TShp) in H; auto; try discriminate.
    destruct H as (A & B & C & _). auto.
Qed.

(** One numeric tensor from numeric and shape inputs. *)
Lemma mk_num ins sh diff o ts s t s' (f : (nat -> R) -> list sval) (r : (nat -> R) -> R) :
  swf s -> o <> OLeaf -> mk ins sh diff o s = Some (t, s') ->
  Forall2 (fun i ty => nth_error (types s) i = Some (Some ty)) ins ts ->
  op_ty o ts = Some TNum ->
  (forall x, sh = Some x -> shapely s x) ->
  (forall rho, Forall2 (fun i v => nth_error (values rho s) i = Some (Some v)) ins (f rho)) ->
  (forall rho, scompute o (f rho) = Some (Num (r rho))) ->
  makes s t s' r.
Proof.
  intros Hwf Ho H HT Hty Hsh Hv Hr.
  apply (mk_spec _ _ _ _ ts TNum) in H; auto. destruct H as (A & B & C & D).
  repeat (split; auto). intros rho. specialize (D rho _ (Hv rho)). rewrite Hr in D.
  apply val_num in D. exact D.
Qed.

Lemma makes_weaken s s1 t s' r r' : grows s s1 -> makes s1 t s' r -> (forall rho, r rho = r' rho) -> makes s t s' r'.
Proof.
  intros G (A & B & C & D) E. repeat (split; auto).
  - eapply grows_trans; eauto.
  - intros rho. rewrite <- E. auto.
Qed.

Lemma grows_nval rho s s' i : grows s s' -> numeric s i -> val rho s' i = val rho s i.
Proof. intros G H. apply grows_val; auto. apply numeric_lt; auto. Qed.

Ltac bindH H := unfold bind in H;
  match type of H with match ?m with _ => _ end = _ =>
    let t := fresh "t" in let s := fresh "s" in let E := fresh "E" in
    destruct m as [[t s]|] eqn:E; [|discriminate] end.

Ltac shapeH E :=
  let A := fresh "W" in let B := fresh "G" in let C := fresh "S" in
  apply t_shape_spec in E; [destruct E as (A & B & C) | auto | eauto using grows_numeric].

Ltac nn := first [ assumption | solve [eauto using grows_numeric, grows_trans] ].

Lemma t_scalar_spec r s t s' : swf s -> t_scalar r s = Some (t, s') -> makes s t s' (fun _ => r).
Proof.
  intros Hwf H. unfold t_scalar in H. bindH H. bindH H.
  apply (mk_spec _ _ _ _ [] TShpShp) in E; auto; try discriminate. destruct E as (W1 & G1 & T1 & _).
  apply (mk_spec _ _ _ _ [] TShp) in E0; auto; try discriminate. destruct E0 as (W2 & G2 & T2 & _).
  apply (mk_num _ _ _ _ [] _ _ _ (fun _ => []) (fun _ => r)) in H; auto; try discriminate.
  - eapply makes_weaken; [|exact H|auto]. eapply grows_trans; eauto.
  - intros x Hx. inv Hx. exact T2.
Qed.

Lemma t_un_spec u x s t s' : swf s -> numeric s x -> t_un u x s = Some (t, s') ->
  makes s t s' (fun rho => un u (val rho s x)).
Proof.
  intros Hwf Hx H. unfold t_un in H. destruct (un_sets_shape u).
  - bindH H. shapeH E.
    apply (mk_num _ _ _ _ [TNum] _ _ _ (fun rho => [Num (val rho s0 x)]) (fun rho => un u (val rho s0 x))) in H;
      auto; try discriminate.
    + eapply makes_weaken; [eauto|exact H|]. intros rho. simpl. erewrite grows_nval; eauto.
    + constructor; auto. eapply grows_numeric; eauto.
    + intros z Hz. inv Hz. auto.
    + intros rho. constructor; auto. apply numeric_val. nn.
  - apply (mk_num _ _ _ _ [TNum] _ _ _ (fun rho => [Num (val rho s x)]) (fun rho => un u (val rho s x))) in H;
      auto; try discriminate.
    intros rho. constructor; auto. apply numeric_val. nn.
Qed.

Lemma t_shape2_spec x e s t s' : swf s -> numeric s x -> numeric s e -> t_shape x s = Some (t, s') ->
  swf s' /\ grows s s' /\ shapely s' t /\ numeric s' e.
Proof.
  intros W Hx He H. shapeH H. repeat (split; auto). nn.
Qed.

Lemma mk_un_shape o diff sh e z s t s' (r : R -> R) :
  swf s -> o <> OLeaf -> numeric s e -> shapely s z -> (forall x, sh = Some x -> x = z) ->
  mk [e; z] sh diff o s = Some (t, s') -> op_ty o [TNum; TShp] = Some TNum ->
  (forall x, scompute o [Num x; Shp] = Some (Num (r x))) ->
  makes s t s' (fun rho => r (val rho s e)).
Proof.
  intros W Ho He Hz Hsh H Ht Hr.
  apply (mk_num _ _ _ _ [TNum; TShp] _ _ _ (fun rho => [Num (val rho s e); Shp]) (fun rho => r (val rho s e))) in H; auto.
  - intros x Hx. rewrite (Hsh x Hx). auto.
  - intros rho. constructor; [apply numeric_val; auto|]. constructor; auto. apply shapely_val. auto.
Qed.

Lemma t_reduce_spec x e s t s' : swf s -> numeric s x -> numeric s e -> t_reduce x e s = Some (t, s') ->
  makes s t s' (fun rho => val rho s e).
Proof.
  intros W Hx He H. unfold t_reduce in H. bindH H.
  apply (t_shape2_spec x e) in E; auto. destruct E as (W1 & G1 & S1 & N1).
  apply (mk_un_shape _ _ _ _ _ _ _ _ (fun x => x)) in H; auto; try discriminate.
  - eapply makes_weaken; [eauto|exact H|]. intros rho. simpl. eapply grows_nval; eauto.
  - intros z Hz. inv Hz. auto.
Qed.
Lemma t_bcast_spec x e s t s' : swf s -> numeric s x -> numeric s e -> t_bcast x e s = Some (t, s') ->
  makes s t s' (fun rho => val rho s e).
Proof.
  intros W Hx He H. unfold t_bcast in H. bindH H.
  apply (t_shape2_spec x e) in E; auto. destruct E as (W1 & G1 & S1 & N1).
  apply (mk_un_shape _ _ _ _ _ _ _ _ (fun x => x)) in H; auto; try discriminate.
  eapply makes_weaken; [eauto|exact H|]. intros rho. simpl. eapply grows_nval; eauto.
Qed.
Lemma t_sum_all_grad_spec x e s t s' : swf s -> numeric s x -> numeric s e -> t_sum_all_grad x e s = Some (t, s') ->
  makes s t s' (fun rho => val rho s e).
Proof.
  intros W Hx He H. unfold t_sum_all_grad in H. bindH H.
  apply (t_shape2_spec x e) in E; auto. destruct E as (W1 & G1 & S1 & N1).
  apply (mk_un_shape _ _ _ _ _ _ _ _ (fun x => x)) in H; auto; try discriminate.
  eapply makes_weaken; [eauto|exact H|]. intros rho. simpl. eapply grows_nval; eauto.
Qed.
Lemma t_sum_all_spec e s t s' : swf s -> numeric s e -> t_sum_all e s = Some (t, s') ->
  makes s t s' (fun rho => val rho s e).
Proof.
  intros W He H. unfold t_sum_all in H.
  apply (mk_num _ _ _ _ [TNum] _ _ _ (fun rho => [Num (val rho s e)]) (fun rho => val rho s e)) in H;
    auto; try discriminate.
  intros rho. constructor; auto. apply numeric_val. auto.
Qed.
Lemma t_zeros_like_spec x s t s' : swf s -> numeric s x -> t_zeros_like x s = Some (t, s') ->
  makes s t s' (fun _ => 0).
Proof.
  intros W Hx H. unfold t_zeros_like in H. bindH H. shapeH E.
  apply (mk_num _ _ _ _ [TShp] _ _ _ (fun rho => [Shp]) (fun rho => 0)) in H; auto; try discriminate.
  - eapply makes_weaken; [eauto|exact H|auto].
  - intros rho. constructor; auto. apply shapely_val. auto.
Qed.

Lemma mk_bin b sh diff x y s t s' : swf s -> numeric s x -> numeric s y -> (forall z, sh = Some z -> shapely s z) ->
  mk [x; y] sh diff (OBin b) s = Some (t, s') -> makes s t s' (fun rho => bin b (val rho s x) (val rho s y)).
Proof.
  intros W Hx Hy Hsh H.
  apply (mk_num _ _ _ _ [TNum; TNum] _ _ _ (fun rho => [Num (val rho s x); Num (val rho s y)])
     (fun rho => bin b (val rho s x) (val rho s y))) in H; auto; try discriminate.
  intros rho. constructor; [apply numeric_val; auto|]. constructor; auto. apply numeric_val. auto.
Qed.

Lemma t_bin_spec b x y s t s' : swf s -> numeric s x -> numeric s y -> t_bin b x y s = Some (t, s') ->
  makes s t s' (fun rho => bin b (val rho s x) (val rho s y)).
Proof.
  intros W Hx Hy H.
  assert (Arith : forall H : bind (t_shape x) (fun sx => bind (t_shape y) (fun sy =>
      bind (mk [sx; sy] None true OInferShape) (fun sh => mk [x; y] (Some sh) true (OBin b)))) s = Some (t, s'),
      makes s t s' (fun rho => bin b (val rho s x) (val rho s y))).
  { clear H. intros H. bindH H. shapeH E. bindH H. shapeH E. bindH H.
    apply (mk_spec _ _ _ _ [TShp; TShp] TShp) in E; auto; try discriminate.
    - destruct E as (W3 & G3 & S3 & _). apply mk_bin in H; auto; try nn.
      + eapply makes_weaken; [|exact H|].
        * eauto using grows_trans.
        * intros rho. simpl. f_equal; apply grows_nval; eauto using grows_trans.
      + intros z Hz. inv Hz. auto.
    - constructor; [eapply grows_shapely; eauto|]. constructor; auto. }
  assert (Cmp : forall H : mk [x; y] None true (OBin b) s = Some (t, s'),
      makes s t s' (fun rho => bin b (val rho s x) (val rho s y))).
  { clear H. intros H. apply mk_bin in H; auto. discriminate. }
  assert (Gr : forall H : bind (t_shape y) (fun sh => mk [x; y] (Some sh) true (OBin b)) s = Some (t, s'),
      makes s t s' (fun rho => bin b (val rho s x) (val rho s y))).
  { clear H. intros H. bindH H. shapeH E. apply mk_bin in H; auto; try nn.
    + eapply makes_weaken; [|exact H|]; auto. intros rho. simpl. f_equal; apply grows_nval; auto.
    + intros z Hz. inv Hz. auto. }
  unfold t_bin in H. destruct b; auto.
Qed.

Lemma addn_sum l : forall x, fold_left Rplus l x = x + fold_right Rplus 0 l.
Proof. induction l as [|y l IH]; intros x; simpl; [ring|]. rewrite IH. ring. Qed.

Lemma t_add_n_spec l s t s' : swf s -> List.Forall (numeric s) l -> t_add_n l s = Some (t, s') ->
  makes s t s' (fun rho => fold_right Rplus 0 (map (val rho s) l)).
Proof.
  intros W HF H. unfold t_add_n in H. destruct l as [|x l]; [discriminate|]. bindH H.
  pose proof (Forall_inv HF) as Hx. shapeH E.
  assert (HF' : List.Forall (numeric s0) (x :: l)) by (eapply Forall_impl; [|exact HF]; intros; nn).
  assert (HV : forall rho, Forall2 (fun i v => nth_error (values rho s0) i = Some (Some v)) (x :: l)
                             (map (fun i => Num (val rho s0 i)) (x :: l))).
  { intros rho. clear -HF'. induction HF' as [|a l0 Ha _ IH]; simpl; constructor; auto. apply numeric_val. auto. }
  assert (HT : Forall2 (fun i ty => nth_error (types s0) i = Some (Some ty)) (x :: l) (map (fun _ => TNum) (x :: l))).
  { clear -HF'. induction HF' as [|a l0 Ha _ IH]; simpl; constructor; auto. }
  apply (mk_num _ _ _ _ (map (fun _ => TNum) (x :: l)) _ _ _ (fun rho => map (fun i => Num (val rho s0 i)) (x :: l))
      (fun rho => fold_right Rplus 0 (map (val rho s) (x :: l)))) in H; auto; try discriminate.
  - eapply makes_weaken; [eauto|exact H|auto].
  - unfold op_ty. simpl map. cbv iota.
    replace (forallb _ (TNum :: map (fun _ => TNum) l)) with true; [reflexivity|].
    symmetry. simpl. clear. induction l; simpl; auto.
  - intros z Hz. inv Hz. auto.
  - intros rho. unfold scompute. rewrite nums_num.
    + simpl map. unfold addn_forward. rewrite addn_sum. simpl. f_equal. f_equal. f_equal.
      * eapply grows_nval; eauto.
      * rewrite map_map. f_equal. apply map_ext_in. intros i Hi. simpl. eapply grows_nval; eauto.
        eapply Forall_forall in HF; [exact HF|]. right; auto.
    + clear. induction (x :: l); simpl; constructor; auto. exact I.
Qed.

(** ** Rule expressions *)
Fixpoint rexp_ok (tys : list sty) (k : nat) (e : rexp) : bool :=
  let isnum i := match nth_error tys i with Some TNum => true | _ => false end in
  match e with
  | RGy | ROut | RScalar _ => true
  | RIn i => isnum i
  | RVar j => (j <? k)%nat
  | RUn _ e | RSumAll e => rexp_ok tys k e
  | RBin _ a b => rexp_ok tys k a && rexp_ok tys k b
  | RReduce i e | RBcast i e | RSumAllGrad i e => isnum i && rexp_ok tys k e
  | RLet a b => rexp_ok tys k a && rexp_ok tys (S k) b
  end.

Lemma rule_ok o tys ty rs p e : o <> OLeaf -> op_ty o tys = Some ty -> rule o (length tys) = Some rs ->
  nth_error rs p = Some (Some e) -> ty = TNum /\ rexp_ok tys 0 e = true.
Proof.
  intros Ho Hty Hr Hp. destruct o; try congruence.
  10: { unfold op_ty in Hty. destruct tys; [discriminate|]. destruct (forallb _ _); [|discriminate]. inv Hty.
        unfold rule in Hr. injection Hr as <-. apply nth_error_In in Hp. apply (repeat_spec (S (length tys)) (Some RGy)) in Hp. inv Hp. auto. }
  all: destruct tys as [|[] [|[] [|? ?]]]; try discriminate Hty; unfold rule in Hr; inv Hr; simpl in Hty; inv Hty;
    try (destruct p as [|[|[|p]]]; simpl in Hp; inv Hp; split; reflexivity).
  - destruct p as [|[|p]]; simpl in Hp; inv Hp. destruct u; simpl in *; inv H0; split; reflexivity.
  - destruct b; destruct p as [|[|[|p]]]; simpl in Hp; inv Hp; split; reflexivity.
Qed.

Lemma nth_map_err {A} (f : A -> R) l i x : nth_error l i = Some x -> nth i (map f l) 0 = f x.
Proof. intros H. apply nth_error_nth. rewrite nth_error_map, H. reflexivity. Qed.

Lemma build_rexp_spec ins tys out gy : forall e env s t s',
  swf s -> Forall2 (fun i ty => nth_error (types s) i = Some (Some ty)) ins tys ->
  numeric s out -> numeric s gy -> List.Forall (numeric s) env -> rexp_ok tys (length env) e = true ->
  build_rexp ins out gy env e s = Some (t, s') ->
  makes s t s' (fun rho => rval (map (val rho s) ins) (val rho s out) (val rho s gy) (map (val rho s) env) e).
Proof.
  assert (Hin : forall s i x, Forall2 (fun i ty => nth_error (types s) i = Some (Some ty)) ins tys ->
     (match nth_error tys i with Some TNum => true | _ => false end) = true -> nth_error ins i = Some x -> numeric s x).
  { intros s i x HF Hi Hx. destruct (Forall2_nth _ _ _ _ _ HF Hx) as (ty & Hty & Hn). rewrite Hty in Hi.
    destruct ty; try discriminate. exact Hn. }
  assert (Hmv : forall s s1 rho, grows s s1 -> Forall2 (fun i ty => nth_error (types s) i = Some (Some ty)) ins tys ->
     map (val rho s1) ins = map (val rho s) ins).
  { intros s s1 rho G HF. apply map_ext_in. intros i Hi. apply In_nth_error in Hi. destruct Hi as (k & Hk).
    destruct (Forall2_nth _ _ _ _ _ HF Hk) as (ty & _ & Hn). apply grows_val; auto.
    rewrite <- (scan_length node_ty s). apply nth_error_Some. unfold types in Hn. congruence. }
  assert (Hme : forall s s1 rho env, grows s s1 -> List.Forall (numeric s) env ->
     map (val rho s1) env = map (val rho s) env).
  { intros s s1 rho env G HF. apply map_ext_in. intros i Hi. apply grows_nval; auto.
    eapply Forall_forall in HF; eauto. }
  assert (Hti : forall s s1, grows s s1 -> Forall2 (fun i ty => nth_error (types s) i = Some (Some ty)) ins tys ->
     Forall2 (fun i ty => nth_error (types s1) i = Some (Some ty)) ins tys).
  { intros s s1 G HF. eapply Forall2_imp; [|exact HF]. intros i ty Hi. eapply grows_ty; eauto. }
  assert (Hte : forall s s1 env, grows s s1 -> List.Forall (numeric s) env -> List.Forall (numeric s1) env).
  { intros s s1 env G HF. eapply Forall_impl; [|exact HF]. intros i Hi. eapply grows_numeric; eauto. }
  assert (Hvar : forall s t, swf s -> numeric s t -> makes s t s (fun rho => val rho s t)).
  { intros s t W N. repeat (split; auto). apply grows_refl. }
  induction e; intros env s t s' W HI HO HG HE Hok H; cbn [build_rexp rexp_ok] in *.
  - inv H. apply Hvar; auto.
  - destruct (nth_error ins i) as [x|] eqn:Ei; [|discriminate]. inv H.
    eapply makes_weaken; [apply grows_refl|apply Hvar; eauto|].
    intros rho. simpl. symmetry. apply nth_map_err. exact Ei.
  - inv H. apply Hvar; auto.
  - destruct (nth_error env k) as [x|] eqn:Ei; [|discriminate]. inv H.
    eapply makes_weaken; [apply grows_refl|apply Hvar; eauto|].
    + eapply Forall_forall in HE; [exact HE|]. eapply nth_error_In; eauto.
    + intros rho. simpl. symmetry. apply nth_map_err. exact Ei.
  - apply t_scalar_spec in H; auto.
  - bindH H. apply IHe in E; auto. destruct E as (W1 & G1 & N1 & V1).
    apply t_un_spec in H; auto. eapply makes_weaken; [eauto|exact H|]. intros rho. simpl. rewrite V1. reflexivity.
  - apply andb_prop in Hok. destruct Hok as [Hok1 Hok2].
    bindH H. apply IHe1 in E; auto. destruct E as (W1 & G1 & N1 & V1).
    bindH H. apply IHe2 in E; eauto using grows_numeric. destruct E as (W2 & G2 & N2 & V2).
    apply t_bin_spec in H; eauto using grows_numeric.
    eapply makes_weaken; [|exact H|].
    + eauto using grows_trans.
    + intros rho. simpl. f_equal.
      * rewrite (grows_nval rho s0 s1); auto.
      * rewrite V2, (Hmv s s0), (Hme s s0); auto. rewrite !(grows_nval rho s s0); auto.
  - apply andb_prop in Hok. destruct Hok as [Hok1 Hok2]. bindH H. apply IHe in E; auto. destruct E as (W1 & G1 & N1 & V1).
    destruct (nth_error ins i) as [x|] eqn:Ei; [|discriminate].
    apply t_reduce_spec in H; eauto. eapply makes_weaken; [eauto|exact H|]. intros rho. simpl. apply V1.
  - apply andb_prop in Hok. destruct Hok as [Hok1 Hok2]. bindH H. apply IHe in E; auto. destruct E as (W1 & G1 & N1 & V1).
    destruct (nth_error ins i) as [x|] eqn:Ei; [|discriminate].
    apply t_bcast_spec in H; eauto. eapply makes_weaken; [eauto|exact H|]. intros rho. simpl. apply V1.
  - bindH H. apply IHe in E; auto. destruct E as (W1 & G1 & N1 & V1).
    apply t_sum_all_spec in H; auto. eapply makes_weaken; [eauto|exact H|]. intros rho. simpl. apply V1.
  - apply andb_prop in Hok. destruct Hok as [Hok1 Hok2]. bindH H. apply IHe in E; auto. destruct E as (W1 & G1 & N1 & V1).
    destruct (nth_error ins i) as [x|] eqn:Ei; [|discriminate].
    apply t_sum_all_grad_spec in H; eauto. eapply makes_weaken; [eauto|exact H|]. intros rho. simpl. apply V1.
  - apply andb_prop in Hok. destruct Hok as [Hok1 Hok2].
    bindH H. apply IHe1 in E; auto. destruct E as (W1 & G1 & N1 & V1).
    apply IHe2 in H; eauto using grows_numeric.
    eapply makes_weaken; [eauto|exact H|].
    intros rho. simpl. rewrite V1, (Hmv s s0), (Hme s s0); auto. rewrite !(grows_nval rho s s0); auto.
Qed.

Lemma build_rules_spec ins tys out gy : forall rs s l s',
  swf s -> Forall2 (fun i ty => nth_error (types s) i = Some (Some ty)) ins tys ->
  (forall p e, nth_error rs p = Some (Some e) -> numeric s out /\ rexp_ok tys 0 e = true) -> numeric s gy ->
  build_rules ins out gy rs s = Some (l, s') ->
  swf s' /\ grows s s' /\ length l = length rs /\
  forall p, match nth_error rs p with
            | Some (Some e) => exists t, nth_error l p = Some (Some t) /\ numeric s' t /\
                forall rho, val rho s' t = rval (map (val rho s) ins) (val rho s out) (val rho s gy) [] e
            | Some None => nth_error l p = Some None
            | None => nth_error l p = None
            end.
Proof.
  induction rs as [|[e|] rs IH]; intros s l s' W HI HO HG H; cbn [build_rules] in H.
  - inv H. split; auto. split; [apply grows_refl|]. split; auto. intros [|p]; reflexivity.
  - bindH H. destruct (HO 0%nat e eq_refl) as [Hout Hok].
    apply (build_rexp_spec ins tys) in E; auto. destruct E as (W1 & G1 & N1 & V1).
    bindH H. inv H. apply IH in E.
    + destruct E as (W2 & G2 & L2 & P2). split; auto. split; [eauto using grows_trans|]. split; [simpl; auto|].
      intros [|p]; simpl.
      * exists t. split; auto. split; [nn|]. intros rho. rewrite (grows_nval rho s0 s'); auto. apply V1.
      * specialize (P2 p). destruct (nth_error rs p) as [[e'|]|] eqn:Er; auto.
        destruct P2 as (t' & A & B & C). exists t'. split; auto. split; auto. intros rho. rewrite C.
        rewrite !(grows_nval rho s s0); auto. f_equal. apply map_ext_in. intros i Hi. apply In_nth_error in Hi. destruct Hi as (k & Hk).
        destruct (Forall2_nth _ _ _ _ _ HI Hk) as (ty & _ & Hn). apply grows_val; auto.
        rewrite <- (scan_length node_ty s). apply nth_error_Some. unfold types in Hn. congruence.
    + auto.
    + eapply Forall2_imp; [|exact HI]. intros i ty Hi. eapply grows_ty; eauto.
    + intros p e' Hp. destruct (HO (S p) e' Hp). split; [nn|auto].
    + nn.
  - bindH H. inv H. apply IH in E; auto.
    + destruct E as (W2 & G2 & L2 & P2). split; auto. split; auto. split; [simpl; auto|].
      intros [|p]; simpl; auto. apply P2.
    + intros p e' Hp. apply (HO (S p) e' Hp).
Qed.
