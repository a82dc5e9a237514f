(** The rules of binary elementwise operations, matrix products and softmax. *)
From Coq Require Import String List Arith ZArith Bool Lia Reals Lra.
From Coquelicot Require Import Coquelicot.
Import ListNotations.
From Verif Require Import Graph_Model Eval_Model Eval_Spec Eval_Proofs Graph_Proofs Grad_Model Grad_Spec
  Scalar_Model Scalar_Spec Scalar_Rules Scalar_Proofs.
From Verif Require Import Array_Model Array_Proofs Array_Sum Arith_Model Arith_Proofs Arith_Final Vjp_Spec Vjp_Proofs
  Reduce_Model Reduce_Spec Reduce_Proofs Shape_Model Shape_Spec Shape_Proofs3
  Dot_Model Dot_Proofs Softmax_Model Softmax_Spec Softmax_Proofs Softmax_Proofs2 Tens_Model Tens_Spec Tens_Fwd Tens_Build Tens_Rules Tens_Rules2.
Local Set Bullet Behavior "Strict Subproofs".
Local Open Scope R_scope.

(** ** Functions of two arguments *)
Definition two (k0 k1 : list nat -> list nat -> R) : kernel :=
  fun p => match p with 0%nat => k0 | 1%nat => k1 | _ => fun _ _ => 0 end.
Lemma spread_two s0 s1 k0 k1 i d : spread [TyA s0; TyA s1] (two k0 k1) i d =
  rsum (indices s0) (fun j => k0 i j * d 0%nat j) + rsum (indices s1) (fun j => k1 i j * d 1%nat j).
Proof. unfold spread. simpl length. cbn [seq]. rewrite !rsum_cons. cbn [nth_error two]. unfold rsum at 3. simpl. ring. Qed.
Lemma curve_two s0 s1 Fs d : curve [TyA s0; TyA s1] Fs d ->
  exists F G, (forall t, map (fun F : R -> tv => F t) Fs = [TA (arr_of (F t)); TA (arr_of (G t))]) /\
    (forall t, has_shape s0 (arr_of (F t))) /\ (forall t, has_shape s1 (arr_of (G t))) /\
    (forall j, in_bounds s0 j -> is_derive (fun t : R => rget (arr_of (F t)) j) 0 (d 0%nat j)) /\
    (forall j, in_bounds s1 j -> is_derive (fun t : R => rget (arr_of (G t)) j) 0 (d 1%nat j)).
Proof.
  intros [HT HD]. assert (L : length Fs = 2%nat) by (pose proof (Forall2_len _ _ _ (HT 0)) as L; rewrite map_length in L; exact L).
  destruct Fs as [|F [|G [|H Fs]]]; try discriminate L. clear L. exists F, G.
  assert (HA : forall t, has_ty (F t) (TyA s0) /\ has_ty (G t) (TyA s1)).
  { intros t. specialize (HT t). simpl in HT. inversion HT as [|? ? ? ? A B]; subst. inversion B as [|? ? ? ? C _]; subst. auto. }
  split; [|split; [|split; [|split]]].
  - intros t. destruct (HA t) as [A B]. apply has_tyA in A. apply has_tyA in B. destruct A as (a & A & _). destruct B as (b & B & _).
    simpl. rewrite A, B. reflexivity.
  - intros t. destruct (HA t) as [A _]. apply has_tyA in A. destruct A as (a & A & H). rewrite A. exact H.
  - intros t. destruct (HA t) as [_ A]. apply has_tyA in A. destruct A as (a & A & H). rewrite A. exact H.
  - intros j Hj. apply (HD 0%nat F s0); auto.
  - intros j Hj. apply (HD 1%nat G s1); auto.
Qed.

(** Reducing an elementwise product with the output gradient to the shape of an input. *)
Lemma reduce_rule ts vs sh sp p x out gy e a c : nth_error ts p = Some (TyA sp) -> nth_error vs p = Some (TA x) -> has_shape sp x ->
  reduces_to sp sh = true -> has_shape sh a ->
  ety ts (TyA sh) (TyA sh) [] e = Some (TyA sh) -> eeval vs (TA out) (TA gy) [] e = Some (TA a) ->
  (forall i, in_bounds sh i -> rget a i = c i * rget gy i) ->
  ety ts (TyA sh) (TyA sh) [] (EOp2 TMaybeReduceSum SLast e (EShape p)) = Some (TyA sp) /\
  eeval vs (TA out) (TA gy) [] (EOp2 TMaybeReduceSum SLast e (EShape p)) = Some (TA (applied sp sh (fun i j => delta (bc_idx sp i) j * c i) gy)).
Proof.
  intros Ht Hv Hx HR Ha He Hev Hc. cbn [ety eeval]. rewrite He, Hev, Ht, Hv. split.
  - unfold ety_op, op_ty. rewrite dims_shape_vec, HR. cbn. rewrite sv_eq. reflexivity.
  - cbn [tcompute]. rewrite (hs_sh _ _ Hx), dims_shape_vec, (maybe_reduce_push sp sh) by auto. cbn. do 2 f_equal.
    apply tab_ext. intros j Hj. apply rsum_idx_ext. intros i Hi. rewrite Hc by exact Hi. ring.
Qed.
Lemma ety_bin ts tout tgy env b e1 e2 a1 a2 r : ety ts tout tgy env e1 = Some (TyA a1) -> ety ts tout tgy env e2 = Some (TyA a2) ->
  bin_ty b a1 a2 = Some r -> ety ts tout tgy env (EBin b e1 e2) = Some (TyA r).
Proof. intros H1 H2 H3. cbn [ety]. rewrite H1, H2. simpl. rewrite H3. reflexivity. Qed.
Lemma eeval_bin vs vo vg env b e1 e2 x1 x2 a1 a2 r : eeval vs vo vg env e1 = Some (TA x1) -> eeval vs vo vg env e2 = Some (TA x2) ->
  has_shape a1 x1 -> has_shape a2 x2 -> bin_ty b a1 a2 = Some r -> eeval vs vo vg env (EBin b e1 e2) = Some (TA (zip_tab b r a1 a2 x1 x2)).
Proof. intros H1 H2 S1 S2 H3. cbn [eeval]. rewrite H1, H2. simpl. rewrite (bin_arr_ok b x1 x2 a1 a2 r) by auto. reflexivity. Qed.

Definition bcoef (b : bop) (s0 s1 : list nat) (x y : arr R) (p : nat) (i : list nat) : R :=
  let u := rget x (bc_idx s0 i) in let v := rget y (bc_idx s1 i) in op_vjp (OBin b) [u; v] (bin b u v) p 1.
Definition bkern (b : bop) (s0 s1 : list nat) (x y : arr R) : kernel :=
  two (fun i j => delta (bc_idx s0 i) j * bcoef b s0 s1 x y 0 i) (fun i j => delta (bc_idx s1 i) j * bcoef b s0 s1 x y 1 i).

Lemma cmp_self s r : cmp_ty s s = Some r -> nonempty s = true /\ r = s.
Proof.
  unfold cmp_ty. destruct (nonempty s); [|discriminate]. rewrite shape_eqb_refl. cbn. destruct (shape_eqb s []); intros H; inv H; auto.
Qed.
Lemma elem_two_rule b sh x y gy p e : nonempty sh = true -> has_shape sh x -> has_shape sh y -> has_shape sh gy ->
  nth_error (bin_rule b) p = Some (Some e) -> flag false [true; true] true true [] e = Some true -> (p < 2)%nat ->
  exists shp, nth_error [TyA sh; TyA sh] p = Some (TyA shp) /\ ety [TyA sh; TyA sh] (TyA sh) (TyA sh) [] (embed e) = Some (TyA shp) /\
    eeval [TA x; TA y] (TA (zip_tab b sh sh sh x y)) (TA gy) [] (embed e) = Some (TA (applied shp sh (bkern b sh sh x y p) gy)).
Proof.
  intros NE Hx Hy Hg Hp HFl Hlt. exists sh. split; [destruct p as [|[|p]]; [reflexivity|reflexivity|lia]|].
  destruct (elem_rule sh false NE (fun H => match diff_false_true H with end) [(true, x); (true, y)] (true, zip_tab b sh sh sh x y) (true, gy))
    with (e := e) (env := @nil (bool * arr R)) (f := true) as (T & a & V & S & G).
  - constructor; [exact Hx|constructor; [exact Hy|constructor]].
  - apply zip_tab_shape.
  - exact Hg.
  - constructor.
  - exact HFl.
  - split; [exact T|]. unfold fval in V. simpl in V. rewrite V. do 2 f_equal. apply tab_eq; auto. intros j Hj.
    specialize (G j Hj). simpl in G. rewrite G. unfold fat; simpl. unfold zip_tab. rewrite aget_tab by exact Hj. rewrite !(bc_idx_self sh) by exact Hj.
    pose proof (op_vjp_linear (OBin b) [rget x j; rget y j] (bin b (rget x j) (rget y j)) p (rget gy j)) as L.
    unfold op_vjp in L at 1. cbn [rule length] in L. rewrite Hp in L. rewrite L.
    assert (EK : forall i, in_bounds sh i -> bkern b sh sh x y p i j = delta i j * bcoef b sh sh x y p i).
    { intros i Hi. unfold bkern. destruct p as [|[|p]]; [| |lia]; cbn [two]; rewrite (bc_idx_self sh) by exact Hi; reflexivity. }
    rewrite (rsum_idx_ext sh _ (fun i => delta i j * (bcoef b sh sh x y p i * rget gy i))) by (intros i Hi; rewrite EK by exact Hi; ring).
    rewrite rsum_delta_r by exact Hj. unfold bcoef. rewrite (bc_idx_self sh) by exact Hj. ring.
Qed.

Lemma bin_rules b s0 s1 r x y gy p e : bin_ty b s0 s1 = Some r -> op_fit (TBin b) [TyA s0; TyA s1] = true ->
  has_shape s0 x -> has_shape s1 y -> has_shape r gy -> nth_error (bin_rule b) p = Some (Some e) ->
  exists shp, nth_error [TyA s0; TyA s1] p = Some (TyA shp) /\ ety [TyA s0; TyA s1] (TyA r) (TyA r) [] (embed e) = Some (TyA shp) /\
    eeval [TA x; TA y] (TA (zip_tab b r s0 s1 x y)) (TA gy) [] (embed e) = Some (TA (applied shp r (bkern b s0 s1 x y p) gy)).
Proof.
  intros HB HF Hx Hy Hg Hp.
  assert (HNil : arith_ty s0 s1 = Some r -> nonempty r = true /\ reduces_to s0 r = true /\ reduces_to s1 r = true) by apply arith_reduces.
  destruct b; simpl in HB; cbn [bin_rule] in Hp.
  - destruct (HNil HB) as (N & R0 & R1).
    destruct p as [|[|p]]; [| |destruct p; discriminate]; inv Hp; cbn [embed]; eexists; (split; [reflexivity|]).
    + apply (reduce_rule _ _ r s0 0 x _ gy EGy gy); auto. intros i _. unfold bcoef, op_vjp; simpl. ring.
    + apply (reduce_rule _ _ r s1 1 y _ gy EGy gy); auto. intros i _. unfold bcoef, op_vjp; simpl. ring.
  - destruct (HNil HB) as (N & R0 & R1).
    destruct p as [|[|p]]; [| |destruct p; discriminate]; inv Hp; cbn [embed]; eexists; (split; [reflexivity|]).
    + apply (reduce_rule _ _ r s0 0 x _ gy EGy gy); auto. intros i _. unfold bcoef, op_vjp; simpl. ring.
    + destruct (reduce_rule [TyA s0; TyA s1] [TA x; TA y] r s1 1 y (zip_tab Sub r s0 s1 x y) gy EGy gy (fun _ => 1)) as [A B]; auto; [intros; ring|].
      split; [change (ety ?ts ?a ?b ?c (EUn Neg ?e)) with (match ety ts a b c e with Some t => op_ty (TUn Neg) [t] | None => None end); rewrite A; reflexivity|].
      change (eeval ?vs ?a ?b ?c (EUn Neg ?e)) with (match eeval vs a b c e with Some v => tcompute (TUn Neg) [v] | None => None end). rewrite B.
      cbn [tcompute]. rewrite (amap_tab _ s1) by apply tab_has_shape. do 2 f_equal. apply tab_ext. intros j Hj. unfold applied. rewrite aget_tab by exact Hj.
      simpl un. replace (- rsum (indices r) (fun i => delta (bc_idx s1 i) j * 1 * rget gy i))
        with ((-1) * rsum (indices r) (fun i => delta (bc_idx s1 i) j * 1 * rget gy i)) by ring.
      rewrite <- rsum_scale. apply rsum_idx_ext. intros i Hi. unfold bkern, two, bcoef, op_vjp; simpl. ring.
  - destruct (HNil HB) as (N & R0 & R1).
    destruct p as [|[|p]]; [| |destruct p; discriminate]; inv Hp; cbn [embed]; eexists; (split; [reflexivity|]).
    + apply (reduce_rule _ _ r s0 0 x _ gy _ (zip_tab Mul r r s1 gy y)); auto.
      * eapply ety_bin; [reflexivity|reflexivity|apply arith_self; auto].
      * eapply eeval_bin; [reflexivity|reflexivity|auto|auto|apply arith_self; auto].
      * intros i Hi. unfold zip_tab. rewrite aget_tab by exact Hi. rewrite (bc_idx_self r) by exact Hi. unfold bcoef, op_vjp; simpl. ring.
    + apply (reduce_rule _ _ r s1 1 y _ gy _ (zip_tab Mul r r s0 gy x)); auto.
      * eapply ety_bin; [reflexivity|reflexivity|apply arith_self; auto].
      * eapply eeval_bin; [reflexivity|reflexivity|auto|auto|apply arith_self; auto].
      * intros i Hi. unfold zip_tab. rewrite aget_tab by exact Hi. rewrite (bc_idx_self r) by exact Hi. unfold bcoef, op_vjp; simpl. ring.
  - destruct (shape_eqb s1 [1%nat]) eqn:E1; [discriminate|]. destruct (HNil HB) as (N & R0 & R1).
    assert (BD : bin_ty Div r s1 = Some r) by (simpl; rewrite E1; apply arith_self; auto).
    destruct p as [|[|p]]; [| |destruct p; discriminate]; inv Hp; cbn [embed]; eexists; (split; [reflexivity|]).
    + apply (reduce_rule _ _ r s0 0 x _ gy _ (zip_tab Div r r s1 gy y)); auto.
      * eapply ety_bin; [reflexivity|reflexivity|exact BD].
      * eapply eeval_bin; [reflexivity|reflexivity|auto|auto|exact BD].
      * intros i Hi. unfold zip_tab. rewrite aget_tab by exact Hi. rewrite (bc_idx_self r) by exact Hi. unfold bcoef, op_vjp; simpl. unfold Rdiv. ring.
    + set (q := tab s1 (fun i => un (Pow (-2)) (rget y i))). set (m := tab s0 (fun i => un Neg (rget x i))).
      assert (Hq : has_shape s1 q) by apply tab_has_shape. assert (Hm : has_shape s0 m) by apply tab_has_shape.
      apply (reduce_rule _ _ r s1 1 y _ gy _ (zip_tab Mul r r r (zip_tab Mul r s0 s1 m q) gy)); auto.
      * eapply ety_bin; [eapply ety_bin; [reflexivity|reflexivity|exact HB]|reflexivity|apply arith_same; auto].
      * eapply eeval_bin; [eapply eeval_bin; [| | | |exact HB]|reflexivity|apply zip_tab_shape|auto|apply arith_same; auto].
        -- cbn [eeval nth_error tcompute]. rewrite (amap_tab _ s0) by auto. reflexivity.
        -- cbn [eeval nth_error tcompute]. rewrite (amap_tab _ s1) by auto. reflexivity.
        -- exact Hm.
        -- exact Hq.
      * intros i Hi. unfold zip_tab. rewrite aget_tab by exact Hi. rewrite !(bc_idx_self r) by exact Hi. rewrite aget_tab by exact Hi.
        unfold m, q. rewrite !aget_tab by (eapply reduces_bounds; eauto). unfold bcoef, op_vjp; simpl. ring.
  - simpl in HF. apply shape_eqb_ok in HF. subst s1. destruct (cmp_self _ _ HB) as [N ->].
    assert (p < 2)%nat by (destruct p as [|[|[|p]]]; [lia|lia|discriminate|discriminate]).
    apply elem_two_rule; auto. destruct p as [|[|p]]; [| |lia]; inv Hp; reflexivity.
  - simpl in HF. apply shape_eqb_ok in HF. subst s1. destruct (cmp_self _ _ HB) as [N ->].
    assert (p < 2)%nat by (destruct p as [|[|[|p]]]; [lia|lia|discriminate|discriminate]).
    apply elem_two_rule; auto. destruct p as [|[|p]]; [| |lia]; inv Hp; reflexivity.
  - destruct p as [|[|p]]; discriminate.
  - destruct p as [|[|p]]; discriminate.
  - destruct p as [|[|p]]; discriminate.
  - destruct p as [|[|p]]; discriminate.
  - destruct p as [|[|p]]; discriminate.
  - destruct p as [|[|p]]; discriminate.
  - destruct p as [|[|[|p]]]; discriminate.
  - destruct p as [|[|[|p]]]; discriminate.
Qed.

Lemma bcoef_none b s0 s1 x y p i : (forall e, nth_error (bin_rule b) p <> Some (Some e)) -> bcoef b s0 s1 x y p i = 0.
Proof.
  intros H. unfold bcoef, op_vjp. cbn [rule length]. destruct (nth_error (bin_rule b) p) as [[e|]|]; auto. exfalso. apply (H e). reflexivity.
Qed.
Lemma bin_correct b s0 s1 r x y : bin_ty b s0 s1 = Some r -> op_fit (TBin b) [TyA s0; TyA s1] = true ->
  has_shape s0 x -> has_shape s1 y -> exists K, correct (TBin b) [TyA s0; TyA s1] [TA x; TA y] r (zip_tab b r s0 s1 x y) K.
Proof.
  intros HB HF Hx Hy. exists (bkern b s0 s1 x y). apply mk_correct.
  - intros rs p e HR Hp. inv HR. rewrite nth_error_map in Hp. destruct (nth_error (bin_rule b) p) as [[e0|]|] eqn:E; try discriminate Hp.
    inv Hp. destruct (bin_rules b s0 s1 r x y (full r 0) p e0 HB HF Hx Hy (full_shape _ _) E) as (shp & A & B & _).
    exists shp. split; [exact A|]. split; [exact B|]. intros gy Hg.
    destruct (bin_rules b s0 s1 r x y gy p e0 HB HF Hx Hy Hg E) as (shp' & A' & B' & C). rewrite A in A'. inv A'. exact C.
  - intros rs p i j HR Hp. inv HR.
    assert (HN : forall e, nth_error (bin_rule b) p <> Some (Some e)).
    { intros e He. apply (Hp (embed e)). rewrite nth_error_map, He. reflexivity. }
    unfold bkern. destruct p as [|[|p]]; cbn [two]; rewrite ?bcoef_none by exact HN; ring.
  - intros HDom Fs d HC HV i Hi. apply curve_two in HC. destruct HC as (F & G & HM & S0 & S1 & D0 & D1).
    pose proof (HM 0) as HM0. rewrite HV in HM0. injection HM0 as EX EY.
    pose proof (bin_ty_co _ _ _ _ HB) as CB.
    assert (I0 : in_bounds s0 (bc_idx s0 i)) by (eapply bc_bounds; [eapply co_broadcast_ok_l; eauto|exact Hi]).
    assert (I1 : in_bounds s1 (bc_idx s1 i)) by (eapply bc_bounds; [eapply co_broadcast_ok_r; eauto|exact Hi]).
    apply (is_derive_fext (fun t => bin b (rget (arr_of (F t)) (bc_idx s0 i)) (rget (arr_of (G t)) (bc_idx s1 i)))).
    + intros t. unfold run. rewrite HM. cbn [tcompute]. rewrite (bin_arr_ok b _ _ s0 s1 r) by auto. cbn [otA option_map arr_of]. unfold zip_tab. rewrite aget_tab by exact Hi. reflexivity.
    + eapply is_derive_eq.
      * apply bin_rule_correct; [apply D0; exact I0|apply D1; exact I1|]. rewrite <- EX, <- EY. cbn in HDom. specialize (HDom r i).
        rewrite (hs_sh _ _ Hx), (hs_sh _ _ Hy) in HDom. apply HDom; auto.
      * unfold bkern. rewrite spread_two.
        rewrite (rsum_idx_ext s0 _ (fun j => delta (bc_idx s0 i) j * (bcoef b s0 s1 x y 0 i * d 0%nat j))) by (intros; ring).
        rewrite (rsum_idx_ext s1 _ (fun j => delta (bc_idx s1 i) j * (bcoef b s0 s1 x y 1 i * d 1%nat j))) by (intros; ring).
        rewrite !rsum_delta by auto. unfold bcoef. rewrite EX, EY. reflexivity.
Qed.
