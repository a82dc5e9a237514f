(** The rules of convolutions and pooling. *)
From Coq Require Import String List Arith ZArith NArith Bool Lia Reals Lra Classical_Prop.
From Coquelicot Require Import Coquelicot.
Import ListNotations.
From Verif Require Import Graph_Model Eval_Model Eval_Spec Eval_Proofs Graph_Proofs Grad_Model Grad_Spec
  Scalar_Model Scalar_Spec Scalar_Rules Scalar_Proofs.
From Verif Require Import Array_Model Array_Proofs Array_Sum Arith_Model Arith_Proofs Vjp_Spec Vjp_Proofs Reduce_Proofs
  Conv_Model Conv_Spec Conv_Filter P_ConvGrad Tens_Model Tens_Spec Tens_Fwd Tens_Fwd4 Tens_Build Tens_Rules Tens_Rules2 Tens_Rules3 Tens_Rules5.
From Verif Require Pool_Model Pool_Spec Pool_Proofs Pool_Final P_Pool.
Local Set Bullet Behavior "Strict Subproofs".
Local Open Scope R_scope.

(** ** Functions linear in each of two arguments *)
Definition unit_at (sh i : list nat) : arr R := tab sh (delta i).
Lemma unit_shape sh i : has_shape sh (unit_at sh i).
Proof. apply tab_has_shape. Qed.
Lemma dot_unit sh i a : has_shape sh a -> in_bounds sh i -> dot (unit_at sh i) a = rget a i.
Proof.
  intros Ha Hi. rewrite (dot_sum sh) by auto using unit_shape. rewrite <- (rsum_delta sh i (fun j => rget a j) Hi). apply rsum_idx_ext.
  intros j Hj. unfold unit_at. rewrite aget_tab by exact Hj. reflexivity.
Qed.
Lemma bilinear_correct o s0 s1 sh x w out e0 e1 (F Gx Gw : arr R -> arr R -> arr R) :
  (forall x w, has_shape s0 x -> has_shape s1 w -> tcompute o [TA x; TA w] = Some (TA (F x w))) ->
  (forall x w, has_shape sh (F x w)) -> (forall w g, has_shape s0 (Gx w g)) -> (forall x g, has_shape s1 (Gw x g)) ->
  (forall x w g, has_shape s0 x -> has_shape s1 w -> has_shape sh g -> dot g (F x w) = dot (Gx w g) x) ->
  (forall x w g, has_shape s0 x -> has_shape s1 w -> has_shape sh g -> dot g (F x w) = dot (Gw x g) w) ->
  trule o 2 = Some [Some e0; Some e1] ->
  ety [TyA s0; TyA s1] (TyA sh) (TyA sh) [] e0 = Some (TyA s0) -> ety [TyA s0; TyA s1] (TyA sh) (TyA sh) [] e1 = Some (TyA s1) ->
  has_shape s0 x -> has_shape s1 w ->
  (forall gy, has_shape sh gy -> eeval [TA x; TA w] (TA out) (TA gy) [] e0 = Some (TA (Gx w gy))) ->
  (forall gy, has_shape sh gy -> eeval [TA x; TA w] (TA out) (TA gy) [] e1 = Some (TA (Gw x gy))) ->
  exists K, correct o [TyA s0; TyA s1] [TA x; TA w] sh out K.
Proof.
  intros HF SF SX SW DX DW HR T0 T1 Hx Hw V0 V1.
  set (A := fun w i j => rget (Gx w (unit_at sh i)) j). set (B := fun x i k => rget (Gw x (unit_at sh i)) k).
  assert (FA : forall x w i, has_shape s0 x -> has_shape s1 w -> in_bounds sh i -> rget (F x w) i = rsum (indices s0) (fun j => A w i j * rget x j)).
  { intros x' w' i Hx' Hw' Hi. rewrite <- (dot_unit sh i) by auto. rewrite DX by auto using unit_shape. rewrite (dot_sum s0) by auto. reflexivity. }
  assert (FB : forall x w i, has_shape s0 x -> has_shape s1 w -> in_bounds sh i -> rget (F x w) i = rsum (indices s1) (fun k => B x i k * rget w k)).
  { intros x' w' i Hx' Hw' Hi. rewrite <- (dot_unit sh i) by auto. rewrite DW by auto using unit_shape. rewrite (dot_sum s1) by auto. reflexivity. }
  assert (AF : forall w i j, has_shape s1 w -> in_bounds sh i -> in_bounds s0 j -> A w i j = rget (F (unit_at s0 j) w) i).
  { intros w' i j Hw' Hi Hj. rewrite FA by auto using unit_shape. rewrite <- (rsum_delta s0 j (fun j => A w' i j) Hj). apply rsum_idx_ext.
    intros j' Hj'. unfold unit_at. rewrite aget_tab by exact Hj'. ring. }
  assert (BF : forall x i k, has_shape s0 x -> in_bounds sh i -> in_bounds s1 k -> B x i k = rget (F x (unit_at s1 k)) i).
  { intros x' i k Hx' Hi Hk. rewrite FB by auto using unit_shape. rewrite <- (rsum_delta s1 k (fun k => B x' i k) Hk). apply rsum_idx_ext.
    intros k' Hk'. unfold unit_at. rewrite aget_tab by exact Hk'. ring. }
  exists (two (A w) (B x)). apply mk_correct.
  - intros rs p e Er Hp. cbn [length] in Er. rewrite HR in Er. inv Er. destruct p as [|[|p]]; [| |destruct p; discriminate Hp]; inv Hp.
    + exists s0. split; [reflexivity|]. split; [exact T0|]. intros gy Hg. rewrite V0 by exact Hg. do 2 f_equal. apply tab_eq; [apply SX|]. intros j Hj.
      rewrite <- (dot_unit s0 j) by auto. rewrite dot_comm, <- DX by auto using unit_shape. rewrite (dot_sum sh) by auto. apply rsum_idx_ext. intros i Hi.
      cbn [two]. rewrite AF by auto. ring.
    + exists s1. split; [reflexivity|]. split; [exact T1|]. intros gy Hg. rewrite V1 by exact Hg. do 2 f_equal. apply tab_eq; [apply SW|]. intros j Hj.
      rewrite <- (dot_unit s1 j) by auto. rewrite dot_comm, <- DW by auto using unit_shape. rewrite (dot_sum sh) by auto. apply rsum_idx_ext. intros i Hi.
      cbn [two]. rewrite BF by auto. ring.
  - intros rs p i j Er Hp. cbn [length] in Er. rewrite HR in Er. inv Er. destruct p as [|[|p]]; [destruct (Hp e0 eq_refl)|destruct (Hp e1 eq_refl)|reflexivity].
  - intros _ Fs d HC H0 i Hi. destruct (curve_two _ _ _ _ HC) as (X & W & EX & HX & HW & DX' & DW'). rewrite spread_two.
    assert (E0 : arr_of (X 0) = x /\ arr_of (W 0) = w) by (rewrite EX in H0; inv H0; auto). destruct E0 as [E0 E1].
    apply (is_derive_fext (fun t : R => rsum (indices s0) (fun j => rsum (indices s1) (fun k => B (unit_at s0 j) i k * rget (arr_of (W t)) k) * rget (arr_of (X t)) j))).
    { intros t. unfold run. rewrite EX, HF by auto. cbn [arr_of]. rewrite FA by auto. apply rsum_idx_ext. intros j Hj. f_equal. rewrite AF by auto. apply FB; auto using unit_shape. }
    eapply is_derive_eq.
    + apply is_derive_rsum. intros j Hj. apply indices_in in Hj.
      apply (is_derive_mult (fun t : R => rsum (indices s1) (fun k => B (unit_at s0 j) i k * rget (arr_of (W t)) k)) (fun t : R => rget (arr_of (X t)) j)).
      * apply is_derive_rsum. intros k Hk. apply indices_in in Hk. apply is_derive_cmul. apply DW'. exact Hk.
      * apply DX'. exact Hj.
      * intros; apply Rmult_comm.
    + unfold plus, mult; simpl. rewrite E0, E1. cbn [two].
      rewrite (rsum_idx_ext s0 _ (fun j => rsum (indices s1) (fun k => B (unit_at s0 j) i k * d 1%nat k) * rget x j + A w i j * d 0%nat j)).
      * rewrite rsum_add, Rplus_comm. f_equal.
        rewrite (rsum_idx_ext s0 _ (fun j => rsum (indices s1) (fun k => B (unit_at s0 j) i k * d 1%nat k * rget x j))) by (intros j Hj; rewrite rsum_scale_r; reflexivity).
        rewrite rsum_swap. apply rsum_idx_ext. intros k Hk.
        rewrite (rsum_idx_ext s0 _ (fun j => A (unit_at s1 k) i j * rget x j * d 1%nat k)) by (intros j Hj; rewrite BF, AF by auto using unit_shape; ring).
        rewrite rsum_scale_r. f_equal. rewrite BF by auto. symmetry. apply FA; auto using unit_shape.
      * intros j Hj. f_equal. f_equal. rewrite AF by auto. symmetry. apply FB; auto using unit_shape.
Qed.

(** ** Convolutions *)
Lemma conv_correct checked p s d sx sw sy x w out : conv_ty p s d sx sw = Some sy -> op_fit (TConv checked p s d) [TyA sx; TyA sw] = true ->
  has_shape sx x -> has_shape sw w -> exists K, correct (TConv checked p s d) [TyA sx; TyA sw] [TA x; TA w] sy out K.
Proof.
  intros HT HFit Hx Hw. cbn [op_fit] in HFit. rewrite HT in HFit. destruct (deconv_ty checked p s d sy sw) as [sx'|] eqn:ED; [|discriminate].
  apply shape_eqb_ok in HFit. subst sx'. pose proof ED as ED'. apply deconv_ty_ok in ED'.
  destruct ED' as (b & xch & ych & xh & xw & kh & kw & yh & yw & -> & -> & -> & S & C1 & C2 & K & PB & EC).
  eapply (bilinear_correct (TConv checked p s d) _ _ _ x w out _ _ (conv_array b xch ych kh kw yh yw p s d)
    (fun w g => transposed_array b xch xh xw kh kw p s d yh yw ych w g) (fun x g => filter_array b xch ych kh kw yh yw p s d x g)).
  - intros x' w' Hx' Hw'. eapply conv_value; eassumption.
  - intros. apply conv_shape.
  - intros. apply deconv_shape.
  - intros. apply tab_has_shape.
  - intros x' w' g Hx' Hw' Hg. apply dot_conv; auto.
  - intros x' w' g Hx' Hw' Hg. symmetry. apply dot_filter; auto.
  - reflexivity.
  - cbn [ety nth_error]. unfold ety_op. cbn [op_ty]. rewrite ED. reflexivity.
  - cbn [ety nth_error]. unfold ety_op. cbn [op_ty]. rewrite EC. cbn [otyA option_map is_leaf negb andb stored_in stored_ok op_ty].
    rewrite !shape_eqb_refl. destruct (Nat.ltb_spec 0 b); [|lia]. reflexivity.
  - exact Hx.
  - exact Hw.
  - intros gy Hg. cbn [eeval nth_error]. eapply deconv_value; eassumption.
  - intros gy Hg. cbn [eeval nth_error]. rewrite (proj2 (conv_value false p s d b xch ych xh xw kh kw yh yw x w S Hx Hw)). apply filter_grad_value; auto.
Qed.
Lemma deconv_correct checked p s d sy sw sx y w out : deconv_ty checked p s d sy sw = Some sx -> square sy = true ->
  has_shape sy y -> has_shape sw w -> exists K, correct (TConvT checked p s d) [TyA sy; TyA sw] [TA y; TA w] sx out K.
Proof.
  intros ED HSq Hy Hw. pose proof ED as ED'. apply deconv_ty_ok in ED'.
  destruct ED' as (b & xch & ych & xh & xw & kh & kw & yh & yw & -> & -> & -> & S & C1 & C2 & K & PB & EC). pose proof (square_ok _ _ _ _ HSq) as Sq.
  eapply (bilinear_correct (TConvT checked p s d) _ _ _ y w out _ _ (fun y w => transposed_array b xch xh xw kh kw p s d yh yw ych w y)
    (fun w g => conv_array b xch ych kh kw yh yw p s d g w) (fun y g => filter_array b xch ych kh kw yh yw p s d g y)).
  - intros y' w' Hy' Hw'. eapply deconv_value; eassumption.
  - intros. apply deconv_shape.
  - intros. apply conv_shape.
  - intros. apply tab_has_shape.
  - intros y' w' g Hy' Hw' Hg. rewrite dot_comm, (dot_comm (conv_array _ _ _ _ _ _ _ _ _ _ _ _)). symmetry. apply dot_conv; auto.
  - intros y' w' g Hy' Hw' Hg. rewrite dot_filter by auto. rewrite dot_comm. symmetry. apply dot_conv; auto.
  - reflexivity.
  - cbn [ety nth_error]. unfold ety_op. cbn [op_ty]. rewrite EC. reflexivity.
  - cbn [ety nth_error]. unfold ety_op. cbn [op_ty is_leaf negb andb stored_in stored_ok]. rewrite EC, HSq, shape_eqb_refl. cbn [hd].
    destruct (Nat.eqb_spec b 0); [lia|]. reflexivity.
  - exact Hy.
  - exact Hw.
  - intros gy Hg. cbn [eeval nth_error]. eapply conv_value; eassumption.
  - intros gy Hg. cbn [eeval nth_error tcompute]. apply (deconv_filter_value p s d b xch ych xh xw kh kw yh yw gy y w); auto.
Qed.

(** ** Pooling *)
Lemma in_bounds4 b c h w i : in_bounds [b; c; h; w] i ->
  exists i0 i1 i2 i3, i = [i0; i1; i2; i3] /\ (i0 < b)%nat /\ (i1 < c)%nat /\ (i2 < h)%nat /\ (i3 < w)%nat.
Proof.
  intros H. inversion H as [|? ? ? ? A0 H1]; subst. inversion H1 as [|? ? ? ? A1 H2]; subst. inversion H2 as [|? ? ? ? A2 H3]; subst.
  inversion H3 as [|? ? ? ? A3 H4]; subst. inversion H4; subst. eauto 10.
Qed.
(** What the position recorded for place [i] is worth: 1 at the pixel chosen. *)
Definition chosen (lowest : R) (checked : bool) (b ch xh xw s size : nat) (x : arr R) (i j : list nat) : R :=
  if (snd (win lowest checked ch xh xw s size x i) =? ravel [b; ch; xh; xw] j)%nat then 1 else 0.
Section Pool.
  Variables (lowest : R) (checked : bool) (b ch xh xw s size yh yw : nat).
  Hypothesis S : Pool_Spec.pool_sizes xh xw 0 s size yh yw.
  Notation sx := [b; ch; xh; xw].
  Notation inw := (Pool_Spec.in_window xh xw 0 s size).
  Lemma chosen_at x i j0 : in_bounds sx j0 -> snd (win lowest checked ch xh xw s size x i) = ravel sx j0 ->
    forall d, rsum (indices sx) (fun j => chosen lowest checked b ch xh xw s size x i j * d j) = d j0.
  Proof.
    intros Hj0 E d. rewrite (rsum_idx_ext sx _ (fun j => delta j0 j * d j)); [apply rsum_delta; exact Hj0|].
    intros j Hj. unfold chosen. rewrite E. destruct (Nat.eqb_spec (ravel sx j0) (ravel sx j)) as [Q|N].
    - apply ravel_inj in Q; auto. subst j. rewrite delta_eq. reflexivity.
    - rewrite delta_ne; [reflexivity|]. intros ->. apply N. reflexivity.
  Qed.
  Lemma above x j : has_shape sx x -> List.Forall (Rlt lowest) (a_data x) -> in_bounds sx j -> lowest < rget x j.
  Proof.
    intros Hx LO Hj. rewrite <- (Pool_Final.get_ravel b ch xh xw x j Hx). rewrite List.Forall_forall in LO. apply LO. apply nth_In.
    destruct Hx as [_ Lx]. rewrite Lx. apply ravel_lt. exact Hj.
  Qed.
  Lemma all_above x : has_shape sx x -> (forall j, in_bounds sx j -> lowest < rget x j) -> List.Forall (Rlt lowest) (a_data x).
  Proof.
    intros Hx H. rewrite (tab_eq sx x (rget x) Hx) by reflexivity. unfold tab. cbn [a_data]. apply List.Forall_forall. intros a Ha.
    apply in_map_iff in Ha. destruct Ha as (j & <- & Hj). apply H. apply indices_in. exact Hj.
  Qed.
  (** Pooling moves with the pixel chosen when every window has one largest pixel
      only, or none of its pixels moves at first. *)
  Lemma pool_moves x (flat : list nat -> Prop) (F : R -> arr R) (d : list nat -> R) : has_shape sx x -> List.Forall (Rlt lowest) (a_data x) ->
    (forall i0 i1 i2 i3, (i0 < b)%nat -> (i1 < ch)%nat -> (i2 < yh)%nat -> (i3 < yw)%nat ->
      (exists h w, inw i2 i3 h w /\ forall h' w', inw i2 i3 h' w' -> (h', w') <> (h, w) -> rget x [i0; i1; h'; w'] < rget x [i0; i1; h; w]) \/
      (forall h w, inw i2 i3 h w -> flat [i0; i1; h; w])) ->
    (forall t, has_shape sx (F t)) -> F 0 = x -> (forall j, in_bounds sx j -> is_derive (fun t : R => rget (F t) j) 0 (d j)) ->
    (forall j, in_bounds sx j -> flat j -> locally 0 (fun t : R => rget (F t) j = rget x j)) ->
    forall i, in_bounds [b; ch; yh; yw] i ->
    is_derive (fun t : R => fst (win lowest checked ch xh xw s size (F t) i)) 0 (rsum (indices sx) (fun j => chosen lowest checked b ch xh xw s size x i j * d j)).
  Proof.
    intros Hx LO UM HS F0 HDv HFl i Hi.
    destruct (in_bounds4 _ _ _ _ _ Hi) as (i0 & i1 & i2 & i3 & -> & A0 & A1 & A2 & A3).
    assert (WB : forall h' w', inw i2 i3 h' w' -> in_bounds sx [i0; i1; h'; w']).
    { intros h' w' (? & ? & _). repeat constructor; auto. }
    assert (LL : forall j, in_bounds sx j -> locally 0 (fun t => lowest < rget (F t) j)).
    { intros j Hj. eapply filter_imp; [|apply (derive_locally_pos (fun t => rget (F t) j - lowest) (d j - 0))].
      - intros t Ht. simpl in Ht. lra.
      - apply (is_derive_minus (fun t : R => rget (F t) j) (fun _ : R => lowest)); [apply HDv; auto|apply @is_derive_const].
      - rewrite F0. pose proof (above x j Hx LO Hj). lra. }
    destruct (UM i0 i1 i2 i3 A0 A1 A2 A3) as [(h & w & IW & UQ)|FL].
    - set (j0 := [i0; i1; h; w]). assert (Hj0 : in_bounds sx j0) by (apply WB; exact IW).
      assert (TW : forall t, lowest < rget (F t) j0 -> (forall h' w', inw i2 i3 h' w' -> (h', w') <> (h, w) -> rget (F t) [i0; i1; h'; w'] < rget (F t) j0) ->
        win lowest checked ch xh xw s size (F t) [i0; i1; i2; i3] = (rget (F t) j0, ravel sx j0)).
      { intros t Q1 Q2. unfold win. apply (Pool_Final.window_unique lowest checked b ch xh xw 0 s size yh yw S); auto; simpl; lia. }
      eapply is_derive_eq.
      + apply (is_derive_ext_loc (fun t => rget (F t) j0)); [|apply HDv; exact Hj0].
        assert (L2 : locally 0 (fun t => forall j, In j (indices sx) ->
          (forall h' w', j = [i0; i1; h'; w'] -> inw i2 i3 h' w' -> (h', w') <> (h, w) -> rget (F t) j < rget (F t) j0))).
        { apply locally_forall. intros j Hj. apply indices_in in Hj.
          destruct (Rlt_dec (rget x j) (rget x j0)) as [LT|NL].
          - eapply filter_imp; [|apply (derive_locally_pos (fun t => rget (F t) j0 - rget (F t) j) (d j0 - d j))].
            + intros t Ht h' w' _ _ _. simpl in Ht. lra.
            + apply (is_derive_minus (fun t : R => rget (F t) j0) (fun t : R => rget (F t) j)); apply HDv; auto.
            + rewrite F0. lra.
          - apply filter_forall. intros t h' w' -> Q1 Q2. exfalso. apply NL. apply UQ; auto. }
        eapply filter_imp; [|apply filter_and; [exact (LL j0 Hj0)|exact L2]]. intros t [Q1 Q2]. symmetry. rewrite TW; [reflexivity|exact Q1|].
        intros h' w' IW' NE. apply (Q2 [i0; i1; h'; w']) with (h' := h') (w' := w'); auto. apply indices_in. apply WB. exact IW'.
      + symmetry. apply (chosen_at x _ j0 Hj0). rewrite <- F0. rewrite TW; [reflexivity| |]; rewrite F0; [apply above; auto|exact UQ].
    - assert (WF : forall y, has_shape sx y -> List.Forall (Rlt lowest) (a_data y) -> exists h w, Pool_Spec.first_max xh xw 0 s size y i0 i1 i2 i3 h w /\
        win lowest checked ch xh xw s size y [i0; i1; i2; i3] = (rget y [i0; i1; h; w], ravel sx [i0; i1; h; w])).
      { intros y Hy Ly. apply (Pool_Final.window_first lowest checked b ch xh xw 0 s size yh yw S); auto; try (simpl; lia).
        exists (i2 * s)%nat, (i3 * s)%nat. apply (P_Pool.window_nonempty xh xw s size yh yw); auto. }
      destruct (WF x Hx LO) as (h & w & [IW MX] & E). set (j0 := [i0; i1; h; w]). assert (Hj0 : in_bounds sx j0) by (apply WB; exact IW).
      eapply is_derive_eq.
      + apply (is_derive_ext_loc (fun _ => rget x j0)); [|apply @is_derive_const].
        assert (L1 : locally 0 (fun t => forall j, In j (indices sx) -> lowest < rget (F t) j)) by (apply locally_forall; intros j Hj; apply LL; apply indices_in; exact Hj).
        assert (L2 : locally 0 (fun t => forall j, In j (indices sx) -> (exists h' w', j = [i0; i1; h'; w'] /\ inw i2 i3 h' w') -> rget (F t) j = rget x j)).
        { apply locally_forall. intros j Hj. apply indices_in in Hj. destruct (classic (exists h' w', j = [i0; i1; h'; w'] /\ inw i2 i3 h' w')) as [Q|Q].
          - destruct Q as (h' & w' & Q1 & Q2). eapply filter_imp; [|apply (HFl j Hj); rewrite Q1; apply FL; exact Q2]. auto.
          - apply filter_forall. intros t Q'. contradiction. }
        eapply filter_imp; [|apply filter_and; [exact L1|exact L2]]. intros t [Q1 Q2].
        assert (Q2' : forall h' w', inw i2 i3 h' w' -> rget (F t) [i0; i1; h'; w'] = rget x [i0; i1; h'; w']).
        { intros h' w' IW'. apply Q2; [apply indices_in; apply WB; exact IW'|eauto]. }
        destruct (WF (F t) (HS t)) as (h1 & w1 & [IW1 MX1] & E1).
        { apply all_above; [apply HS|]. intros j Hj. apply Q1. apply indices_in. exact Hj. }
        rewrite E1. cbn [fst]. destruct (MX h1 w1 IW1) as [M1 _]. destruct (MX1 h w IW) as [M2 _]. rewrite !Q2' in M2 by assumption. rewrite (Q2' h1 w1 IW1). unfold j0. lra.
      + rewrite (chosen_at x _ j0 Hj0) by (rewrite E; reflexivity).
        assert (D0 : is_derive (fun t : R => rget (F t) j0) 0 0).
        { apply (is_derive_ext_loc (fun _ => rget x j0)); [|apply @is_derive_const].
          eapply filter_imp; [|apply (HFl j0 Hj0); apply FL; exact IW]. intros t Q. symmetry. exact Q. }
        apply is_derive_unique in D0. pose proof (HDv j0 Hj0) as D1. apply is_derive_unique in D1. transitivity (Derive (fun t : R => rget (F t) j0) 0); [symmetry; exact D0|exact D1].
  Qed.
End Pool.
Lemma pool_correct lowest bits checked p s size sx sy x out : pool_ty p s size sx = Some sy -> pool_exact bits s size sx = true ->
  has_shape sx x -> exists K, correct (TPool lowest bits checked p s size) [TyA sx] [TA x] sy out K.
Proof.
  intros HT HE Hx. pose proof HT as HT'. apply pool_ty_ok in HT'. destruct HT' as (b & ch & xh & xw & yh & yw & -> & -> & -> & S & Eh & Ew).
  destruct (pool_exact_ok _ _ _ _ _ _ _ _ _ HE Eh Ew) as (C1 & C2 & L). clear Eh Ew.
  eexists. eapply (first_correct (TPool lowest bits checked 0 s size) [b; ch; xh; xw] [] [b; ch; yh; yw] x out (chosen lowest checked b ch xh xw s size x)).
  - reflexivity.
  - cbn [ety map nth_error]. unfold ety_op. cbn [op_ty]. rewrite HT, HE, shape_eqb_refl. reflexivity.
  - intros gy Hg. cbn [eeval map nth_error]. rewrite (pool_grad_value lowest bits checked s size b ch xh xw yh yw x gy S C1 C2 L Hx Hg). reflexivity.
  - intros [LO UM] F d HS F0 HDv i Hi. specialize (UM b ch xh xw yh yw (hs_sh _ _ Hx)). rewrite (hs_sh _ _ Hx) in UM. specialize (UM HT).
    apply (is_derive_fext (fun t : R => fst (win lowest checked ch xh xw s size (F t) i))).
    + intros t. unfold run. cbn [map]. rewrite (pool_value lowest bits checked s size b ch xh xw yh yw (F t) S (HS t)). cbn [arr_of]. rewrite aget_tab by exact Hi. reflexivity.
    + apply (pool_moves lowest checked b ch xh xw s size yh yw S x (fun _ => False)); auto. intros _ _ [].
Qed.
(** The kernel of pooling is determined by its rule. *)
Lemma pool_kernel lowest bits checked p s size sx sy x out K : pool_ty p s size sx = Some sy -> pool_exact bits s size sx = true -> has_shape sx x ->
  (forall rs p' e, trule (TPool lowest bits checked p s size) 1 = Some rs -> nth_error rs p' = Some (Some e) ->
    exists shp, nth_error [TyA sx] p' = Some (TyA shp) /\
      forall gy, has_shape sy gy -> eeval [TA x] (TA out) (TA gy) [] e = Some (TA (applied shp sy (K p') gy))) ->
  forall b ch xh xw yh yw, sx = [b; ch; xh; xw] -> sy = [b; ch; yh; yw] ->
  forall i j, in_bounds sy i -> in_bounds sx j -> K 0%nat i j = chosen lowest checked b ch xh xw s size x i j.
Proof.
  intros HT HE Hx HK b ch xh xw yh yw -> -> i j Hi Hj. pose proof HT as HT'. apply pool_ty_ok in HT'.
  destruct HT' as (b' & ch' & xh' & xw' & yh' & yw' & -> & Q1 & Q2 & S & Eh & Ew). injection Q1 as <- <- <- <-. injection Q2 as <- <-.
  destruct (pool_exact_ok _ _ _ _ _ _ _ _ _ HE Eh Ew) as (C1 & C2 & L).
  destruct (HK _ 0%nat _ eq_refl eq_refl) as (shp & Q & V). simpl in Q. injection Q as <-.
  specialize (V (unit_at _ i) (unit_shape _ i)). cbn [eeval nth_error] in V.
  rewrite (pool_grad_value lowest bits checked s size b ch xh xw yh yw x _ S C1 C2 L Hx (unit_shape _ i)) in V.
  apply (f_equal (fun v => match v with Some (TA a) => rget a j | _ => 0 end)) in V. cbv beta iota in V. unfold applied in V. rewrite !aget_tab in V by exact Hj.
  assert (U : forall f : list nat -> R, rsum (indices [b; ch; yh; yw]) (fun i' => f i' * rget (unit_at [b; ch; yh; yw] i) i') = f i).
  { intros f. rewrite (rsum_idx_ext [b; ch; yh; yw] _ (fun i' => delta i i' * f i')); [apply rsum_delta; exact Hi|].
    intros i' Hi'. unfold unit_at. rewrite aget_tab by exact Hi'. apply Rmult_comm. }
  rewrite (U (fun i' => K 0%nat i' j)) in V. rewrite (U (fun i' => if (snd (win lowest checked ch xh xw s size x i') =? ravel [b; ch; xh; xw] j)%nat then 1 else 0)) in V.
  symmetry. exact V.
Qed.
