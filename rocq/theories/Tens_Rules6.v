(** The rules of element access, axis insertion, log-softmax, log-sum-exp and
    the cross entropies. *)
From Coq Require Import String List Arith ZArith NArith Bool Lia Reals Lra.
From Coquelicot Require Import Coquelicot.
Import ListNotations.
From Verif Require Import Graph_Model Eval_Model Eval_Spec Eval_Proofs Graph_Proofs Grad_Model Grad_Spec
  Scalar_Model Scalar_Spec Scalar_Rules Scalar_Proofs.
From Verif Require Import Array_Model Array_Proofs Array_Sum Arith_Model Arith_Proofs Arith_Final Vjp_Spec Vjp_Proofs
  Reduce_Model Reduce_Spec Reduce_Proofs Mean_Model Shape_Model Shape_Spec Shape_Proofs3
  Dot_Model Dot_Proofs Softmax_Model Softmax_Spec Softmax_Proofs Softmax_Proofs2 Softmax_Proofs3 Softmax_Xent
  Tens_Model Tens_Spec Tens_Fwd Tens_Fwd2 Tens_Build Tens_Rules Tens_Rules2 Tens_Rules3 Tens_Rules4 Tens_Rules5.
Local Set Bullet Behavior "Strict Subproofs".
Local Open Scope R_scope.

(** ** Element access *)
Lemma scalar_elem g : has_shape [] g -> exists v, g = Arr [] [v].
Proof.
  destruct g as [gs [|v [|]]]; intros [S L]; simpl in S, L; try discriminate. subst gs. eauto.
Qed.
Lemma index_correct i k sh a out : elem_pos (prod sh) i = Some k -> has_shape sh a ->
  exists K, correct (TIndex i) [TyA sh] [TA a] [] out K.
Proof.
  intros HE Ha. pose proof (indices_ravel sh k (elem_pos_lt _ _ _ HE)) as [B _]. eexists.
  apply (pull_correct (TIndex i) sh [] [] a out (fun _ => nth k (indices sh) []) (EOp2 (TIndexGrad i) (SOfIn 0) (EIn 0) EGy)).
  - intros _ _. exact B.
  - intros a' Ha'. cbn [map tcompute]. rewrite (access_pull i k sh) by auto. reflexivity.
  - reflexivity.
  - cbn [ety map nth_error]. unfold ety_op. cbn [op_ty]. rewrite HE. cbn [is_leaf negb andb stored_in stored_ok nth_error]. rewrite shape_eqb_refl. reflexivity.
  - intros gy Hg. cbn [eeval map nth_error tcompute]. destruct (scalar_elem _ Hg) as [v ->].
    change (empty_elem (Arr [] [v])) with (Some v). cbv beta iota. rewrite (access_grad_push i k sh) by auto. reflexivity.
Qed.

(** ** Axis insertion *)
Lemma expand_shape_unit axes ax sh out : plain_indices axes = Some ax -> unit_axesb ax sh out = true ->
  expand_shape (length sh) (sortZ axes) sh = Some out.
Proof.
  intros HP HU. assert (HX : has_shape sh (full sh 0)) by apply full_shape.
  pose proof (proj2 (expand_pull axes ax sh out _ HX HP HU)) as E. unfold expand in E. rewrite (hs_sh _ _ HX) in E.
  destruct (expand_shape (length sh) (sortZ axes) sh) as [o|]; [|discriminate]. unfold bind, into_shape in E.
  destruct (prod (a_shape (full sh 0%R)) =? prod o)%nat; [|discriminate]. f_equal. assert (E2 := f_equal (option_map (@a_shape R)) E). simpl in E2. congruence.
Qed.
Lemma unit_drop ax sh out : unit_axesb ax sh out = true -> drop_axes ax out = sh.
Proof. intros H. apply unit_axesb_ok in H. apply H. Qed.
Lemma expand_correct axes ax sh out a y : plain_indices axes = Some ax -> unit_axesb ax sh out = true -> has_shape sh a ->
  exists K, correct TExpandDims [TyA sh; TyI axes] [TA a; TI axes] out y K.
Proof.
  intros HP HU Ha. pose proof (proj1 (expand_pull axes ax sh out a Ha HP HU)) as P. eexists.
  apply (pull_correct TExpandDims sh [axes] out a y (reindex sh out) (EOp2 TSqueeze SNone EGy (EIn 1))).
  - intros i Hi. apply reindex_in; auto.
  - intros a' Ha'. cbn [map tcompute]. rewrite (proj2 (expand_pull axes ax sh out a' Ha' HP HU)). reflexivity.
  - reflexivity.
  - cbn [ety map nth_error]. unfold ety_op. cbn [op_ty]. rewrite HP, (unit_drop _ _ _ HU), HU. reflexivity.
  - intros gy Hg. cbn [eeval map nth_error tcompute]. rewrite (proj2 (squeeze_pull axes ax sh out gy Hg HP HU)). cbn [otA option_map]. do 2 f_equal.
    apply pull_inverse; auto.
    + intros i Hi. split; [apply reindex_in; auto|apply reindex_back; auto].
    + intros j Hj. split; [apply reindex_in; auto|apply reindex_back; auto].
Qed.
Lemma squeeze_correct axes ax sh out a y : plain_indices axes = Some ax -> unit_axesb ax sh out = true -> has_shape out a ->
  exists K, correct TSqueeze [TyA out; TyI axes] [TA a; TI axes] sh y K.
Proof.
  intros HP HU Ha. pose proof (proj1 (squeeze_pull axes ax sh out a Ha HP HU)) as P. eexists.
  apply (pull_correct TSqueeze out [axes] sh a y (reindex out sh) (EOp2 TExpandDims SNone EGy (EIn 1))).
  - intros i Hi. apply reindex_in; auto.
  - intros a' Ha'. cbn [map tcompute]. rewrite (proj2 (squeeze_pull axes ax sh out a' Ha' HP HU)). reflexivity.
  - reflexivity.
  - cbn [ety map nth_error]. unfold ety_op. cbn [op_ty]. rewrite HP, (expand_shape_unit _ _ _ _ HP HU), HU. reflexivity.
  - intros gy Hg. cbn [eeval map nth_error tcompute]. rewrite (proj2 (expand_pull axes ax sh out gy Hg HP HU)). cbn [otA option_map]. do 2 f_equal.
    apply pull_inverse; auto.
    + intros i Hi. split; [apply reindex_in; auto|apply reindex_back; auto].
    + intros j Hj. split; [apply reindex_in; auto|apply reindex_back; auto].
Qed.

(** ** Log-sum-exp *)
Lemma derive_exp_of (f : R -> R) d : is_derive f 0 d -> is_derive (fun t : R => exp (f t)) 0 (exp (f 0) * d).
Proof.
  intros H. eapply is_derive_eq; [apply (is_derive_comp exp f 0 (exp (f 0)) d); [apply is_derive_exp|exact H]|].
  unfold scal; simpl. unfold mult; simpl. ring.
Qed.
Lemma lse_derive k sh (F : R -> arr R) d i : (k < length sh)%nat -> (forall t, has_shape sh (F t)) ->
  (forall j, in_bounds sh j -> is_derive (fun t : R => rget (F t) j) 0 (d j)) ->
  (forall l, (l < nth k sh 0)%nat -> in_bounds sh (set_at k l i)) -> (0 < nth k sh 0)%nat ->
  is_derive (fun t : R => lse (F t) k i) 0 (rsum (seq 0 (nth k sh 0%nat)) (fun l => rget (smax k (F 0)) (set_at k l i) * d (set_at k l i))).
Proof.
  intros Hk HS HD HB HP. set (n := nth k sh 0%nat) in *.
  set (S := fun t : R => rsum (seq 0 n) (fun l => exp (rget (F t) (set_at k l i)))).
  assert (SE : forall t, line_sum k (F t) exp i = S t) by (intros t; rewrite line_sum_rsum, (hs_sh _ _ (HS t)); reflexivity).
  apply (is_derive_fext (fun t => ln (S t))); [intros t; unfold lse; rewrite SE; reflexivity|].
  assert (DS : is_derive S 0 (rsum (seq 0 n) (fun l => exp (rget (F 0) (set_at k l i)) * d (set_at k l i)))).
  { apply is_derive_rsum with (f := fun l t => exp (rget (F t) (set_at k l i))). intros l Hl. apply in_seq in Hl.
    apply (derive_exp_of (fun t => rget (F t) (set_at k l i))). apply HD. apply HB. lia. }
  assert (SP : 0 < S 0) by (apply exp_sum_pos; apply seq_ne; exact HP).
  eapply is_derive_eq; [apply (is_derive_comp ln S 0 (/ S 0)); [apply is_derive_ln; exact SP|exact DS]|].
  unfold scal; simpl. unfold mult; simpl. rewrite Rmult_comm, <- rsum_scale. apply rsum_ext. intros l Hl. apply in_seq in Hl.
  unfold smax. rewrite (hs_sh _ _ (HS 0)). rewrite aget_tab by (apply HB; lia). rewrite line_sum_same, SE. unfold Rdiv. ring.
Qed.
Lemma logsumexp_correct minv axis k sh x out : axis_of (length sh) axis = Some k -> nonempty sh = true -> has_shape sh x ->
  exists K, correct (TLogSumExp minv axis true) [TyA sh] [TA x] (set_at k 1%nat sh) out K.
Proof.
  intros HA NE Hx. pose proof (hs_sh _ _ Hx) as EX. pose proof (axis_of_ok _ _ _ HA) as NA. pose proof (proj1 NA) as Hk.
  pose proof (proj1 (nonempty_prod _) NE) as NP. pose proof (dims_pos sh k NP Hk) as HP.
  assert (BM : bin_ty Mul sh (set_at k 1%nat sh) = Some sh) by (apply arith_self; apply reduces_set; exact NE).
  assert (HS : has_shape sh (smax k x)) by (unfold smax; rewrite EX; apply tab_has_shape).
  eexists. eapply (first_correct (TLogSumExp minv axis true) sh [] (set_at k 1%nat sh) x out (fun i j => delta (set_at k 0%nat j) i * rget (smax k x) j)).
  - reflexivity.
  - cbn [ety map nth_error]. unfold ety_op. cbn [op_ty]. rewrite HA. cbn [is_leaf negb andb stored_in stored_ok op_ty]. rewrite BM. reflexivity.
  - intros gy Hg. cbn [eeval map nth_error tcompute].
    rewrite (softmax_smax minv axis x k) by (first [eapply hs_wf; eauto|rewrite EX; exact NA]). cbn [otA option_map tcompute].
    rewrite (bin_arr_ok Mul _ _ sh (set_at k 1%nat sh) sh) by auto. cbn [otA option_map]. do 2 f_equal.
    apply tab_eq; [apply zip_tab_shape|]. intros j Hj. unfold zip_tab. rewrite aget_tab by exact Hj. rewrite (bc_idx_self sh) by exact Hj. rewrite bc_idx_set by exact Hj. cbn [bin].
    rewrite (rsum_idx_ext _ _ (fun i => delta (set_at k 0%nat j) i * (rget (smax k x) j * rget gy i))) by (intros; ring).
    rewrite rsum_delta; [reflexivity|]. apply in_bounds_set; [exact Hj|lia].
  - intros _ F d HSF F0 HDv i Hi.
    apply (is_derive_fext (fun t => lse (F t) k i)).
    + intros t. unfold run. cbn [map tcompute]. rewrite (logsumexp_run minv axis (F t) k) by (first [eapply hs_wf; eauto|rewrite (hs_sh _ _ (HSF t)); assumption]).
      cbn [otA option_map arr_of]. rewrite (hs_sh _ _ (HSF t)). rewrite aget_tab by exact Hi. reflexivity.
    + eapply is_derive_eq; [apply (lse_derive k sh F d i); auto|].
      * intros l Hl. apply (set1_back k sh); auto.
      * rewrite F0. rewrite (line_split k sh _ Hk).
        rewrite (rsum_idx_ext (set_at k 1%nat sh) _ (fun j => delta j i * rsum (seq 0 (nth k sh 0%nat)) (fun l => rget (smax k x) (set_at k l j) * d (set_at k l j)))).
        -- symmetry. apply rsum_delta_r. exact Hi.
        -- intros j Hj. rewrite <- rsum_scale. apply rsum_ext. intros l Hl. rewrite set_set, (in_set1 k sh j Hj). ring.
Qed.

(** ** Log-softmax along axis 1 *)
Lemma log_softmax_correct minv axis sh x : axis_of (length sh) axis = Some 1%nat -> nonempty sh = true -> has_shape sh x ->
  exists K, correct (TLogSoftmax minv axis) [TyA sh] [TA x] sh (lsmax 1 x) K.
Proof.
  intros HA NE Hx. pose proof (hs_sh _ _ Hx) as EX. pose proof (axis_of_ok _ _ _ HA) as NA. pose proof (proj1 NA) as Hk.
  pose proof (proj1 (nonempty_prod _) NE) as NP. pose proof (dims_pos sh 1 NP Hk) as HP.
  assert (NZ : sh <> [0%nat]) by (intros ->; discriminate).
  assert (HS : has_shape sh (lsmax 1 x)) by (unfold lsmax; rewrite EX; apply tab_has_shape).
  assert (A1 : axis_of (length sh) 1 = Some 1%nat) by (apply axis_of_names; split; [exact Hk|left; reflexivity]).
  pose proof (axis_of_ok _ _ _ A1) as NA1.
  assert (BM : bin_ty Mul sh (set_at 1 1%nat sh) = Some sh) by (apply arith_self; apply reduces_set; exact NE).
  assert (BS : bin_ty Sub sh sh = Some sh) by (apply arith_same; exact NE).
  eexists. eapply (first_correct (TLogSoftmax minv axis) sh [] sh x (lsmax 1 x) (fun i j => delta i j - online 1 sh i j * rget (smax 1 x) j)).
  - reflexivity.
  - cbn [ety map nth_error op_ty]. unfold ety_op. cbn [op_ty]. rewrite (shape_eqb_ne _ _ NZ), (axes_one _ _ _ A1). cbn [option_map is_leaf negb andb stored_in stored_ok].
    rewrite reduced_one. cbn [op_ty]. rewrite BM. cbn [otyA option_map op_ty]. rewrite BS. reflexivity.
  - intros gy Hg. cbn [eeval map nth_error tcompute].
    destruct (reduce_line 1 gy 1) as (s & R1 & R2 & R3 & R4); [rewrite (hs_sh _ _ Hg); exact NZ|rewrite (hs_sh _ _ Hg); exact NA1|].
    rewrite (hs_sh _ _ Hg) in R2, R4. rewrite R1. cbn [otA option_map tcompute]. rewrite (amap_tab _ sh) by exact HS.
    rewrite (bin_arr_ok Mul _ s sh (set_at 1 1%nat sh) sh) by (auto using tab_has_shape; apply has_shape_intro; auto). cbn [otA option_map tcompute].
    rewrite (bin_arr_ok Sub _ _ sh sh sh) by (auto using zip_tab_shape). cbn [otA option_map]. do 2 f_equal.
    apply tab_eq; [apply zip_tab_shape|]. intros j Hj. unfold zip_tab at 1. rewrite aget_tab by exact Hj. rewrite !(bc_idx_self sh) by exact Hj.
    unfold zip_tab. rewrite aget_tab by exact Hj. rewrite (bc_idx_self sh) by exact Hj. rewrite bc_idx_set by exact Hj. rewrite R4 by exact Hj. rewrite aget_tab by exact Hj. cbn [bin un].
    rewrite exp_lsmax by (rewrite EX; auto).
    rewrite (rsum_idx_ext sh _ (fun i => delta i j * rget gy i + - rget (smax 1 x) j * (online 1 sh i j * rget gy i))) by (intros; ring).
    rewrite rsum_add, rsum_scale. rewrite rsum_delta_r by exact Hj. rewrite online_col by auto. ring.
  - intros _ F d HSF F0 HDv i Hi.
    apply (is_derive_fext (fun t => rget (F t) i - lse (F t) 1 i)).
    + intros t. unfold run. cbn [map tcompute]. rewrite (log_softmax_run minv axis (F t) 1) by (first [eapply hs_wf; eauto|rewrite (hs_sh _ _ (HSF t)); assumption]).
      cbn [otA option_map arr_of]. unfold lsmax. rewrite (hs_sh _ _ (HSF t)). rewrite aget_tab by exact Hi. reflexivity.
    + eapply is_derive_eq; [apply (is_derive_minus (fun t : R => rget (F t) i) (fun t : R => lse (F t) 1 i) 0); [apply HDv; exact Hi|apply (lse_derive 1 sh F d i); auto]|].
      * intros l Hl. apply set_in; auto.
      * rewrite F0. match goal with |- minus ?a ?b = _ => change (minus a b) with (a - b) end.
        rewrite (rsum_idx_ext sh (fun j => (delta i j - online 1 sh i j * rget (smax 1 x) j) * d j)
          (fun j => delta i j * d j + -1 * (online 1 sh i j * (rget (smax 1 x) j * d j)))) by (intros; ring).
        rewrite rsum_add, rsum_scale. rewrite rsum_delta by exact Hi. rewrite online_row by exact Hi. ring.
Qed.

(** ** Cross entropies *)
Lemma sigmoid_correct sh x t : nonempty sh = true -> sh <> [1%nat] -> has_shape sh x -> has_shape sh t ->
  exists K, correct TSigmoidXent [TyA sh; TyA sh] [TA x; TA t] sh (sxent x t) K.
Proof.
  intros NE N1 Hx Ht. pose proof (hs_sh _ _ Hx) as EX. pose proof (hs_sh _ _ Ht) as ET.
  assert (HO : has_shape sh (sxent x t)) by (unfold sxent; rewrite EX; apply tab_has_shape).
  set (c0 := fun i => exp (rget x i) / (1 + exp (rget x i)) - rget t i). set (c1 := fun i => - rget t i).
  assert (HE : forall e c, flag true [true; true] true true [] e = Some true ->
    (forall u v o g, rval [u; v] o g [] e = (match c with O => exp u / (1 + exp u) - v | _ => - v end) * g) ->
    exists shp, TyA sh = TyA shp /\ ety [TyA sh; TyA sh] (TyA sh) (TyA sh) [] (embed e) = Some (TyA shp) /\
      forall gy, has_shape sh gy -> eeval [TA x; TA t] (TA (sxent x t)) (TA gy) [] (embed e) =
        Some (TA (applied shp sh (fun i j => delta i j * (match c with O => c0 | _ => c1 end) i) gy))).
  { intros e c HFl HV.
    assert (HG : forall gy, has_shape sh gy -> ety [TyA sh; TyA sh] (TyA sh) (TyA sh) [] (embed e) = Some (TyA sh) /\
      eeval [TA x; TA t] (TA (sxent x t)) (TA gy) [] (embed e) = Some (TA (applied sh sh (fun i j => delta i j * (match c with O => c0 | _ => c1 end) i) gy))).
    { intros gy Hgy.
      destruct (elem_rule sh true NE (fun _ => N1) [(true, x); (true, t)] (true, sxent x t) (true, gy)) with (e := e) (env := @nil (bool * arr R)) (f := true) as (T & a & V & S & G).
      - constructor; [exact Hx|]. constructor; [exact Ht|constructor].
      - exact HO.
      - exact Hgy.
      - constructor.
      - exact HFl.
      - split; [exact T|]. unfold fval in V. simpl in V. rewrite V. do 2 f_equal. apply tab_eq; auto. intros j Hj.
        specialize (G j Hj). simpl in G. rewrite G. unfold fat; cbn [fst snd fpos]. rewrite HV.
        rewrite (rsum_idx_ext sh _ (fun i => delta i j * ((match c with O => c0 | _ => c1 end) i * rget gy i))) by (intros; ring).
        rewrite rsum_delta_r by exact Hj. destruct c; reflexivity. }
    exists sh. split; [reflexivity|]. split; [apply (HG (full sh 0)); apply full_shape|]. intros gy Hgy. apply HG. exact Hgy. }
  exists (two (fun i j => delta i j * c0 i) (fun i j => delta i j * c1 i)). constructor.
  - intros rs p e HR Hp. inv HR. destruct p as [|[|p]]; [| |destruct p; discriminate]; inv Hp.
    + destruct (HE (RLet (RUn Exp (RIn 0)) (RBin Mul (RBin Sub (RBin Div (RVar 0) (RBin Add (RScalar 1) (RVar 0))) (RIn 1)) RGy)) 0%nat) as (shp & Q & T & V);
        [reflexivity|intros; reflexivity|]. exists shp. split; [cbn [nth_error]; congruence|]. split; [exact T|exact V].
    + destruct (HE (RUn Neg (RBin Mul RGy (RIn 1))) 1%nat) as (shp & Q & T & V);
        [reflexivity|intros; cbn; ring|]. exists shp. split; [cbn [nth_error]; congruence|]. split; [exact T|exact V].
  - intros rs p i j HR Hp. inv HR. destruct p as [|[|p]]; [exfalso; eapply Hp; reflexivity|exfalso; eapply Hp; reflexivity|reflexivity].
  - intros _ Fs d HC HFz HV i Hi. apply curve_two in HC. destruct HC as (F & G & HM & HSF & HSG & HDF & HDG).
    pose proof (HM 0) as HM0. rewrite HV in HM0. injection HM0 as E0 E1.
    rewrite spread_two. rewrite (rsum_zero (indices sh) (fun j => _ * d 1%nat j)) by (intros j _; rewrite (HFz 1%nat j eq_refl); ring).
    apply (is_derive_fext (fun s => ln (1 + exp (rget (arr_of (F s)) i)) - rget (arr_of (G s)) i * rget (arr_of (F s)) i)).
    + intros s. unfold run. rewrite HM. cbn [tcompute].
      rewrite (sigmoid_xent_run (arr_of (F s)) (arr_of (G s))) by (first [eapply hs_wf; eauto|rewrite (hs_sh _ _ (HSF s)), (hs_sh _ _ (HSG s)); reflexivity]).
      cbn [otA option_map arr_of]. unfold sxent. rewrite (hs_sh _ _ (HSF s)). rewrite aget_tab by exact Hi. reflexivity.
    + assert (DF := HDF i Hi). assert (DG := HDG i Hi). rewrite (HFz 1%nat i eq_refl) in DG.
      assert (EP : 0 < 1 + exp (rget x i)) by (pose proof (exp_pos (rget x i)); lra).
      assert (D1 : is_derive (fun s : R => ln (1 + exp (rget (arr_of (F s)) i))) 0 (exp (rget x i) / (1 + exp (rget x i)) * d 0%nat i)).
      { eapply is_derive_eq; [apply (is_derive_comp ln (fun s : R => 1 + exp (rget (arr_of (F s)) i)) 0 (/ (1 + exp (rget x i))) (0 + exp (rget x i) * d 0%nat i))|].
        - rewrite <- E0. apply is_derive_ln. exact EP.
        - apply (is_derive_plus (fun _ : R => 1) (fun s : R => exp (rget (arr_of (F s)) i))); [apply @is_derive_const|].
          pose proof (derive_exp_of _ _ DF) as Q. cbv beta in Q. rewrite <- E0 in Q. exact Q.
        - unfold scal; simpl. unfold mult; simpl. field. lra. }
      eapply is_derive_eq; [apply (is_derive_minus (fun s : R => ln (1 + exp (rget (arr_of (F s)) i))) (fun s : R => rget (arr_of (G s)) i * rget (arr_of (F s)) i) 0);
        [exact D1|apply (is_derive_mult (fun s : R => rget (arr_of (G s)) i) (fun s : R => rget (arr_of (F s)) i) 0); [exact DG|exact DF|intros; apply Rmult_comm]]|].
      match goal with |- minus ?a ?b = _ => change (minus a b) with (a - b) end. unfold plus, mult; simpl. rewrite <- E0, <- E1.
      rewrite (rsum_idx_ext sh _ (fun j => delta i j * (c0 i * d 0%nat j))) by (intros; ring).
      rewrite rsum_delta by exact Hi. unfold c0. field. lra.
Qed.

Lemma sparse_correct minv n c t x out : nonempty [n; c] = true -> labels_ok n c t = true -> has_shape [n; c] x ->
  exists K, correct (TSparseXent minv) [TyA [n; c]; TyI t] [TA x; TI t] [n; 1%nat] out K.
Proof.
  intros NE HL Hx. pose proof (hs_sh _ _ Hx) as EX. destruct (labels_ok_spec _ _ _ HL) as [Ht L]. pose proof (proj1 (nonempty_prod _) NE) as NP.
  assert (HS : has_shape [n; c] (lsmax 1 x)) by (unfold lsmax; rewrite EX; apply tab_has_shape).
  assert (H1 : (1 < length [n; c])%nat) by (simpl; lia). pose proof (dims_pos [n; c] 1 NP H1) as HP. simpl in HP.
  eexists. eapply (first_correct (TSparseXent minv) [n; c] [t] [n; 1%nat] x out
    (fun i j => delta [nth 0 j 0%nat; 0%nat] i * (rget (smax 1 x) j - one_hot (lab_of t (nth 0 j 0%nat)) (nth 1 j 0%nat)))).
  - reflexivity.
  - cbn [ety map nth_error]. unfold ety_op. cbn [op_ty]. rewrite NE, HL. cbn [andb is_leaf negb stored_in stored_ok op_ty]. rewrite NE, HL, Nat.eqb_refl. reflexivity.
  - intros gy Hg. cbn [eeval map nth_error tcompute]. rewrite (sparse_xent_run minv n c x (vecR t) (lab_of t) Hx Ht NP L). cbn [otA option_map snd tcompute].
    rewrite (sparse_grad_ok n c) by auto. cbn [otA option_map]. do 2 f_equal. apply tab_ext. intros j Hj.
    rewrite exp_lsmax by (rewrite EX; auto). pose proof Hj as Hj'. apply pair_bounds in Hj'. destruct Hj' as (r & q & -> & Hr & Hq). cbn [nth].
    rewrite (rsum_idx_ext _ _ (fun i => delta [r; 0%nat] i * ((rget (smax 1 x) [r; q] - one_hot (lab_of t r) q) * rget gy i))) by (intros; ring).
    rewrite rsum_delta; [reflexivity|]. repeat constructor; lia.
  - intros _ F d HSF F0 HDv i Hi. pose proof Hi as Hi'. apply pair_bounds in Hi'. destruct Hi' as (r & z & -> & Hr & Hz).
    assert (z = 0%nat) as -> by lia. destruct (L r Hr) as [_ HQ].
    assert (BR : forall q, (q < c)%nat -> in_bounds [n; c] [r; q]) by (intros; repeat constructor; assumption).
    apply (is_derive_fext (fun s => lse (F s) 1 [r; 0%nat] - rget (F s) [r; lab_of t r])).
    + intros s. unfold run. cbn [map tcompute]. rewrite (sparse_xent_run minv n c (F s) (vecR t) (lab_of t) (HSF s) Ht NP L). cbn [otA option_map fst arr_of].
      unfold xent_pick. rewrite aget_tab by exact Hi. cbn [nth]. unfold lsmax. rewrite (hs_sh _ _ (HSF s)). rewrite aget_tab by (apply BR; exact HQ).
      assert (E : lse (F s) 1 [r; lab_of t r] = lse (F s) 1 [r; 0%nat]).
      { reflexivity. }
      rewrite E. ring.
    + eapply is_derive_eq; [apply (is_derive_minus (fun s : R => lse (F s) 1 [r; 0%nat]) (fun s : R => rget (F s) [r; lab_of t r]) 0);
        [apply (lse_derive 1 [n; c] F d [r; 0%nat]); auto; intros l Hl; apply BR; exact Hl|apply HDv; apply BR; exact HQ]|].
      match goal with |- minus ?a ?b = _ => change (minus a b) with (a - b) end. rewrite F0. rewrite sum_matrix.
      rewrite (rsum_ext (seq 0 n) _ (fun i => (if (i =? r)%nat then 1 else 0) * rsum (seq 0 c) (fun q => (rget (smax 1 x) [i; q] - one_hot (lab_of t i) q) * d [i; q]))).
      * rewrite seq_delta by exact Hr. cbn [nth set_at].
        rewrite (rsum_ext (seq 0 c) (fun q => (_ - _) * _) (fun q => rget (smax 1 x) [r; q] * d [r; q] + -1 * ((if (q =? lab_of t r)%nat then 1 else 0) * d [r; q]))).
        -- rewrite rsum_add, rsum_scale, seq_delta by exact HQ. ring.
        -- intros q _. unfold one_hot. rewrite (if_eqb_sym (lab_of t r) q). ring.
      * intros i _. rewrite <- rsum_scale. apply rsum_ext. intros q _. cbn [nth]. destruct (Nat.eqb_spec i r) as [->|N].
        -- rewrite delta_eq. ring.
        -- rewrite delta_ne by congruence. ring.
Qed.
