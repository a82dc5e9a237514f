(** The rules of matrix products and softmax. *)
From Coq Require Import String List Arith ZArith Bool Lia Reals Lra.
From Coquelicot Require Import Coquelicot.
Import ListNotations.
From Verif Require Import Graph_Model Eval_Model Eval_Spec Eval_Proofs Graph_Proofs Grad_Model Grad_Spec
  Scalar_Model Scalar_Spec Scalar_Rules Scalar_Proofs.
From Verif Require Import Array_Model Array_Proofs Array_Sum Arith_Model Arith_Proofs Arith_Final Vjp_Spec Vjp_Proofs
  Reduce_Model Reduce_Spec Reduce_Proofs Shape_Model Shape_Spec Shape_Proofs3
  Dot_Model Dot_Proofs Softmax_Model Softmax_Spec Softmax_Proofs Softmax_Proofs2 Tens_Model Tens_Spec Tens_Fwd Tens_Build Tens_Rules Tens_Rules2 Tens_Rules3.
Local Set Bullet Behavior "Strict Subproofs".
Local Open Scope R_scope.
Local Open Scope R_scope.

(** ** Matrix products *)
Lemma seq_delta n k (f : nat -> R) : (k < n)%nat -> rsum (seq 0 n) (fun l => (if (l =? k)%nat then 1 else 0) * f l) = f k.
Proof.
  intros H. assert (G : forall m s, (s <= k < s + m)%nat -> rsum (seq s m) (fun l => (if (l =? k)%nat then 1 else 0) * f l) = f k).
  { induction m as [|m IH]; intros s Hs; [lia|]. cbn [seq]. rewrite rsum_cons. destruct (Nat.eqb_spec s k).
    - subst. rewrite rsum_zero; [ring|]. intros i Hi. apply in_seq in Hi. destruct (Nat.eqb_spec i k); [lia|ring].
    - rewrite IH by lia. ring. }
  apply G. lia.
Qed.
Definition mker0 (b : arr R) (i j : list nat) : R :=
  (if (nth 0 j 0 =? nth 0 i 0)%nat then 1 else 0) * rget b [nth 1 j 0%nat; nth 1 i 0%nat].
Definition mker1 (a : arr R) (i j : list nat) : R :=
  (if (nth 1 j 0 =? nth 1 i 0)%nat then 1 else 0) * rget a [nth 0 i 0%nat; nth 0 j 0%nat].
Lemma if_eqb_sym a b : (if (a =? b)%nat then 1 else 0) = (if (b =? a)%nat then 1 else 0).
Proof. rewrite Nat.eqb_sym. reflexivity. Qed.
Lemma matmul_correct m k n a b : has_shape [m; k] a -> has_shape [k; n] b ->
  exists K, correct (TMatMul false false) [TyA [m; k]; TyA [k; n]] [TA a; TA b] [m; n] (mat false false m k n a b) K.
Proof.
  intros Ha Hb. exists (two (mker0 b) (mker1 a)). apply mk_correct.
  - intros rs p e HR Hp. inv HR. destruct p as [|[|p]]; [| |destruct p; discriminate]; inv Hp; eexists; (split; [reflexivity|]).
    + split; [cbn [ety nth_error]; unfold ety_op; cbn [op_ty]; rewrite Nat.eqb_refl; reflexivity|]. intros gy Hg. cbn [eeval nth_error tcompute].
      rewrite (matmul_mat false true m n k) by (apply hs_sh; auto). cbn. do 2 f_equal. apply tab_eq; [apply mat_shape|].
      intros j Hj. destruct (pair_bounds _ _ _ Hj) as (r & c & -> & Hr & Hc). rewrite mat_get by auto.
      rewrite sum_below_rsum, sum_matrix. unfold mker0; cbn [nth].
      rewrite (rsum_ext (seq 0 m) _ (fun i => (if (i =? r)%nat then 1 else 0) * rsum (seq 0 n) (fun l => rget b [c; l] * rget gy [i; l]))).
      * rewrite seq_delta by exact Hr. apply rsum_ext. intros l _. unfold mget. ring.
      * intros i _. rewrite <- rsum_scale. apply rsum_ext. intros l _. rewrite if_eqb_sym. ring.
    + split; [cbn [ety nth_error]; unfold ety_op; cbn [op_ty]; rewrite Nat.eqb_refl; reflexivity|]. intros gy Hg. cbn [eeval nth_error tcompute].
      rewrite (matmul_mat true false k m n) by (apply hs_sh; auto). cbn. do 2 f_equal. apply tab_eq; [apply mat_shape|].
      intros j Hj. destruct (pair_bounds _ _ _ Hj) as (r & c & -> & Hr & Hc). rewrite mat_get by auto.
      rewrite sum_below_rsum, sum_matrix. unfold mker1; cbn [nth]. apply rsum_ext. intros l _.
      rewrite (rsum_ext _ _ (fun i => (if (i =? c)%nat then 1 else 0) * (rget a [l; r] * rget gy [l; i]))) by (intros i _; rewrite if_eqb_sym; ring).
      rewrite seq_delta by exact Hc. unfold mget. ring.
  - intros rs p i j HR Hp. inv HR. destruct p as [|[|p]]; [exfalso; eapply Hp; reflexivity|exfalso; eapply Hp; reflexivity|reflexivity].
  - intros HDom Fs d HC HV i Hi. apply curve_two in HC. destruct HC as (F & G & HM & S0 & S1 & D0 & D1).
    pose proof (HM 0) as HM0. rewrite HV in HM0. injection HM0 as EX EY.
    destruct (pair_bounds _ _ _ Hi) as (r & c & -> & Hr & Hc).
    apply (is_derive_fext (fun t => rsum (seq 0 k) (fun l => rget (arr_of (F t)) [r; l] * rget (arr_of (G t)) [l; c]))).
    + intros t. unfold run. rewrite HM. cbn [tcompute]. rewrite (matmul_mat false false m k n) by (apply hs_sh; auto). cbn [Dot_Model.ok otA option_map arr_of].
      rewrite mat_get by auto. rewrite sum_below_rsum. reflexivity.
    + eapply is_derive_eq.
      * apply is_derive_rsum with (d := fun l => d 0%nat [r; l] * rget b [l; c] + rget a [r; l] * d 1%nat [l; c]). intros l Hl. apply in_seq in Hl.
        eapply is_derive_eq; [apply (is_derive_mult (fun t : R => rget (arr_of (F t)) [r; l]) (fun t : R => rget (arr_of (G t)) [l; c]) 0 (d 0%nat [r; l]) (d 1%nat [l; c]))|].
        -- apply D0. apply in_bounds_pair. lia.
        -- apply D1. apply in_bounds_pair. lia.
        -- intros; apply Rmult_comm.
        -- rewrite <- EX, <- EY. reflexivity.
      * rewrite spread_two, rsum_add. f_equal.
        -- rewrite sum_matrix. unfold mker0; cbn [nth].
           rewrite (rsum_ext (seq 0 m) _ (fun i => (if (i =? r)%nat then 1 else 0) * rsum (seq 0 k) (fun l => rget b [l; c] * d 0%nat [i; l])))
             by (intros i _; rewrite <- rsum_scale; apply rsum_ext; intros l _; ring).
           rewrite seq_delta by exact Hr. apply rsum_ext. intros; ring.
        -- rewrite sum_matrix. unfold mker1; cbn [nth]. apply rsum_ext. intros l _.
           rewrite (rsum_ext _ _ (fun i => (if (i =? c)%nat then 1 else 0) * (rget a [r; l] * d 1%nat [l; i]))) by (intros i _; ring).
           rewrite seq_delta by exact Hc. reflexivity.
Qed.

(** ** Softmax *)
(** 1 where [j] lies on the line through [i] along axis [k]. *)
Definition online (k : nat) (sh i j : list nat) : R := rsum (seq 0 (nth k sh 0%nat)) (fun l => delta (set_at k l i) j).
Lemma online_row k sh i f : in_bounds sh i ->
  rsum (indices sh) (fun j => online k sh i j * f j) = rsum (seq 0 (nth k sh 0%nat)) (fun l => f (set_at k l i)).
Proof.
  intros Hi. unfold online.
  rewrite (rsum_idx_ext sh _ (fun j => rsum (seq 0 (nth k sh 0%nat)) (fun l => delta (set_at k l i) j * f j))) by (intros; rewrite rsum_scale_r; reflexivity).
  rewrite rsum_swap. apply rsum_ext. intros l Hl. apply in_seq in Hl. apply rsum_delta. apply set_in; [exact Hi|lia].
Qed.
Lemma online_col k sh j f : (k < length sh)%nat -> in_bounds sh j ->
  rsum (indices sh) (fun i => online k sh i j * f i) = rsum (seq 0 (nth k sh 0%nat)) (fun l => f (set_at k l j)).
Proof.
  intros Hk Hj. unfold online.
  rewrite (rsum_idx_ext sh _ (fun i => rsum (seq 0 (nth k sh 0%nat)) (fun l => delta (set_at k l i) j * f i))) by (intros; rewrite rsum_scale_r; reflexivity).
  rewrite (line_swap k sh (fun i i' => delta i' j * f i) Hk).
  rewrite (rsum_idx_ext sh _ (fun i => delta i j * rsum (seq 0 (nth k sh 0%nat)) (fun l => f (set_at k l i)))) by (intros; rewrite rsum_scale; reflexivity).
  apply rsum_delta_r. exact Hj.
Qed.
Lemma axes_one n axis k : axis_of n axis = Some k -> axes_of n [axis] = Some [k].
Proof.
  intros H. pose proof (axis_of_ok _ _ _ H) as N. unfold axes_of.
  rewrite (normalize_names n [axis] [k]) by (constructor; [exact N|constructor]). simpl.
  destruct N as [N _]. apply Nat.ltb_lt in N. rewrite N. reflexivity.
Qed.
Lemma reduced_one k sh : reduced_shape true [k] sh = set_at k 1%nat sh.
Proof.
  unfold reduced_shape. rewrite fill_set. apply (reduced_nil true).
Qed.
Lemma reduces_set k sh : nonempty sh = true -> reduces_to (set_at k 1%nat sh) sh = true.
Proof.
  intros N. unfold reduces_to. rewrite N, can_broadcast_set. rewrite set_length, Nat.eqb_refl. reflexivity.
Qed.
Definition sker (k : nat) (x : arr R) (i j : list nat) : R :=
  rget (smax k x) i * (delta i j - online k (a_shape x) i j * rget (smax k x) j).
Lemma softmax_correct minv axis k sh x : axis_of (length sh) axis = Some k -> nonempty sh = true -> has_shape sh x ->
  exists K, correct (TSoftmax minv axis) [TyA sh] [TA x] sh (smax k x) K.
Proof.
  intros HA NE Hx. pose proof (hs_sh _ _ Hx) as EX. pose proof (axis_of_ok _ _ _ HA) as NA. pose proof (proj1 NA) as Hk.
  assert (NZ : sh <> [0%nat]) by (intros ->; discriminate).
  assert (HS : has_shape sh (smax k x)) by (unfold smax; rewrite EX; apply tab_has_shape).
  exists (first_only (sker k x)). apply mk_correct.
  - intros rs p e HR Hp. inv HR. destruct p as [|p]; [|destruct p; discriminate]. inv Hp. exists (a_shape x). split; [reflexivity|].
    set (sh := a_shape x) in *. assert (Hx' : has_shape sh x) by exact Hx.
    assert (BM : bin_ty Mul sh sh = Some sh) by (apply arith_same; exact NE).
    assert (BS : bin_ty Sub sh (set_at k 1%nat sh) = Some sh) by (apply arith_self; apply reduces_set; exact NE).
    split.
    + cbn [ety nth_error op_ty]. rewrite BM. cbn [otyA option_map]. unfold ety_op. cbn [op_ty]. rewrite (shape_eqb_ne _ _ NZ).
      rewrite (axes_one _ _ _ HA). cbn [option_map is_leaf negb andb stored_in stored_ok]. rewrite reduced_one. cbn [nth_error op_ty]. rewrite BS. cbn [otyA option_map op_ty].
      rewrite BM. reflexivity.
    + intros gy Hg. cbn [eeval nth_error tcompute]. rewrite (bin_arr_ok Mul _ _ sh sh sh) by auto. cbn [otA option_map tcompute].
      pose proof (zip_tab_shape Mul sh sh sh (smax k x) gy) as HZ. set (z := zip_tab Mul sh sh sh (smax k x) gy) in *.
      pose proof (hs_sh _ _ HZ) as EZ.
      destruct (reduce_line axis z k) as (s & R1 & R2 & R3 & R4); [rewrite EZ; exact NZ|rewrite EZ; exact NA|]. rewrite R1. cbn [otA option_map nth_error tcompute].
      rewrite EZ in R2, R4. rewrite (bin_arr_ok Sub gy s sh (set_at k 1%nat sh) sh) by (auto; apply has_shape_intro; auto).
      cbn [otA option_map tcompute]. rewrite (bin_arr_ok Mul _ _ sh sh sh) by (auto using zip_tab_shape). cbn [otA option_map]. do 2 f_equal.
      apply tab_eq; [apply zip_tab_shape|]. intros j Hj. unfold zip_tab at 1. rewrite aget_tab by exact Hj. rewrite !(bc_idx_self sh) by exact Hj.
      unfold zip_tab at 1. rewrite aget_tab by exact Hj. rewrite (bc_idx_self sh) by exact Hj. rewrite bc_idx_set by exact Hj. rewrite R4 by exact Hj. cbn [bin first_only].
      unfold sker. fold sh.
      rewrite (rsum_idx_ext sh _ (fun i => delta i j * (rget (smax k x) i * rget gy i) + - rget (smax k x) j * (online k sh i j * (rget (smax k x) i * rget gy i)))) by (intros; ring).
      rewrite rsum_add, rsum_scale. rewrite rsum_delta_r by exact Hj. rewrite online_col by auto.
      assert (EQ : forall l, In l (seq 0 (nth k sh 0%nat)) -> rget z (set_at k l j) = rget (smax k x) (set_at k l j) * rget gy (set_at k l j)).
      { intros l Hl. apply in_seq in Hl. unfold z, zip_tab. rewrite aget_tab by (apply set_in; [exact Hj|lia]). rewrite !bc_idx_self by (apply set_in; [exact Hj|lia]). reflexivity. }
      rewrite (rsum_ext _ _ _ EQ). ring.
  - intros rs p i j HR Hp. inv HR. destruct p as [|p]; [exfalso; eapply Hp; reflexivity|reflexivity].
  - intros _ Fs d HC HV i Hi. apply (curve_first sh []) in HC. destruct HC as (F & HM & HSF & HDv).
    change [TyA sh] with (TyA sh :: map TyI []). rewrite spread_first. pose proof (HM 0) as HM0. rewrite HV in HM0. simpl in HM0. injection HM0 as E0.
    set (n := nth k sh 0%nat). set (S := fun t : R => rsum (seq 0 n) (fun l => exp (rget (arr_of (F t)) (set_at k l i)))).
    apply (is_derive_fext (fun t => exp (rget (arr_of (F t)) i) / S t)).
    + intros t. unfold run. rewrite HM. cbn [map tcompute].
      rewrite (softmax_smax minv axis (arr_of (F t)) k) by (first [eapply hs_wf; eauto|rewrite (hs_sh _ _ (HSF t)); exact NA]). cbn [otA option_map arr_of].
      unfold smax. rewrite (hs_sh _ _ (HSF t)). rewrite aget_tab by exact Hi. rewrite line_sum_rsum, (hs_sh _ _ (HSF t)). reflexivity.
    + assert (DS : is_derive S 0 (rsum (seq 0 n) (fun l => exp (rget x (set_at k l i)) * d 0%nat (set_at k l i)))).
      { apply is_derive_rsum with (f := fun l t => exp (rget (arr_of (F t)) (set_at k l i))) (d := fun l => exp (rget x (set_at k l i)) * d 0%nat (set_at k l i)).
        intros l Hl. apply in_seq in Hl. eapply is_derive_eq.
        - apply (is_derive_comp exp (fun t : R => rget (arr_of (F t)) (set_at k l i)) 0 (exp (rget x (set_at k l i))) (d 0%nat (set_at k l i))); [rewrite <- E0; apply is_derive_exp|].
          apply HDv. apply set_in; [exact Hi|unfold n in Hl; lia].
        - unfold scal; simpl. unfold mult; simpl. ring. }
      assert (DE : is_derive (fun t : R => exp (rget (arr_of (F t)) i)) 0 (exp (rget x i) * d 0%nat i)).
      { eapply is_derive_eq; [apply (is_derive_comp exp (fun t : R => rget (arr_of (F t)) i) 0 (exp (rget x i)) (d 0%nat i)); [rewrite <- E0; apply is_derive_exp|apply HDv; exact Hi]|].
        unfold scal; simpl. unfold mult; simpl. ring. }
      assert (S0 : S 0 = line_sum k x exp i) by (unfold S; rewrite line_sum_rsum, EX, <- E0; reflexivity).
      assert (SP : 0 < S 0) by (rewrite S0; apply line_pos; rewrite EX; auto).
      eapply is_derive_eq; [apply (is_derive_div (fun t : R => exp (rget (arr_of (F t)) i)) S 0); [exact DE|exact DS|lra]|].
      cbv beta. rewrite <- E0. unfold sker. rewrite EX.
      rewrite (rsum_idx_ext sh _ (fun j => delta i j * (rget (smax k x) i * d 0%nat j) + - rget (smax k x) i * (online k sh i j * (rget (smax k x) j * d 0%nat j)))) by (intros; ring).
      rewrite rsum_add, rsum_scale. rewrite rsum_delta by exact Hi. rewrite online_row by exact Hi.
      assert (EQ : forall l, In l (seq 0 n) -> rget (smax k x) (set_at k l i) * d 0%nat (set_at k l i) = / S 0 * (exp (rget x (set_at k l i)) * d 0%nat (set_at k l i))).
      { intros l Hl. apply in_seq in Hl. unfold smax. rewrite EX. rewrite aget_tab by (apply set_in; [exact Hi|unfold n in Hl; lia]).
        rewrite line_sum_same, <- S0. field. lra. }
      fold n. rewrite (rsum_ext _ _ _ EQ), rsum_scale. unfold smax. rewrite EX. rewrite aget_tab by exact Hi. rewrite <- S0. field. lra.
Qed.

