(** The rules of means, products, extremes, element access, axis insertion and
    cross entropies. *)
From Coq Require Import String List Arith ZArith NArith Bool Lia Reals Lra Sorted.
From Coquelicot Require Import Coquelicot.
Import ListNotations.
From Verif Require Import Graph_Model Eval_Model Eval_Spec Eval_Proofs Graph_Proofs Grad_Model Grad_Spec
  Scalar_Model Scalar_Spec Scalar_Rules Scalar_Proofs.
From Verif Require Import Array_Model Array_Proofs Array_Sum Arith_Model Arith_Proofs Arith_Final Vjp_Spec Vjp_Proofs
  Reduce_Model Reduce_Spec Reduce_Proofs Mean_Model Shape_Model Shape_Spec Shape_Proofs3
  Dot_Model Dot_Proofs Softmax_Model Softmax_Spec Softmax_Proofs Softmax_Proofs2 Softmax_Proofs3 Softmax_Xent
  Tens_Model Tens_Spec Tens_Fwd Tens_Fwd2 Tens_Build Tens_Rules Tens_Rules2 Tens_Rules3 Tens_Rules4.
Local Set Bullet Behavior "Strict Subproofs".
Local Open Scope R_scope.

(** Operations of one array. *)
Lemma first_correct o s0 rest sh a out k e :
  trule o (S (length rest)) = Some (Some e :: repeat None (length rest)) ->
  ety (TyA s0 :: map TyI rest) (TyA sh) (TyA sh) [] e = Some (TyA s0) ->
  (forall gy, has_shape sh gy -> eeval (TA a :: map TI rest) (TA out) (TA gy) [] e = Some (TA (applied s0 sh k gy))) ->
  (t_dom o (TA a :: map TI rest) -> forall (F : R -> arr R) d, (forall t, has_shape s0 (F t)) -> F 0 = a ->
    (forall j, in_bounds s0 j -> is_derive (fun t : R => rget (F t) j) 0 (d j)) ->
    forall i, in_bounds sh i -> is_derive (fun t : R => rget (run o (TA (F t) :: map TI rest)) i) 0 (rsum (indices s0) (fun j => k i j * d j))) ->
  correct o (TyA s0 :: map TyI rest) (TA a :: map TI rest) sh out (first_only k).
Proof.
  intros HR HT HE HD.
  assert (HR' : trule o (length (TyA s0 :: map TyI rest)) = Some (Some e :: repeat None (length rest)))
    by (simpl; rewrite map_length; exact HR).
  apply mk_correct.
  - intros rs p e' H1 H2. rewrite HR' in H1. injection H1 as <-. apply nth_first_rule in H2. destruct H2 as [-> ->].
    exists s0. split; [reflexivity|]. split; [exact HT|]. exact HE.
  - intros rs p i j H1 H2. rewrite HR' in H1. injection H1 as <-. destruct p as [|p]; [|reflexivity]. exfalso. apply (H2 e). reflexivity.
  - intros DM Fs d HC HV i Hi. apply curve_first in HC. destruct HC as (F & HM & HS & HDv). rewrite spread_first.
    apply (is_derive_fext (fun t => rget (run o (TA (arr_of (F t)) :: map TI rest)) i)); [intros t; rewrite HM; reflexivity|].
    apply (HD DM (fun t => arr_of (F t)) (d 0%nat)); auto.
    specialize (HM 0). rewrite HV in HM. injection HM as HM. symmetry. exact HM.
Qed.

(** ** Means *)
Lemma div_nil sh : nonempty sh = true -> bin_ty Div sh [] = Some sh.
Proof. intros NE. unfold bin_ty. change (shape_eqb [] [1%nat]) with false. apply arith_self. apply reduces_nil. exact NE. Qed.
Lemma dims_map ax sh : map (fun k => Z.of_nat (nth k sh 0%nat)) ax = map (fun k => Z.of_nat k) (map (fun k => nth k sh 0%nat) ax).
Proof. rewrite map_map. reflexivity. Qed.
Lemma mean_divisor sh axes ax : axes_of (length sh) axes = Some ax -> ax <> [] ->
  (exists l, l <> [] /\ op_ty TGatherI [TyI axes; TyI (shape_vec sh)] = Some (TyI l) /\
    tcompute TGatherI [TI axes; TI (shape_vec sh)] = Some (TI l) /\
    op_ty TProdI [TyI l; TyI [0%Z]] = Some (TyA []) /\
    tcompute TProdI [TI l; TI [0%Z]] = Some (TA (Arr [] [INR (group_size ax sh)]))).
Proof.
  intros HA Hne. pose proof (gather_dims sh axes ax HA Hne) as G. cbn [op_ty tcompute].
  destruct (gather 0%Z true 0 (vecZ axes) (vecZ (shape_vec sh))) as [a|]; [|discriminate]. cbn [option_map] in G |- *. injection G as G.
  exists (a_data a). assert (NZ : a_data a <> []) by (rewrite G; destruct ax; [congruence|discriminate]).
  split; [exact NZ|]. do 2 (split; [reflexivity|]). split; [destruct (a_data a); [congruence|reflexivity]|].
  pose proof (prod_ints _ NZ) as Q. destruct (reduce 0%Z Z.mul 1%Z [0%Z] false false (vecZ (a_data a))) as [b|]; [|discriminate].
  cbn [option_map] in Q |- *. injection Q as Q1 Q2. unfold amap. rewrite Q1. rewrite Q2.
  fold (fold_left Z.mul (a_data a) 1%Z). do 4 f_equal. rewrite G, dims_map. unfold group_size.
  exact (prod_of_dims (map (fun k => nth k sh 0%nat) ax)).
Qed.
Lemma reduced_nonempty keep axes ax sh : axes_of (length sh) axes = Some ax -> nonempty sh = true -> nonempty (reduced_shape keep ax sh) = true.
Proof.
  intros HA NE. apply nonempty_prod. apply nonempty_prod in NE. intros E.
  pose proof (indices_ravel sh 0%nat) as [B _]; [lia|]. apply (reduced_bounds keep axes ax) in B; [|exact HA]. apply ravel_lt in B. lia.
Qed.
Lemma mean_correct keep axes ax sh a out : nonempty sh = true -> axes_of (length sh) axes = Some ax ->
  (N.of_nat (group_size ax sh) <= 2 ^ 24)%N -> ax <> [] -> has_shape sh a ->
  exists K, correct (TReduceMean keep) [TyA sh; TyI axes] [TA a; TI axes] (reduced_shape keep ax sh) out K.
Proof.
  intros NE HA HB Hne Ha. assert (NZ : sh <> [0%nat]) by (intros ->; discriminate).
  destruct (mean_divisor sh axes ax HA Hne) as (l & Hl & G1 & G2 & P1 & P2).
  eexists. eapply (lin_correct (TReduceMean keep) sh [axes] _ a out (fun i j => delta (reduced_index keep ax j) i / INR (group_size ax sh))).
  - intros a' Ha'. cbn [map tcompute]. rewrite (reduce_mean_ok keep axes ax sh); auto.
  - reflexivity.
  - cbn [ety map nth_error]. unfold ety_op at 1. cbn [op_ty]. rewrite dims_shape_vec, (shape_eqb_ne _ _ NZ), HA, negb_involutive, shape_eqb_refl.
    cbn [is_leaf negb andb stored_in stored_ok]. unfold ety_op. rewrite G1. cbn [is_leaf negb andb stored_in stored_ok]. rewrite P1.
    cbn [is_leaf negb andb stored_in stored_ok op_ty]. rewrite div_nil by exact NE. reflexivity.
  - intros gy Hg. cbn [eeval map nth_error]. rewrite (hs_sh _ _ Ha). cbn [tcompute]. rewrite dims_shape_vec.
    rewrite (reduce_grad_pull keep axes ax sh) by auto. cbn [otA option_map].
    cbn [tcompute] in G2, P2. rewrite G2. rewrite P2. cbn [tcompute].
    rewrite (bin_arr_ok Div _ _ sh [] sh) by (auto using div_nil). cbn [otA option_map]. do 2 f_equal.
    apply tab_eq; [apply zip_tab_shape|]. intros j Hj. unfold zip_tab. rewrite aget_tab by exact Hj. rewrite (bc_idx_self sh) by exact Hj.
    unfold pullr. rewrite aget_tab by exact Hj. cbn [bin].
    rewrite (rsum_idx_ext _ _ (fun i => delta (reduced_index keep ax j) i * (rget gy i / INR (group_size ax sh)))) by (intros; unfold Rdiv; ring).
    rewrite rsum_delta by (eapply reduced_bounds; eauto). f_equal.
Qed.

(** ** Products *)
Lemma is_derive_prodl {I} (l : list I) (f : I -> R -> R) (d : I -> R) :
  (forall j, In j l -> f j 0 <> 0 /\ is_derive (f j) 0 (d j)) ->
  is_derive (fun t : R => fold_right Rmult 1 (map (fun j => f j t) l)) 0
    (rsum l (fun j => fold_right Rmult 1 (map (fun j => f j 0) l) / f j 0 * d j)).
Proof.
  induction l as [|a l IH]; intros H.
  - apply (is_derive_const (V := R_NormedModule) 1).
  - destruct (H a (or_introl eq_refl)) as [Ha Da]. assert (IH' := IH (fun j Hj => H j (or_intror Hj))). cbn [map fold_right].
    set (P := fun t : R => fold_right Rmult 1 (map (fun j => f j t) l)) in *.
    eapply is_derive_eq; [apply (is_derive_mult (f a) P 0); [exact Da|exact IH'|intros; apply Rmult_comm]|].
    rewrite rsum_cons. unfold plus, mult; cbn -[P rsum sumf]. fold (P 0). f_equal; [field; exact Ha|].
    rewrite <- rsum_scale. apply rsum_ext. intros j Hj. destruct (H j (or_intror Hj)) as [Hj' _]. field. exact Hj'.
Qed.
Lemma rsum_fibre keep ax sh i (f : list nat -> R) :
  rsum (fibre keep ax sh i) f = rsum (indices sh) (fun j => delta (reduced_index keep ax j) i * f j).
Proof. apply rsum_push. Qed.
Lemma rget_nonzero sh (x : arr R) j : has_shape sh x -> List.Forall (fun a => a <> 0) (a_data x) -> in_bounds sh j -> rget x j <> 0.
Proof. intros Hx HF Hj. rewrite Forall_forall in HF. apply HF. eapply rget_in; eauto. Qed.
Lemma prod_correct keep axes ax sh a : nonempty sh = true -> sh <> [1%nat] -> axes_of (length sh) axes = Some ax ->
  ax <> [] -> has_shape sh a ->
  exists K, correct (TReduceProd keep) [TyA sh; TyI axes] [TA a; TI axes] (reduced_shape keep ax sh) (folded Rmult 1 keep ax sh a) K.
Proof.
  intros NE N1 HA Hne Ha. assert (NZ : sh <> [0%nat]) by (intros ->; discriminate).
  set (r := reduced_shape keep ax sh). assert (NR : nonempty r = true) by (eapply reduced_nonempty; eauto).
  set (out := folded Rmult 1 keep ax sh a). assert (HO : has_shape r out) by apply tab_has_shape.
  assert (BD : bin_ty Div sh sh = Some sh) by (unfold bin_ty; rewrite (shape_eqb_ne _ _ N1); apply arith_same; exact NE).
  assert (BM : bin_ty Mul r r = Some r) by (apply arith_same; exact NR).
  eexists. eapply (first_correct (TReduceProd keep) sh [axes] r a out (fun i j => delta (reduced_index keep ax j) i * (rget out i / rget a j))).
  - reflexivity.
  - cbn [ety map nth_error op_ty]. rewrite BM. cbn [otyA option_map]. unfold ety_op at 1. cbn [op_ty].
    rewrite dims_shape_vec, (shape_eqb_ne _ _ NZ), HA, negb_involutive. fold r. rewrite shape_eqb_refl.
    cbn [is_leaf negb andb stored_in stored_ok]. rewrite BD. reflexivity.
  - intros gy Hg. cbn [eeval map nth_error]. rewrite (hs_sh _ _ Ha). cbn [tcompute]. rewrite dims_shape_vec.
    rewrite (bin_arr_ok Mul _ _ r r r) by auto. cbn [otA option_map tcompute].
    rewrite (reduce_grad_pull keep axes ax sh) by (auto; apply zip_tab_shape). cbn [otA option_map tcompute].
    rewrite (bin_arr_ok Div _ _ sh sh sh) by auto. cbn [otA option_map]. do 2 f_equal.
    apply tab_eq; [apply zip_tab_shape|]. intros j Hj. unfold zip_tab at 1. rewrite aget_tab by exact Hj. rewrite !(bc_idx_self sh) by exact Hj.
    unfold pullr. rewrite aget_tab by exact Hj. pose proof (reduced_bounds keep axes ax sh j HA Hj) as Hr. fold r in Hr. unfold zip_tab. rewrite aget_tab by exact Hr.
    rewrite !(bc_idx_self r) by exact Hr. cbn [bin].
    rewrite (rsum_idx_ext _ _ (fun i => delta (reduced_index keep ax j) i * (rget out i / rget a j * rget gy i))) by (intros; ring).
    rewrite rsum_delta by exact Hr. unfold Rdiv. ring.
  - intros DM F d HS F0 HDv i Hi. cbn [t_dom] in DM.
    apply (is_derive_fext (fun t => fold_right Rmult 1 (map (fun j => rget (F t) j) (fibre keep ax sh i)))).
    + intros t. unfold run. cbn [map tcompute]. rewrite (reduce_folded Rmult 1 mul_assoc mul_comm mul_one keep axes ax sh) by auto.
      cbn [otA option_map arr_of]. unfold folded. rewrite aget_tab by exact Hi. reflexivity.
    + eapply is_derive_eq; [apply (is_derive_prodl (fibre keep ax sh i) (fun j t => rget (F t) j) d)|].
      * intros j Hj. apply in_fibre in Hj. destruct Hj as [Hj _]. split; [rewrite F0; eapply rget_nonzero; eauto|apply HDv; exact Hj].
      * cbv beta. rewrite F0, rsum_fibre. apply rsum_idx_ext. intros j Hj. unfold out, folded. rewrite aget_tab by exact Hi.
        change (map (fun j => rget a j) (fibre keep ax sh i)) with (map (rget a) (fibre keep ax sh i)). ring.
Qed.

(** ** Extremes *)
Lemma locally_forall {I} (l : list I) (P : I -> R -> Prop) (t0 : R) : (forall i, In i l -> locally t0 (P i)) -> locally t0 (fun t => forall i, In i l -> P i t).
Proof.
  induction l as [|a l IH]; intros H.
  - apply filter_forall. intros t i [].
  - eapply filter_imp; [|apply filter_and; [apply (H a); left; reflexivity|apply IH; intros; apply H; right; assumption]].
    intros t [Ha Hl] i [->|Hi]; auto.
Qed.
Lemma derive_locally_pos (f : R -> R) d : is_derive f 0 d -> 0 < f 0 -> locally 0 (fun t => 0 < f t).
Proof.
  intros H Hp. assert (C : continuous f 0) by (apply (ex_derive_continuous (V := R_NormedModule)); exists d; exact H).
  apply C. apply (open_gt 0 (f 0) Hp).
Qed.
Lemma fold_max_single l : forall m b, m <= b -> (forall a, In a l -> a <= b) -> In b l \/ m = b -> fold_right Rmax m l = b.
Proof.
  induction l as [|a l IH]; intros m b Hm Hl [Hin|E].
  - destruct Hin.
  - exact E.
  - simpl. destruct Hin as [->|Hin].
    + apply Rmax_left. assert (forall l', (forall a, In a l' -> a <= b) -> fold_right Rmax m l' <= b) as G.
      { induction l' as [|c l' IH']; intros H; simpl; [exact Hm|]. apply Rmax_lub; [apply H; left; reflexivity|apply IH'; intros; apply H; right; assumption]. }
      apply G. intros; apply Hl; right; assumption.
    + rewrite (IH m b); auto; [|intros; apply Hl; right; assumption]. apply Rmax_right. apply Hl. left. reflexivity.
  - simpl. rewrite (IH m b); auto; [|intros; apply Hl; right; assumption]. apply Rmax_right. apply Hl. left. reflexivity.
Qed.
Lemma fold_min_single l m b : b <= m -> (forall a, In a l -> b <= a) -> In b l -> fold_right Rmin m l = b.
Proof.
  intros Hm Hl Hin.
  assert (E : forall l, fold_right Rmin m l = - fold_right Rmax (- m) (map Ropp l)).
  { induction l0 as [|a l0 IH]; simpl; [ring|]. rewrite IH. rewrite Ropp_Rmax. rewrite Ropp_involutive. reflexivity. }
  rewrite E. rewrite (fold_max_single _ (- m) (- b)); [ring|lra| |left; apply in_map; exact Hin].
  intros a Ha. apply in_map_iff in Ha. destruct Ha as (c & <- & Hc). specialize (Hl c Hc). lra.
Qed.
Lemma fold_ext_single (mx : bool) l m b : (beyond mx b m \/ m = b) -> (forall a, In a l -> beyond mx b a \/ a = b) -> In b l ->
  fold_right (if mx then Rmax else Rmin) m l = b.
Proof.
  destruct mx; simpl; intros Hm Hl Hin.
  - apply fold_max_single; auto.
  - apply fold_min_single; auto; [lra|]. intros a Ha. specialize (Hl a Ha). lra.
Qed.
Lemma beyond_sign (mx : bool) a b : beyond mx a b <-> 0 < (if mx then 1 else -1) * (a - b).
Proof. destruct mx; simpl; lra. Qed.
Lemma reduced_onto_desc d : forall n, StronglySorted (fun a b => (b < a)%nat) d -> List.Forall (fun k => (k < n)%nat) d -> forall sh i, length sh = n ->
  prod sh <> 0%nat -> in_bounds (drop_axes d sh) i -> exists j, in_bounds sh j /\ drop_axes d j = i.
Proof.
  apply (desc_induction (fun d n => forall sh i, length sh = n -> prod sh <> 0%nat -> in_bounds (drop_axes d sh) i -> exists j, in_bounds sh j /\ drop_axes d j = i)).
  - intros n sh i L P Hi. rewrite drop_nil in Hi. exists i. split; [exact Hi|apply drop_nil].
  - intros k d' n Hk HL IH sh i L P Hi. rewrite drop_cons in Hi by (auto; lia).
    assert (PR : prod (remove_at k sh) <> 0%nat).
    { intros E. apply P. rewrite <- (insert_remove_nth k 0%nat sh) by lia. rewrite prod_insert, E. lia. }
    destruct (IH (remove_at k sh) i) as (j & Hj & Ej); [rewrite remove_length by lia; lia|exact PR|exact Hi|].
    exists (insert_at k 0%nat j). split.
    { rewrite <- (insert_remove_nth k 0%nat sh) by lia. apply in_bounds_insert; [rewrite remove_length; lia|]. split; [apply dims_pos; [exact P|lia]|exact Hj]. }
    rewrite drop_cons.
    + rewrite insert_remove; [exact Ej|]. rewrite (in_bounds_length _ _ Hj), remove_length; lia.
    + rewrite insert_length. rewrite (in_bounds_length _ _ Hj), remove_length; lia.
    + exact HL.
Qed.
Lemma in_bounds_intro sh : forall i, length i = length sh -> (forall k, (k < length sh)%nat -> (nth k i 0 < nth k sh 0)%nat) -> in_bounds sh i.
Proof.
  induction sh as [|d sh IH]; intros [|a i] L H; try discriminate; [constructor|]. simpl in L. constructor; [apply (H 0%nat); simpl; lia|].
  apply IH; [lia|]. intros k Hk. apply (H (S k)). simpl. lia.
Qed.
Lemma reduced_onto keep axes ax sh i : axes_of (length sh) axes = Some ax -> nonempty sh = true -> in_bounds (reduced_shape keep ax sh) i ->
  exists j, in_bounds sh j /\ reduced_index keep ax j = i.
Proof.
  intros HA NE Hi. apply nonempty_prod in NE. pose proof (axes_bound _ _ _ HA) as (Fa & _ & ND). destruct keep.
  - simpl in *. exists i. assert (L : length i = length sh) by (rewrite (in_bounds_length _ _ Hi); apply fill_length).
    assert (Q : forall k, (k < length sh)%nat -> (nth k i 0 < if memb k ax then 1 else nth k sh 0)%nat).
    { intros k Hk. pose proof (in_bounds_nth _ _ k Hi) as B. rewrite fill_length in B. specialize (B Hk). rewrite fill_nth in B by exact Hk. exact B. }
    split.
    + apply in_bounds_intro; [exact L|]. intros k Hk. specialize (Q k Hk). destruct (memb k ax); [|exact Q]. pose proof (dims_pos sh k NE Hk). lia.
    + apply nth_ext with 0%nat 0%nat; [apply fill_length|]. rewrite fill_length. intros k Hk. rewrite fill_nth by exact Hk.
      rewrite L in Hk. specialize (Q k Hk). destruct (memb k ax); [lia|reflexivity].
  - simpl in *. destruct (desc_sort ax ND) as [SS PM]. rewrite (drop_perm _ _ sh PM) in Hi.
    destruct (reduced_onto_desc _ (length sh) SS) with (sh := sh) (i := i) as (j & Hj & Ej); auto.
    + eapply Permutation.Permutation_Forall; eauto.
    + exists j. split; [exact Hj|]. rewrite (drop_perm _ _ j PM). exact Ej.
Qed.
Lemma equal_ne sh : nonempty sh = true -> bin_ty Equal sh sh = Some sh.
Proof. intros NE. unfold bin_ty. pose proof (cmp_fsh sh NE true true) as Q. exact Q. Qed.
Lemma ext_correct mx init keep axes ax sh a : nonempty sh = true -> axes_of (length sh) axes = Some ax -> ax <> [] -> has_shape sh a ->
  exists K, correct (TReduceExt mx init keep) [TyA sh; TyI axes] [TA a; TI axes] (reduced_shape keep ax sh)
    (folded (if mx then Rmax else Rmin) init keep ax sh a) K.
Proof.
  intros NE HA Hne Ha. assert (NZ : sh <> [0%nat]) by (intros ->; discriminate). pose proof (hs_sh _ _ Ha) as Sa.
  set (r := reduced_shape keep ax sh). assert (NR : nonempty r = true) by (eapply reduced_nonempty; eauto).
  set (out := folded (if mx then Rmax else Rmin) init keep ax sh a). assert (HO : has_shape r out) by apply tab_has_shape.
  assert (BM : bin_ty Mul sh sh = Some sh) by (apply arith_same; exact NE).
  eexists. eapply (first_correct (TReduceExt mx init keep) sh [axes] r a out (fun i j => delta (reduced_index keep ax j) i * bin Equal (rget a j) (rget out i))).
  - reflexivity.
  - cbn [ety map nth_error op_ty]. unfold ety_op. cbn [op_ty].
    rewrite dims_shape_vec, (shape_eqb_ne _ _ NZ), HA, negb_involutive. fold r. rewrite shape_eqb_refl.
    cbn [is_leaf negb andb stored_in stored_ok nth_error op_ty]. rewrite (equal_ne sh NE). cbn [otyA option_map op_ty]. rewrite BM. reflexivity.
  - intros gy Hg. cbn [eeval map nth_error]. rewrite Sa. cbn [tcompute]. rewrite dims_shape_vec.
    rewrite !(reduce_grad_pull keep axes ax sh) by auto. cbn [otA option_map nth_error tcompute].
    rewrite (bin_arr_ok Equal _ _ sh sh sh) by (auto using equal_ne). cbn [otA option_map tcompute].
    rewrite (bin_arr_ok Mul _ _ sh sh sh) by (auto using zip_tab_shape). cbn [otA option_map]. do 2 f_equal.
    apply tab_eq; [apply zip_tab_shape|]. intros j Hj. unfold zip_tab at 1. rewrite aget_tab by exact Hj. rewrite !(bc_idx_self sh) by exact Hj.
    unfold zip_tab. rewrite aget_tab by exact Hj. rewrite !(bc_idx_self sh) by exact Hj. unfold pullr. rewrite !aget_tab by exact Hj.
    pose proof (reduced_bounds keep axes ax sh j HA Hj) as Hr. fold r in Hr.
    rewrite (rsum_idx_ext _ _ (fun i => delta (reduced_index keep ax j) i * (bin Equal (rget a j) (rget out i) * rget gy i))) by (intros; ring).
    rewrite rsum_delta by exact Hr. reflexivity.
  - intros DM F d HS F0 HDv i Hi. cbn [t_dom map] in DM. rewrite Sa in DM. specialize (DM ax HA).
    destruct (reduced_onto keep axes ax sh i HA NE Hi) as (i0 & Hi0 & Ei0). unfold single_extremes in DM. rewrite Sa in DM.
    destruct (DM i0 Hi0) as (j0 & Hj0 & Ej0 & HB & HU). rewrite Ei0 in Ej0, HU.
    assert (FO : forall t, (forall j, In j (fibre keep ax sh i) -> beyond mx (rget (F t) j0) (rget (F t) j) \/ rget (F t) j = rget (F t) j0) -> beyond mx (rget (F t) j0) init ->
      rget (run (TReduceExt mx init keep) (TA (F t) :: map TI [axes])) i = rget (F t) j0).
    { intros t H1 H2. unfold run. cbn [map tcompute].
      rewrite (reduce_folded _ init (ext_assoc mx) (ext_comm mx) (ext_idem mx init) keep axes ax sh) by auto.
      cbn [otA option_map arr_of]. unfold folded. rewrite aget_tab by exact Hi. apply fold_ext_single; [left; exact H2| |apply in_map; apply in_fibre; auto].
      intros c Hc. apply in_map_iff in Hc. destruct Hc as (j & <- & Hj). apply H1. exact Hj. }
    assert (O0 : rget out i = rget a j0).
    { unfold out, folded. rewrite aget_tab by exact Hi. apply fold_ext_single; [left; exact HB| |apply in_map; apply in_fibre; auto].
      intros c Hc. apply in_map_iff in Hc. destruct Hc as (j & <- & Hj). apply in_fibre in Hj. destruct Hj as [B1 B2].
      destruct (list_eq_dec Nat.eq_dec j j0) as [->|N]; [right; reflexivity|left; apply HU; auto]. }
    eapply is_derive_eq.
    + apply (is_derive_ext_loc (fun t => rget (F t) j0)); [|apply HDv; exact Hj0].
      assert (L1 : locally 0 (fun t => forall j, In j (fibre keep ax sh i) -> beyond mx (rget (F t) j0) (rget (F t) j) \/ rget (F t) j = rget (F t) j0)).
      { apply locally_forall. intros j Hj. apply in_fibre in Hj. destruct Hj as [B1 B2].
        destruct (list_eq_dec Nat.eq_dec j j0) as [->|N]; [apply filter_forall; intros; right; reflexivity|].
        eapply filter_imp; [|apply (derive_locally_pos (fun t => (if mx then 1 else -1) * (rget (F t) j0 - rget (F t) j)) ((if mx then 1 else -1) * (d j0 - d j)))].
        - intros t Ht. left. apply beyond_sign. exact Ht.
        - apply is_derive_cmul. apply (is_derive_minus (fun t : R => rget (F t) j0) (fun t : R => rget (F t) j)); apply HDv; auto.
        - rewrite F0. apply beyond_sign. apply HU; auto. }
      assert (L2 : locally 0 (fun t => beyond mx (rget (F t) j0) init)).
      { eapply filter_imp; [|apply (derive_locally_pos (fun t => (if mx then 1 else -1) * (rget (F t) j0 - init)) ((if mx then 1 else -1) * (d j0 - 0)))].
        - intros t Ht. apply beyond_sign. exact Ht.
        - apply is_derive_cmul. apply (is_derive_minus (fun t : R => rget (F t) j0) (fun _ : R => init)); [apply HDv; auto|apply @is_derive_const].
        - rewrite F0. apply beyond_sign. exact HB. }
      eapply filter_imp; [|apply filter_and; [exact L1|exact L2]]. intros t [H1 H2]. symmetry. apply FO; auto.
    + rewrite (rsum_idx_ext sh _ (fun j => delta j0 j * d j)).
      * symmetry. apply rsum_delta. exact Hj0.
      * intros j Hj. rewrite O0. destruct (list_eq_dec Nat.eq_dec j j0) as [->|N].
        -- rewrite Ej0, !delta_eq. cbn [bin]. unfold reqb, b2r. destruct (Req_EM_T (rget a j0) (rget a j0)); [ring|congruence].
        -- rewrite (delta_ne j0 j) by congruence. destruct (list_eq_dec Nat.eq_dec (reduced_index keep ax j) i) as [E|E]; [|rewrite delta_ne by exact E; ring].
           specialize (HU j Hj E N). cbn [bin]. unfold reqb, b2r. destruct (Req_EM_T (rget a j) (rget a j0)) as [Q|Q]; [|ring].
           exfalso. destruct mx; simpl in HU; lra.
Qed.
