(** C27: reductions and reduce_sum's gradient.  C28: the gradient of that
    gradient. *)
From Coq Require Import List Arith ZArith Bool Lia Reals Lra RealField Permutation.
Import ListNotations.
From Verif Require Import Eval_Proofs Array_Model Array_Proofs Array_Sum Array_Fold Arith_Model Arith_Proofs Vjp_Spec Vjp_Proofs Arith_Final Reduce_Model Reduce_Spec Reduce_Proofs.
Local Open Scope R_scope.

Lemma sumf_combined {A I} (e : A) op (l : list I) f : sumf e op l f = combined e op (map f l).
Proof. unfold combined. induction l as [|x l IH]; simpl; [reflexivity|]. rewrite IH. reflexivity. Qed.
Lemma folds_reduction {A} (zero e : A) op keep ax x y : wf y -> a_shape y = reduced_shape keep ax (a_shape x) ->
  folds_along zero e op (reduced_index keep ax) x y -> reduction zero e op keep ax x y.
Proof.
  intros W S F. split; [exact S|]. split; [exact W|]. intros j Hj. rewrite F by exact Hj. apply sumf_combined.
Qed.
Lemma reduced_nil keep l : reduced_shape keep [] l = l /\ reduced_index keep [] l = l.
Proof. destruct keep; simpl; split; apply fill_nil || apply drop_nil. Qed.
Lemma filter_only {X} (f : X -> bool) l x : NoDup l -> In x l -> f x = true -> (forall y, In y l -> f y = true -> y = x) -> filter f l = [x].
Proof.
  induction l as [|z l IH]; intros ND Hx Fx U; [contradiction|]. inv ND. simpl. destruct Hx as [->|Hx].
  - rewrite Fx. f_equal. destruct (filter f l) as [|y l'] eqn:E; [reflexivity|].
    assert (In y (filter f l)) by (rewrite E; simpl; auto). apply filter_In in H. destruct H as [Hy Fy].
    assert (y = x) by (apply U; simpl; auto). subst y. contradiction.
  - destruct (f z) eqn:Fz; [assert (z = x) by (apply U; simpl; auto); subst z; contradiction|].
    apply IH; auto. intros y Hy. apply U. simpl. auto.
Qed.

(** ** C27 *)

(** Reduction by any commutative and associative operation ([e]: its start
    value; for no axes the operand is returned, so [e] must then be neutral). *)
Theorem C27_reduces : forall (A : Type) (zero e : A) (op : A -> A -> A) keep axes ax x,
  (forall a b c, op a (op b c) = op (op a b) c) -> (forall a b, op a b = op b a) -> op e e = e ->
  length (a_data x) = prod (a_shape x) -> a_shape x <> [0%nat] ->
  names_axes (length (a_shape x)) axes ax ->
  (ax = [] -> forall a, op a e = a) ->
  exists y, reduce zero op e axes keep false x = Some y /\ reduction zero e op keep ax x y.
Proof.
  intros A zero e op keep axes ax x As Cm Ee W N NA U.
  destruct (reduce_ok zero e op As Cm Ee keep axes ax x W N NA) as (y & Ey & Wy & Sy & Fy & Y0).
  exists y. split; [exact Ey|]. destruct ax as [|k ax].
  - rewrite (Y0 eq_refl) in *. split; [exact Sy|]. split; [exact W|]. intros j Hj.
    rewrite (filter_only _ _ j).
    + simpl. unfold combined. simpl. symmetry. apply U. reflexivity.
    + apply indices_nodup.
    + apply indices_in. exact Hj.
    + apply shape_eqb_ok. apply reduced_nil.
    + intros i _ E. apply shape_eqb_ok in E. rewrite <- E. symmetry. apply reduced_nil.
  - apply folds_reduction; auto. apply Fy. discriminate.
Qed.
Print Assumptions C27_reduces.

(** With [sparse_axes] the second operand is a mask: the axes are the positions
    of its ones. *)
Lemma sparse_in : forall mask k j, In j (map fst (filter (fun p => (snd p =? 1)%Z) (combine (seq k (length mask)) mask))) <->
  (k <= j)%nat /\ nth_error mask (j - k) = Some 1%Z.
Proof.
  induction mask as [|a mask IH]; intros k j; simpl.
  - split; [contradiction|]. intros [_ H]. destruct (j - k)%nat; discriminate.
  - assert (Q : In j (map fst (filter (fun p => (snd p =? 1)%Z) (combine (seq (S k) (length mask)) mask))) <->
       (k < j)%nat /\ nth_error (a :: mask) (j - k) = Some 1%Z).
    { rewrite IH. split; intros [A B]; split; try lia.
      - replace (j - k)%nat with (S (j - S k)) by lia. exact B.
      - replace (j - k)%nat with (S (j - S k)) in B by lia. exact B. }
    destruct (Z.eqb_spec a 1) as [->|Ha]; simpl; rewrite Q; split.
    + intros [<-|[A B]]; [split; [lia|]; rewrite Nat.sub_diag; reflexivity|]. split; [lia|exact B].
    + intros [A B]. destruct (Nat.eq_dec k j); auto. right. split; [lia|exact B].
    + intros [A B]. split; [lia|exact B].
    + intros [A B]. split; [|exact B]. destruct (Nat.eq_dec k j) as [->|]; [|lia]. rewrite Nat.sub_diag in B. simpl in B. congruence.
Qed.
Lemma sparse_nodup : forall mask k, NoDup (map fst (filter (fun p => (snd p =? 1)%Z) (combine (seq k (length mask)) mask))).
Proof.
  induction mask as [|a mask IH]; intros k; simpl; [constructor|]. destruct (Z.eqb_spec a 1); simpl; auto.
  constructor; auto. intros H. apply sparse_in in H. lia.
Qed.
Lemma normalize_nat n : forall l, normalize_axes n (map Z.of_nat l) = Some l.
Proof.
  induction l as [|k l IH]; simpl; [reflexivity|]. destruct (Z.ltb_spec (Z.of_nat k) 0); [lia|].
  destruct (Z.ltb_spec (Z.of_nat k) 0); [lia|]. rewrite IH, Nat2Z.id. reflexivity.
Qed.
Theorem C27_sparse_axes : forall (A : Type) (zero e : A) (op : A -> A -> A) keep mask x,
  (forall a b c, op a (op b c) = op (op a b) c) -> (forall a b, op a b = op b a) -> op e e = e ->
  length (a_data x) = prod (a_shape x) -> a_shape x <> [0%nat] ->
  (length mask <= length (a_shape x))%nat -> (forall a, op a e = a) ->
  exists ax y, NoDup ax /\ (forall k, In k ax <-> nth_error mask k = Some 1%Z) /\
    reduce zero op e mask keep true x = Some y /\ reduction zero e op keep ax x y.
Proof.
  intros A zero e op keep mask x As Cm Ee W N HM U.
  set (ax := sparse_to_dense mask).
  assert (HI : forall k, In k ax <-> nth_error mask k = Some 1%Z).
  { intros k. unfold ax, sparse_to_dense. rewrite sparse_in, Nat.sub_0_r. split; [tauto|]. intros H. split; [lia|exact H]. }
  assert (ND : NoDup ax) by apply sparse_nodup.
  assert (NA : names_axes (length (a_shape x)) (map Z.of_nat ax) ax).
  { split; [exact ND|]. assert (HL : forall k, In k ax -> (k < length (a_shape x))%nat).
    { intros k Hk. apply HI in Hk. assert (k < length mask)%nat by (apply nth_error_Some; congruence). lia. }
    clear -HL. induction ax as [|k ax IH]; simpl; constructor.
    - split; [apply HL; simpl; auto|]. destruct (Z.ltb_spec (Z.of_nat k) 0); lia.
    - apply IH. intros; apply HL; simpl; auto. }
  destruct (C27_reduces A zero e op keep (map Z.of_nat ax) ax x As Cm Ee W N NA (fun _ => U)) as (y & Ey & R).
  exists ax, y. split; auto. split; auto. split; [|exact R]. rewrite <- Ey. unfold reduce, preprocess_axes.
  rewrite normalize_nat. reflexivity.
Qed.
Print Assumptions C27_sparse_axes.
(** The mask 0, 1 names the last axis of a matrix. *)
Example C27_sparse_axes_met :
  reduce 0%nat Nat.add 0%nat [0%Z; 1%Z] false true (Arr [2%nat; 3%nat] [1; 2; 3; 4; 5; 6]%nat) = Some (Arr [2%nat] [6; 15]%nat).
Proof. reflexivity. Qed.

(** reduce_sum's gradient is the vector-Jacobian product. *)
Theorem C27_gradient : forall keep axes ax x gy,
  has_shape (a_shape x) x -> a_shape x <> [0%nat] -> names_axes (length (a_shape x)) axes ax ->
  has_shape (reduced_shape keep ax (a_shape x)) gy ->
  exists gx, reduce_sum_grad 0 axes keep false x gy = Some gx /\
    vjp (reduce 0 Rplus 0 axes keep false) x gy gx.
Proof.
  intros keep axes ax x gy Hx N NA Hg. apply has_shape_wf in Hx. apply has_shape_wf in Hg. destruct Hx as [_ Wx], Hg as [Sg Wg].
  destruct (reduce_grad_ok 0 keep axes ax (a_shape x) gy Wg NA N Sg) as (gx & E & Wgx & Sgx & G).
  exists gx. split; [exact E|].
  assert (B : List.Forall (fun k => (k < length (a_shape x))%nat) ax).
  { destruct NA as [_ F]. clear - F. induction F; constructor; auto. tauto. }
  apply (vjp_sums_along _ _ _ _ (reduced_index keep ax)); auto.
  - intros i Hi. rewrite Sg. apply reduced_index_in; auto. apply NA.
  - intros x' Hx'. apply has_shape_wf in Hx'. destruct Hx' as [Sx' Wx'].
    destruct (reduce_ok 0 0 Rplus (fun a b c => eq_sym (Rplus_assoc a b c)) Rplus_comm (Rplus_0_l 0) keep axes ax x' Wx') as (y & Ey & Wy & Sy & Fy & Y0).
    + congruence.
    + rewrite Sx'. exact NA.
    + exists y. split; [exact Ey|]. split; [apply has_shape_wf; split; [rewrite Sy, Sx', Sg; reflexivity|exact Wy]|].
      destruct ax as [|k ax].
      * rewrite (Y0 eq_refl). apply (sums_along_ext 0 1 Rplus Rmult Rminus Ropp RT (fun i => i)); [intros i _; symmetry; apply reduced_nil|].
        apply (sums_along_id 0 1 Rplus Rmult Rminus Ropp RT).
      * apply Fy. discriminate.
Qed.
Print Assumptions C27_gradient.

(** sum_all: every element contributes once; the gradient repeats the incoming one. *)
Theorem C27_sum_all : forall x gy,
  has_shape (a_shape x) x -> has_shape [] gy ->
  sum_all 0 Rplus x = Arr [] [fold_right Rplus 0 (a_data x)] /\
  vjp (fun x => Some (sum_all 0 Rplus x)) x gy (sum_all_grad 0 x gy).
Proof.
  assert (FL : forall l : list R, fold_left Rplus l 0 = fold_right Rplus 0 l).
  { intros l. rewrite (sum_list 0 1 Rplus Rmult Rminus Ropp RT), Rplus_0_l. unfold sumf. reflexivity. }
  intros x gy Hx Hg. apply has_shape_wf in Hx. apply has_shape_wf in Hg. destruct Hx as [_ Wx], Hg as [Sg Wg].
  split; [unfold sum_all; rewrite FL; reflexivity|].
  apply (vjp_sums_along _ _ _ _ (fun _ => [])); auto.
  - apply tab_wf.
  - intros i _. rewrite Sg. constructor.
  - intros x' Hx'. apply has_shape_wf in Hx'. destruct Hx' as [Sx' Wx']. eexists. split; [reflexivity|].
    split; [split; [symmetry; exact Sg|simpl; rewrite Sg; reflexivity]|].
    intros j Hj. inv Hj. unfold get, aget at 1. simpl. rewrite FL, (data_map 0 x' Wx').
    assert (Q : forall l, fold_right Rplus 0 (map (rget x') l) = sumf 0 Rplus (filter (fun _ => idx_eqb [] []) l) (rget x')).
    { induction l as [|i l IH]; [reflexivity|]. simpl. rewrite IH. reflexivity. }
    apply Q.
  - intros i Hi. unfold sum_all_grad. rewrite aget_full by exact Hi. unfold aget. rewrite Sg. simpl. destruct (a_data gy); reflexivity.
Qed.
Print Assumptions C27_sum_all.

(** Boundaries: an axis named twice is folded twice, so a second axis vanishes
    too; reducing an empty vector returns it unchanged instead of a sum of 0; an
    axis out of range panics. *)
Theorem C27_duplicate_axes : forall a b (x : arr R), has_shape [a; b] x ->
  reduce 0 Rplus 0 [0; 0]%Z false false x = reduce 0 Rplus 0 [0; 1]%Z false false x.
Proof.
  intros a b x [S L]. unfold reduce, preprocess_axes, bind. simpl normalize_axes. cbv iota. unfold compute_reduce.
  assert (NS : is_scalar_shape (a_shape x) = false) by (rewrite S; unfold is_scalar_shape, shape_eqb; repeat destruct list_eq_dec; try discriminate; reflexivity).
  rewrite NS. change (rev (sort [0; 0]%nat)) with [0; 0]%nat. change (rev (sort [0; 1]%nat)) with [1; 0]%nat.
  simpl. unfold fold_axis. rewrite S. simpl. f_equal. apply tab_ext. intros i Hi. inv Hi.
  rewrite !(sum_list 0 1 Rplus Rmult Rminus Ropp RT), !sum_map.
  f_equal.
  rewrite (sum_ext 0 Rplus _ _ (fun j => rsum (seq 0 a) (fun k => rget x [k; j]))).
  - rewrite (sum_ext 0 Rplus (seq 0 a) _ (fun k => rsum (seq 0 b) (fun j => rget x [k; j]))).
    + apply (sum_swap 0 1 Rplus Rmult Rminus Ropp RT).
    + intros k Hk. apply in_seq in Hk. rewrite aget_tab by (repeat constructor; lia).
      rewrite (sum_list 0 1 Rplus Rmult Rminus Ropp RT), sum_map, Rplus_0_l. reflexivity.
  - intros j Hj. apply in_seq in Hj. rewrite aget_tab by (repeat constructor; lia).
    rewrite (sum_list 0 1 Rplus Rmult Rminus Ropp RT), sum_map, Rplus_0_l. reflexivity.
Qed.
Print Assumptions C27_duplicate_axes.
Theorem C27_empty_vector_refuted : forall keep, reduce 0 Rplus 0 [0%Z] keep false (Arr [0%nat] []) = Some (Arr [0%nat] []).
Proof. intros []; reflexivity. Qed.
Print Assumptions C27_empty_vector_refuted.
Theorem C27_axis_too_large : forall (A : Type) (zero e : A) op keep k x, a_shape x <> [] -> a_shape x <> [0%nat] ->
  (length (a_shape x) <= k)%nat -> reduce zero op e [Z.of_nat k] keep false x = None.
Proof.
  intros A zero e op keep k x N0 N1 H. unfold reduce, preprocess_axes. simpl normalize_axes.
  destruct (Z.ltb_spec (Z.of_nat k) 0) as [Q|Q]; [lia|]. destruct (Z.ltb_spec (Z.of_nat k) 0); [lia|]. rewrite Nat2Z.id. unfold bind, compute_reduce.
  assert (NS : is_scalar_shape (a_shape x) = false).
  { unfold is_scalar_shape. destruct (shape_eqb (a_shape x) []) eqn:E; [apply shape_eqb_ok in E; contradiction|].
    destruct (shape_eqb (a_shape x) [0%nat]) eqn:E2; [apply shape_eqb_ok in E2; contradiction|reflexivity]. }
  rewrite NS. simpl. unfold fold_axis. rewrite (proj2 (nth_error_None _ _) H). reflexivity.
Qed.
Print Assumptions C27_axis_too_large.

Example C27_hypotheses_met :
  let x := Arr [2;3;2]%nat [1;2;3;4;5;6;7;8;9;10;11;12] in
  has_shape (a_shape x) x /\ a_shape x <> [0%nat] /\ names_axes 3 [-1; 0]%Z [2; 0]%nat /\
  reduced_shape false [2;0]%nat (a_shape x) = [3]%nat /\ reduced_shape true [2;0]%nat (a_shape x) = [1;3;1]%nat /\
  reduce 0 Rplus 0 [-1; 0]%Z false false x = Some (Arr [3]%nat [18; 26; 34]) /\
  reduce 0 Rplus 0 [-1; 0]%Z true false x = Some (Arr [1;3;1]%nat [18; 26; 34]) /\
  reduce_sum_grad 0 [-1; 0]%Z false false x (Arr [3]%nat [1;2;3]) = Some (Arr [2;3;2]%nat [1;1;2;2;3;3;1;1;2;2;3;3]).
Proof.
  cbv zeta. split; [split; reflexivity|]. split; [discriminate|]. split.
  { split; [repeat constructor; simpl; intuition discriminate|]. apply Forall2_cons; [cbv beta; lia|]. apply Forall2_cons; [cbv beta; lia|constructor]. }
  split; [reflexivity|]. split; [reflexivity|]. split; [cbv -[Rplus IZR]; f_equal; f_equal; repeat (apply (f_equal2 (@cons R)); [lra|]); reflexivity|]. split; [cbv -[Rplus IZR]; f_equal; f_equal; repeat (apply (f_equal2 (@cons R)); [lra|]); reflexivity|]. reflexivity.
Qed.

(** ** C28 *)
(** What the gradient of reduce_sum's gradient should be: the same reduction. *)
Theorem C28_expected : forall keep axes ax sh gy g,
  sh <> [0%nat] -> names_axes (length sh) axes ax ->
  has_shape (reduced_shape keep ax sh) gy -> has_shape sh g ->
  exists ggy, reduce 0 Rplus 0 axes keep false g = Some ggy /\
    vjp (reduce_grad 0 (negb keep) false axes sh) gy g ggy.
Proof.
  intros keep axes ax sh gy g N NA Hgy Hg. apply has_shape_wf in Hgy. apply has_shape_wf in Hg. destruct Hgy as [Sgy Wgy], Hg as [Sg Wg].
  assert (B : List.Forall (fun k => (k < length sh)%nat) ax).
  { destruct NA as [_ F]. clear - F. induction F; constructor; auto. tauto. }
  destruct (reduce_ok 0 0 Rplus (fun a b c => eq_sym (Rplus_assoc a b c)) Rplus_comm (Rplus_0_l 0) keep axes ax g Wg) as (y & Ey & Wy & Sy & Fy & Y0).
  - congruence.
  - rewrite Sg. exact NA.
  - exists y. split; [exact Ey|]. apply (vjp_reads _ _ _ _ (reduced_index keep ax)); auto.
    + rewrite Sy, Sg, Sgy. reflexivity.
    + intros i Hi. rewrite Sg in Hi. rewrite Sgy. apply reduced_index_in; auto. apply NA.
    + intros x' Hx'. apply has_shape_wf in Hx'. destruct Hx' as [Sx' Wx'].
      destruct (reduce_grad_ok 0 keep axes ax sh x' Wx' NA N) as (gx & E & Wgx & Sgx & G); [congruence|].
      exists gx. split; [exact E|]. split; [apply has_shape_wf; split; congruence|]. rewrite Sg. exact G.
    + destruct ax as [|k ax].
      * rewrite (Y0 eq_refl). apply (sums_along_ext 0 1 Rplus Rmult Rminus Ropp RT (fun i => i)); [intros i _; symmetry; apply reduced_nil|].
        apply (sums_along_id 0 1 Rplus Rmult Rminus Ropp RT).
      * apply Fy. discriminate.
Qed.
Print Assumptions C28_expected.

(** What it is: the reduction with keep_dims inverted, whose shape is never that
    of the upstream gradient; so it is not the gradient. *)
Theorem C28_flag_inverted : forall keep axes ax sh gy g,
  sh <> [0%nat] -> names_axes (length sh) axes ax -> ax <> [] ->
  has_shape (reduced_shape keep ax sh) gy -> has_shape sh g ->
  exists ggy, reduce_grad_grad 0 Rplus (negb keep) false axes g = Some ggy /\
    reduction 0 0 Rplus (negb keep) ax g ggy /\
    a_shape ggy <> a_shape gy /\
    ~ vjp (reduce_grad 0 (negb keep) false axes sh) gy g ggy.
Proof.
  intros keep axes ax sh gy g N NA NE Hgy Hg. pose proof Hg as [Sg Lg].
  destruct (C27_reduces R 0 0 Rplus (negb keep) axes ax g (fun a b c => eq_sym (Rplus_assoc a b c)) Rplus_comm (Rplus_0_l 0)) as (y & Ey & Ry).
  - congruence.
  - congruence.
  - rewrite Sg. exact NA.
  - intros Q. contradiction.
  - assert (D : a_shape y <> a_shape gy).
    { rewrite (proj1 Ry), (proj1 Hgy), Sg. intros Q. apply (f_equal (@length nat)) in Q.
      destruct ax as [|k ax]; [contradiction|].
      assert (Hk : (k < length sh)%nat) by (destruct NA as [_ F]; inv F; tauto).
      assert (Z : (length (drop_axes (k :: ax) sh) < length sh)%nat) by (apply drop_length; exists k; simpl; auto).
      destruct keep; simpl in Q; rewrite fill_length in Q; lia. }
    exists y. split; [exact Ey|]. split; [exact Ry|]. split; [exact D|].
    intros [S _]. apply has_shape_wf in S. destruct S as [S _]. contradiction.
Qed.
Print Assumptions C28_flag_inverted.

Example C28_hypotheses_met :
  let g := Arr [2;2]%nat [1;2;3;4] in
  names_axes 2 [1]%Z [1%nat] /\ has_shape (reduced_shape false [1%nat] [2;2]%nat) (Arr [2]%nat [0;0]) /\
  reduce_grad_grad 0 Rplus (negb false) false [1]%Z g = Some (Arr [2;1]%nat [3;7]) /\
  reduce_grad_grad 0 Rplus (negb true) false [1]%Z g = Some (Arr [2]%nat [3;7]).
Proof.
  cbv zeta. split; [split; [repeat constructor; simpl; tauto|apply Forall2_cons; [cbv beta; lia|constructor]]|]. split; [split; reflexivity|].
  split; cbv -[Rplus IZR]; f_equal; f_equal; repeat (apply (f_equal2 (@cons R)); [lra|]); reflexivity.
Qed.
