(** C70, C71: the builds with the features blas and intel-mkl. *)
From Coq Require Import List Arith ZArith Bool Lia Reals Lra Permutation.
Import ListNotations.
From Verif Require Import Eval_Proofs Array_Model Array_Proofs Arith_Proofs Vjp_Spec Vjp_Proofs Arith_Final Reduce_Proofs Dot_Model Dot_Spec Dot_Proofs Batch_Model Batch_Proofs Blas_Model Blas_Spec Blas_Proofs Blas_Copy.
Local Open Scope R_scope.
Ltac reals := cbv -[Rplus Rmult Rminus Ropp IZR]; apply f_equal; apply (f_equal2 (@Arr R)); [reflexivity|]; repeat (apply (f_equal2 (@cons R)); [lra|]); reflexivity.

(** ** C70: matrix products with the feature blas *)

(** Whatever build ([blas]), flags and layout of the operands, and whatever the new array held before:
    the product. *)
Theorem C70_product : forall (blas ta tb : bool) (junk : Z -> R) a b m k n,
  (if ta then [m_cols a; m_rows a] else [m_rows a; m_cols a]) = [m; k] -> (if tb then [m_cols b; m_rows b] else [m_rows b; m_cols b]) = [k; n] ->
  usual_layout (m_rs a) (m_cs a) (m_rows a) (m_cols a) -> usual_layout (m_rs b) (m_cs b) (m_rows b) (m_cols b) ->
  exists y, matmul_views 0 Rplus Rmult blas ta tb junk a b = Ok y /\
    product_of m k n (fun i l => if ta then melem a l i else melem a i l) (fun l j => if tb then melem b j l else melem b l j) y.
Proof.
  intros blas ta tb junk a b m k n Ea Eb La Lb. eexists. split.
  - apply (matmul_views_ok 0 Rplus Rmult Rmult_comm blas ta tb junk a b m k n); try assumption; [destruct ta|destruct ta|destruct tb|destruct tb]; congruence.
  - split; [reflexivity|]. split; [unfold tab; cbn [a_data]; rewrite map_length, indices_length; cbn [prod fold_right]; lia|].
    intros i j Hi Hj. rewrite aget_tab by (apply in_bounds_pair; auto). cbn [nth]. apply gemm_sum.
Qed.
Print Assumptions C70_product.
(** For any numbers whose product commutes the result is that of the build without BLAS as modelled for C35
    (so what is proved about matmul elsewhere holds for the BLAS builds too). *)
Theorem C70_same_as_without : forall (A : Type) (zero : A) add mul, (forall x y, mul x y = mul y x) ->
  forall (blas ta tb : bool) junk a b,
  usual_layout (m_rs a) (m_cs a) (m_rows a) (m_cols a) -> usual_layout (m_rs b) (m_cs b) (m_rows b) (m_cols b) ->
  matmul_views zero add mul blas ta tb junk a b =
  matmul zero add mul ta tb (tab [m_rows a; m_cols a] (fun i => melem a (nth 0 i 0%nat) (nth 1 i 0%nat))) (tab [m_rows b; m_cols b] (fun i => melem b (nth 0 i 0%nat) (nth 1 i 0%nat))).
Proof.
  intros A zero add mul comm blas ta tb junk a b La Lb. unfold matmul. rewrite !tab_shape.
  destruct (Nat.eqb_spec (if ta then m_rows a else m_cols a) (if tb then m_cols b else m_rows b)) as [E|E].
  - rewrite (matmul_views_ok zero add mul comm blas ta tb junk a b _ _ _ eq_refl eq_refl (eq_sym E) eq_refl La Lb).
    f_equal. apply tab_ext. intros i Hi. apply pair_bounds in Hi. destruct Hi as (r & q & -> & Hr & Hq). cbn [nth].
    apply gemm_ext; intros l Hl; unfold mget.
    + destruct ta; (rewrite aget_tab; [reflexivity|apply in_bounds_pair; auto]).
    + destruct tb; (rewrite aget_tab; [reflexivity|apply in_bounds_pair; split; congruence || lia]).
  - unfold matmul_views. replace (m_cols (if ta then mrev a else a)) with (if ta then m_rows a else m_cols a) by (destruct ta; reflexivity).
    replace (m_rows (if tb then mrev b else b)) with (if tb then m_cols b else m_rows b) by (destruct tb; reflexivity).
    destruct (Nat.eqb_spec (if ta then m_rows a else m_cols a) (if tb then m_cols b else m_rows b)); [contradiction|reflexivity].
Qed.
Print Assumptions C70_same_as_without.
(** The condition on layouts is needed: an 2-by-8 operand whose rows overlap (strides 1 and 1). *)
Theorem C70_overlapping_rows_refuted :
  let a := MView (fun p => if (p =? 8)%Z then 1 else 0) 0 2 8 1 1 in let b := MView (fun _ => 1) 0 8 1 1 1 in
  matmul_views 0 Rplus Rmult false false false (fun _ => 0) a b = Ok (Arr [2;1]%nat [0;1]) /\
  matmul_views 0 Rplus Rmult true false false (fun _ => 0) a b = Ok (Arr [2;1]%nat [1;0]).
Proof. cbv zeta. split; reals. Qed.
Print Assumptions C70_overlapping_rows_refuted.

(** Batches: the products, if the operands are in standard layout, the second axis of the
    operands, when it is a batch axis, does not have length 1, and the call is not a product of matrices
    other than one-row ones with column vectors in which the left operand is transposed or has one column. *)
Theorem C70_batch_product : forall (ta tb : bool) batch m k n (x0 x1 : view R) (junk : nat -> R),
  batch <> [] -> prod batch <> 0%nat -> m <> 0%nat -> k <> 0%nat -> n <> 0%nat ->
  standard x0 -> standard x1 ->
  v_shape x0 = batch ++ (if ta then [k; m] else [m; k]) -> v_shape x1 = batch ++ (if tb then [n; k] else [k; n]) ->
  small m -> small k -> small n ->
  length batch = 1%nat \/ nth 1 batch 0%nat <> 1%nat -> n <> 1%nat \/ m = 1%nat \/ (ta = false /\ k <> 1%nat) ->
  exists y, batch_matmul_blas 0 Rplus Rmult junk ta tb x0 x1 = Ok y /\ has_shape (batch ++ [m; n]) y /\
    forall b i j, in_bounds batch b -> (i < m)%nat -> (j < n)%nat ->
      aget 0 y (b ++ [i; j]) = sum_below k (fun l => aget 0 (contents 0 x0) (b ++ (if ta then [l; i] else [i; l])) * aget 0 (contents 0 x1) (b ++ (if tb then [j; l] else [l; j]))).
Proof.
  intros ta tb batch m k n x0 x1 junk N Nb Nm Nk Nn St0 St1 Sh0 Sh1 Sm Sk Sn U V.
  destruct (batch_blas_ok 0 Rplus Rmult Rmult_comm ta tb batch m k n x0 x1 junk) as (y & E & Sy & W & G); auto.
  exists y. split; [exact E|]. split; [apply has_shape_wf; auto|]. intros b i j Hb Hi Hj. rewrite G by auto. rewrite gemm_sum.
  apply sum_below_ext. intros l Hl. unfold bget, contents. rewrite !aget_tab; [reflexivity| |].
  - rewrite Sh1. apply Forall2_app; [exact Hb|]. destruct tb; apply in_bounds_pair; auto.
  - rewrite Sh0. apply Forall2_app; [exact Hb|]. destruct ta; apply in_bounds_pair; auto.
Qed.
Print Assumptions C70_batch_product.
(** Operands whose batches lie inside their matrices (after a transposition that moves a batch axis, say) are
    copied first; the products come out right then, the other operand being of that kind too, or in standard
    layout and not to be transposed. (Without the feature they do not: C48_copied_operand_refuted.) *)
Theorem C70_batch_copied : forall (ta tb : bool) batch m k n (x0 x1 : view R) (junk : nat -> R),
  batch <> [] -> prod batch <> 0%nat -> m <> 0%nat -> k <> 0%nat -> n <> 0%nat ->
  v_shape x0 = batch ++ (if ta then [k; m] else [m; k]) -> v_shape x1 = batch ++ (if tb then [n; k] else [k; n]) ->
  length (v_strides x0) = length (v_shape x0) -> length (v_strides x1) = length (v_shape x1) ->
  (ta = false /\ standard x0) \/ interleaved (v_strides x0) -> (tb = false /\ standard x1) \/ interleaved (v_strides x1) ->
  Forall small batch -> small m -> small k -> small n ->
  length batch = 1%nat \/ nth 1 batch 0%nat <> 1%nat -> n <> 1%nat \/ m = 1%nat \/ k <> 1%nat ->
  exists y, batch_matmul_blas 0 Rplus Rmult junk ta tb x0 x1 = Ok y /\ has_shape (batch ++ [m; n]) y /\
    forall b i j, in_bounds batch b -> (i < m)%nat -> (j < n)%nat ->
      aget 0 y (b ++ [i; j]) = sum_below k (fun l => aget 0 (contents 0 x0) (b ++ (if ta then [l; i] else [i; l])) * aget 0 (contents 0 x1) (b ++ (if tb then [j; l] else [l; j]))).
Proof.
  intros ta tb batch m k n x0 x1 junk N Nb Nm Nk Nn Sh0 Sh1 L0 L1 K0 K1 Sb Sm Sk Sn U V.
  destruct (batch_copied 0 Rplus Rmult ta tb batch m k n x0 x1 junk Rmult_comm) as (y & E & Sy & W & G); auto.
  exists y. split; [exact E|]. split; [apply has_shape_wf; auto|]. intros b i j Hb Hi Hj. rewrite G by auto. rewrite gemm_sum.
  apply sum_below_ext. intros l Hl. unfold bget, contents. rewrite !aget_tab; [reflexivity| |].
  - rewrite Sh1. apply Forall2_app; [exact Hb|]. destruct tb; apply in_bounds_pair; auto.
  - rewrite Sh0. apply Forall2_app; [exact Hb|]. destruct ta; apply in_bounds_pair; auto.
Qed.
Print Assumptions C70_batch_copied.
(** Together with a standard operand that is to be transposed the copy is lost: the fallback reads the original
    memory with the strides of the copy (the left operand [1 3], [2 4] is read as [1 2], [3 4]). *)
Theorem C70_copied_with_transposed_refuted :
  let t := vpermute [2;1;0]%nat (View [1;2;3;4] 0 [2;1;2]%nat (std_strides [2;1;2]%nat)) in
  let c := View [1;3;2;4] 0 [2;1;2]%nat (std_strides [2;1;2]%nat) in
  let b := View [1;0;0;1;1;1;1;0;0;1;1;1] 0 [2;3;2]%nat (std_strides [2;3;2]%nat) in
  contents 0 t = contents 0 c /\ interleaved (v_strides t) /\ standard b /\
  batch_matmul_blas 0 Rplus Rmult (fun _ => 0) false true c b = Ok (Arr [2;1;3]%nat [1;3;4;2;4;6]) /\
  batch_matmul_blas 0 Rplus Rmult (fun _ => 0) false true t b = Ok (Arr [2;1;3]%nat [1;2;3;3;4;7]).
Proof.
  cbv zeta. split; [reflexivity|]. split; [exists [1%nat], 2%nat, 2%nat, 1%nat; split; [reflexivity|]; split; [left; reflexivity|lia]|].
  split; [reflexivity|]. split; reals.
Qed.
Print Assumptions C70_copied_with_transposed_refuted.
(** Operands without rows and columns, of different ranks or different batches: an error. *)
Theorem C70_batch_mismatch : forall (A : Type) (zero : A) add mul (ta tb : bool) (x0 x1 : view A) (junk : nat -> A),
  (length (v_shape x0) < 2)%nat \/ (length (v_shape x1) < 2)%nat \/ length (v_shape x0) <> length (v_shape x1) \/
  (exists b0 b1 p0 q0 p1 q1, v_shape x0 = b0 ++ [p0; q0] /\ v_shape x1 = b1 ++ [p1; q1] /\ b0 <> b1) ->
  batch_matmul_blas zero add mul junk ta tb x0 x1 = OpErr.
Proof. intros. apply batch_mismatch. assumption. Qed.
Print Assumptions C70_batch_mismatch.
(** The other products with column vectors panic: the operands are exchanged, the distances between
    matrices are not. *)
Theorem C70_batch_vector_panics : forall (A : Type) (zero : A) add mul (ta tb : bool) batch m k (x0 x1 : view A) (junk : nat -> A),
  batch <> [] -> prod batch <> 0%nat -> k <> 0%nat -> (1 < m)%nat -> ta = true \/ k = 1%nat ->
  standard x0 -> standard x1 ->
  v_shape x0 = batch ++ (if ta then [k; m] else [m; k]) -> v_shape x1 = batch ++ (if tb then [1; k] else [k; 1])%nat ->
  Forall small batch -> small m -> small k ->
  batch_matmul_blas zero add mul junk ta tb x0 x1 = Panic.
Proof.
  intros A zero add mul ta tb batch m k x0 x1 junk N Nb Nk Hm T St0 St1 Sh0 Sh1 Sb Sm Sk.
  apply (batch_blas_panics zero add mul ta tb batch m k 1 x0 x1 junk); auto; lia.
Qed.
Print Assumptions C70_batch_vector_panics.
(** So no gradient passes through a batch of matrix-vector products. *)
Theorem C70_batch_vector_gradient_panics : forall (A : Type) (zero : A) add mul batch m k (a gy : view A) (junk : nat -> A),
  batch <> [] -> prod batch <> 0%nat -> m <> 0%nat -> (1 < k)%nat -> standard a -> standard gy ->
  v_shape a = batch ++ [m; k] -> v_shape gy = batch ++ [m; 1%nat] -> Forall small batch -> small m -> small k ->
  batch_blas_grad_b zero add mul junk a gy = Panic.
Proof.
  intros A zero add mul batch m k a gy junk N Nb Nm Hk Sta Stg Sha Shg Sb Sm Sk.
  apply (batch_blas_panics zero add mul true false batch k m 1 a gy junk); auto; lia.
Qed.
Print Assumptions C70_batch_vector_gradient_panics.
(** When the second axis is a batch axis of length 1, the check of the layout looks at it instead of at the
    matrices: a transposed operand is read as if it were not (here [1 4; 2 5; 3 6] as [1 2; 3 4; 5 6]). *)
Theorem C70_unit_axis_refuted :
  let a := View [1;2;3;4;5;6] 0 [1;1;2;3]%nat (std_strides [1;1;2;3]%nat) in
  let b := View [1;0;0;1] 0 [1;1;2;2]%nat (std_strides [1;1;2;2]%nat) in
  batch_matmul 0 Rplus Rmult true false a b = Ok (Arr [1;1;3;2]%nat [1;4;2;5;3;6]) /\
  batch_matmul_blas 0 Rplus Rmult (fun _ => 0) true false a b = Ok (Arr [1;1;3;2]%nat [1;2;3;4;5;6]).
Proof. cbv zeta. split; reals. Qed.
Print Assumptions C70_unit_axis_refuted.
(** The same mistake in both gradients. *)
Theorem C70_unit_axis_gradients_refuted :
  let a := View [1;2;3;4;5;6] 0 [1;1;2;3]%nat (std_strides [1;1;2;3]%nat) in
  let b := View [1;2;3;4;5;6] 0 [1;1;3;2]%nat (std_strides [1;1;3;2]%nat) in
  let gy := View [1;0;0;1] 0 [1;1;2;2]%nat (std_strides [1;1;2;2]%nat) in
  batch_grad_a 0 Rplus Rmult false false a b gy = Ok (Arr [1;1;2;3]%nat [1;3;5;2;4;6]) /\
  batch_blas_grad_a 0 Rplus Rmult (fun _ => 0) b gy = Ok (Arr [1;1;2;3]%nat [1;2;3;4;5;6]) /\
  batch_grad_b 0 Rplus Rmult false false a b gy = Ok (Arr [1;1;3;2]%nat [1;4;2;5;3;6]) /\
  batch_blas_grad_b 0 Rplus Rmult (fun _ => 0) a gy = Ok (Arr [1;1;3;2]%nat [1;2;3;4;5;6]).
Proof. cbv zeta. repeat (split; [reals|]). reals. Qed.
Print Assumptions C70_unit_axis_gradients_refuted.
(** Convolutions: the calls of cblas do what the calls of matrixmultiply in the other builds do. *)
Theorem C70_convolution_calls : forall (A : Type) (zero : A) add mul m n k, (1 <= m)%nat -> (1 <= n)%nat -> (1 <= k)%nat -> small m -> small n -> small k ->
  (forall w cols cp y yp, conv_call_blas zero add mul m n k w cols cp y yp = Some (conv_call_std zero add mul m n k w cols cp y yp)) /\
  (forall gy gp cols cp acc gw, filter_call_blas zero add mul m n k gy gp cols cp acc gw = Some (filter_call_std zero add mul m n k gy gp cols cp acc gw)) /\
  (forall w gy gp cols cp, transpose_call_blas zero add mul m n k w gy gp cols cp = Some (transpose_call_std zero add mul m n k w gy gp cols cp)).
Proof.
  intros A zero add mul m n k Hm Hn Hk Sm Sn Sk. unfold small in *.
  split; [|split]; intros; unfold conv_call_blas, filter_call_blas, transpose_call_blas; rewrite !wrap32_id by lia; apply cblas_mm; lia.
Qed.
Print Assumptions C70_convolution_calls.
Example C70_hypotheses_met :
  (* 2-by-8 times 8-by-2, the left operand stored transposed: BLAS is called *)
  let a := MView (fun p => IZR p) 0 2 8 1 2 in let b := MView (fun p => if (p <? 2)%Z then 1 else 0) 0 8 2 2 1 in
  usual_layout (m_rs a) (m_cs a) (m_rows a) (m_cols a) /\
  (exists r, mat_mul_blas 0 Rplus Rmult a b (MView (fun _ => 0) 0 2 2 2 1) = Some r) /\
  matmul_views 0 Rplus Rmult true false false (fun _ => 7) a b = Ok (Arr [2;2]%nat [0;0;1;1]) /\
  (* batches: BLAS is called, and the condition on vectors does not say that it is not *)
  batch_matmul_blas 0 Rplus Rmult (fun _ => 7) false false
    (View [1;2;3;4] 0 [2;1;2]%nat (std_strides [2;1;2]%nat)) (View [1;2;3;4] 0 [2;2;1]%nat (std_strides [2;2;1]%nat)) = Ok (Arr [2;1;1]%nat [5;25]) /\
  batch_matmul_blas 0 Rplus Rmult (fun _ => 7) true false
    (View [1;2;3;4] 0 [1;2;2]%nat (std_strides [1;2;2]%nat)) (View [1;2] 0 [1;2;1]%nat (std_strides [1;2;1]%nat)) = Panic /\
  (* a copied operand *)
  (let t := vpermute [2;1;0]%nat (View [1;2;3;4] 0 [2;1;2]%nat (std_strides [2;1;2]%nat)) in
   v_shape t = [2%nat] ++ [1;2]%nat /\ length (v_strides t) = length (v_shape t) /\ interleaved (v_strides t) /\
   batch_matmul_blas 0 Rplus Rmult (fun _ => 7) false false t (View [1;0;1;0] 0 [2;2;1]%nat (std_strides [2;2;1]%nat)) = Ok (Arr [2;1;1]%nat [1;2])).
Proof.
  cbv zeta. split; [|split; [|split; [|split; [|split; [|split; [reflexivity|split; [reflexivity|split]]]]]]].
  - right. right. intros i j i' j' Hi Hj Hi' Hj' E. simpl in *. lia.
  - eexists. reflexivity.
  - reals.
  - reals.
  - reflexivity.
  - exists [1%nat], 2%nat, 2%nat, 1%nat. split; [reflexivity|]. split; [left; reflexivity|lia].
  - reals.
Qed.

(** ** C71: elementwise functions with the features blas and intel-mkl *)
Theorem C71_standard_layout : forall (A : Type) (zero : A) (f : A -> A) (x : view A) (junk : nat -> A), standard x -> small (prod (v_shape x)) ->
  elementwise zero f (v_shape x) (aget zero (contents zero x)) (vm_map zero junk f x).
Proof.
  intros A zero f x junk St Sm. rewrite vm_standard by assumption. unfold std_map. split; [reflexivity|]. split; [unfold tab; cbn [a_data]; rewrite map_length; apply indices_length|].
  intros i Hi. unfold contents. rewrite !aget_tab by exact Hi. reflexivity.
Qed.
Print Assumptions C71_standard_layout.
(** On a transposed operand the transposition is lost: the elements of the result are in the order of
    those of the operand before it. *)
Theorem C71_transposition_lost : forall (A : Type) (zero : A) (f : A -> A) (x : view A) (junk : nat -> A) p,
  Permutation p (seq 0 (length (v_shape x))) -> standard x -> small (prod (v_shape x)) ->
  a_data (vm_map zero junk f (vpermute p x)) = map f (a_data (contents zero x)).
Proof.
  intros A zero f x junk p P St Sm.
  assert (E : prod (v_shape (vpermute p x)) = prod (v_shape x)).
  { unfold vpermute. cbn [v_shape]. transitivity (prod (map (fun k => nth k (v_shape x) 0%nat) (seq 0 (length (v_shape x))))).
    - unfold prod. clear -P. induction P; simpl; congruence || lia.
    - rewrite map_seq_nth. reflexivity. }
  transitivity (a_data (vm_map zero junk f x)).
  - unfold vm_map. cbn [a_data]. rewrite E. reflexivity.
  - rewrite vm_standard by assumption. unfold std_map, contents, tab. cbn [a_data]. rewrite map_map. reflexivity.
Qed.
Print Assumptions C71_transposition_lost.
(** exp(transpose(x)) *)
Theorem C71_transposed_refuted :
  let x := View [0;1;2;3;4;5] 0 [2;3]%nat (std_strides [2;3]%nat) in let t := vpermute [1;0]%nat x in
  ~ elementwise 0 exp (v_shape t) (aget 0 (contents 0 t)) (vm_map 0 (fun _ => 0) exp t).
Proof.
  cbv zeta. intros (_ & _ & H). specialize (H [0;1]%nat). assert (B : in_bounds [3;2]%nat [0;1]%nat) by (apply in_bounds_pair; lia).
  specialize (H B). unfold contents in H. rewrite aget_tab in H by exact B. cbv -[exp IZR] in H. apply exp_inv in H. lra.
Qed.
Print Assumptions C71_transposed_refuted.
(** From 2^31 elements on nothing is computed (the count becomes negative). *)
Theorem C71_large_operands_unset : forall (A : Type) (zero : A) (f : A -> A) (x : view A) (junk : nat -> A),
  (2147483648 <= Z.of_nat (prod (v_shape x)) <= 4294967295)%Z -> a_data (vm_map zero junk f x) = map junk (seq 0 (prod (v_shape x))).
Proof.
  intros A zero f x junk H. unfold vm_map. cbn [a_data]. apply map_ext. intros p. destruct (Z.ltb_spec (Z.of_nat p) (wrap32 (Z.of_nat (prod (v_shape x))))) as [L|]; [|reflexivity].
  exfalso. unfold wrap32 in L. rewrite (Z.mod_eq _ 4294967296) in L by lia.
  assert (Q : ((Z.of_nat (prod (v_shape x)) + 2147483648) / 4294967296 = 1)%Z) by (symmetry; apply (Z.div_unique _ _ _ (Z.of_nat (prod (v_shape x)) + 2147483648 - 4294967296)); lia).
  rewrite Q in L. lia.
Qed.
Print Assumptions C71_large_operands_unset.
Example C71_hypotheses_met :
  let x := View [9;1;2;3;4] 1 [2;2]%nat (std_strides [2;2]%nat) in
  standard x /\ small (prod (v_shape x)) /\ Permutation [1;0]%nat (seq 0 2) /\
  vm_map 0 (fun _ => 7) (fun a => a * a) x = Arr [2;2]%nat [1 * 1; 2 * 2; 3 * 3; 4 * 4].
Proof. cbv zeta. split; [reflexivity|]. split; [unfold small; simpl; lia|]. split; [apply perm_swap|]. reflexivity. Qed.
