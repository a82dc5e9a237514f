(** C35, C47, C48: matrix products. *)
From Coq Require Import List Arith ZArith Bool Lia Reals Lra RealField Permutation.
Import ListNotations.
From Verif Require Import Eval_Proofs Array_Model Array_Proofs Array_Sum Arith_Model Arith_Proofs Vjp_Spec Vjp_Proofs Arith_Final Reduce_Model Shape_Model Shape_Spec Shape_Proofs3 Dot_Model Dot_Spec Dot_Proofs Batch_Model Batch_Proofs.
Local Open Scope R_scope.
Ltac reals := cbv -[Rplus Rmult Rminus Ropp IZR]; apply f_equal; apply (f_equal2 (@Arr R)); [reflexivity|]; repeat (apply (f_equal2 (@cons R)); [lra|]); reflexivity.

(** ** C35: matmul *)
(** An operand that is transposed first is stored the other way round. *)
Theorem C35_product : forall (ta tb : bool) m k n a b,
  a_shape a = (if ta then [k; m] else [m; k]) -> a_shape b = (if tb then [n; k] else [k; n]) ->
  exists y, matmul 0 Rplus Rmult ta tb a b = Ok y /\
    product_of m k n (fun i l => aget 0 a (if ta then [l; i] else [i; l])) (fun l j => aget 0 b (if tb then [j; l] else [l; j])) y.
Proof.
  intros ta tb m k n a b Sa Sb. exists (mat ta tb m k n a b). split; [apply matmul_mat; assumption|]. apply (mat_product ta tb m k n a b).
Qed.
Print Assumptions C35_product.
Theorem C35_mismatch : forall (A : Type) (zero : A) add mul (ta tb : bool) a b m k k' n,
  a_shape a = (if ta then [k; m] else [m; k]) -> a_shape b = (if tb then [n; k'] else [k'; n]) -> k <> k' ->
  matmul zero add mul ta tb a b = OpErr.
Proof. intros A zero add mul ta tb a b m k k' n Sa Sb N. unfold matmul. rewrite Sa, Sb. destruct ta, tb; simpl; destruct (Nat.eqb_spec k k'); (contradiction || reflexivity). Qed.
Print Assumptions C35_mismatch.
Theorem C35_not_matrices : forall (A : Type) (zero : A) add mul ta tb a b, length (a_shape a) <> 2%nat \/ length (a_shape b) <> 2%nat ->
  matmul zero add mul ta tb a b = Panic.
Proof.
  intros A zero add mul ta tb a b H. unfold matmul.
  destruct (a_shape a) as [|a0 [|a1 [|a2 sa]]]; try reflexivity. destruct (a_shape b) as [|b0 [|b1 [|b2 sb]]]; try reflexivity. simpl in H. lia.
Qed.
Print Assumptions C35_not_matrices.
Theorem C35_gradients : forall m k n a b gy, has_shape [m; k] a -> has_shape [k; n] b -> has_shape [m; n] gy ->
  (exists ga, matmul_grad_a 0 Rplus Rmult false false a b gy = Ok ga /\ vjp (fun a => ok (matmul 0 Rplus Rmult false false a b)) a gy ga) /\
  (exists gb, matmul_grad_b 0 Rplus Rmult false false a b gy = Ok gb /\ vjp (fun b => ok (matmul 0 Rplus Rmult false false a b)) b gy gb).
Proof.
  intros m k n a b gy Ha Hb Hg. split.
  - exists (mat false true m n k gy b). split.
    + apply matmul_mat; simpl; [apply Hg|apply Hb].
    + apply (matmul_vjp_a false false m k n a b gy Ha Hb Hg).
  - exists (mat true false k m n a gy). split.
    + apply matmul_mat; simpl; [apply Ha|apply Hg].
    + apply (matmul_vjp_b false false m k n a b gy Ha Hb Hg).
Qed.
Print Assumptions C35_gradients.
(** The gradients of matmul are themselves matmuls with a transposed operand.
    Their own gradient rules are those of the plain product and are wrong. *)
(** Left operand transposed (this is the gradient for b): the gradient for the
    left operand is computed transposed, so it is right only if it is symmetric;
    the one for the right operand fails unless the left operand is square. *)
Theorem C35_transposed_left : forall m k n a b gy, has_shape [k; m] a -> has_shape [k; n] b -> has_shape [m; n] gy ->
  (exists ga ga', matmul_grad_a 0 Rplus Rmult true false a b gy = Ok ga /\ permuted 0 [1; 0]%nat ga ga' /\
     vjp (fun a => ok (matmul 0 Rplus Rmult true false a b)) a gy ga' /\
     (m <> k -> ~ vjp (fun a => ok (matmul 0 Rplus Rmult true false a b)) a gy ga)) /\
  (m <> k -> matmul_grad_b 0 Rplus Rmult true false a b gy = OpErr).
Proof.
  intros m k n a b gy Ha Hb Hg. split.
  - exists (mat false true m n k gy b), (mat false true k n m b gy). split; [apply matmul_mat; simpl; [apply Hg|apply Hb]|]. split.
    + split; [reflexivity|]. split; [apply (proj2 (mat_shape false true k n m b gy))|]. intros i Hi. apply pair_bounds in Hi. destruct Hi as (r & c & -> & Hr & Hc).
      simpl map. rewrite !mat_get by auto. apply sum_below_ext. intros l _. unfold mget. ring.
    + split; [apply (matmul_vjp_a true false m k n a b gy Ha Hb Hg)|].
      intros N [[S _] _]. destruct Ha as [Sa _]. rewrite Sa in S. simpl in S. congruence.
  - intros N. unfold matmul_grad_b, matmul. rewrite (proj1 Ha), (proj1 Hg). destruct (Nat.eqb_spec k m); [congruence|reflexivity].
Qed.
Print Assumptions C35_transposed_left.
(** Right operand transposed (the gradient for a). *)
Theorem C35_transposed_right : forall m k n a b gy, has_shape [m; k] a -> has_shape [n; k] b -> has_shape [m; n] gy ->
  (exists gb gb', matmul_grad_b 0 Rplus Rmult false true a b gy = Ok gb /\ permuted 0 [1; 0]%nat gb gb' /\
     vjp (fun b => ok (matmul 0 Rplus Rmult false true a b)) b gy gb' /\
     (n <> k -> ~ vjp (fun b => ok (matmul 0 Rplus Rmult false true a b)) b gy gb)) /\
  (n <> k -> matmul_grad_a 0 Rplus Rmult false true a b gy = OpErr).
Proof.
  intros m k n a b gy Ha Hb Hg. split.
  - exists (mat true false k m n a gy), (mat true false n m k gy a). split; [apply matmul_mat; simpl; [apply Ha|apply Hg]|]. split.
    + split; [reflexivity|]. split; [apply (proj2 (mat_shape true false n m k gy a))|]. intros i Hi. apply pair_bounds in Hi. destruct Hi as (r & c & -> & Hr & Hc).
      simpl map. rewrite !mat_get by auto. apply sum_below_ext. intros l _. unfold mget. ring.
    + split; [apply (matmul_vjp_b false true m k n a b gy Ha Hb Hg)|].
      intros N [[S _] _]. destruct Hb as [Sb _]. rewrite Sb in S. simpl in S. congruence.
  - intros N. unfold matmul_grad_a, matmul. rewrite (proj1 Hb), (proj1 Hg). destruct (Nat.eqb_spec n k); [congruence|reflexivity].
Qed.
Print Assumptions C35_transposed_right.
(** Also for square operands. *)
Theorem C35_transposed_square_refuted :
  let a := Arr [2;2]%nat [1;2;3;4] in let b := Arr [2;2]%nat [1;0;1;1] in let gy := Arr [2;2]%nat [1;0;0;0] in
  (exists ga, matmul_grad_a 0 Rplus Rmult true false a b gy = Ok ga /\ ~ vjp (fun a => ok (matmul 0 Rplus Rmult true false a b)) a gy ga) /\
  (exists gb, matmul_grad_b 0 Rplus Rmult true false a b gy = Ok gb /\ ~ vjp (fun b => ok (matmul 0 Rplus Rmult true false a b)) b gy gb).
Proof.
  cbv zeta. set (a := Arr [2;2]%nat [1;2;3;4]). set (b := Arr [2;2]%nat [1;0;1;1]). set (gy := Arr [2;2]%nat [1;0;0;0]).
  assert (Ha : has_shape [2;2]%nat a) by (split; reflexivity). assert (Hb : has_shape [2;2]%nat b) by (split; reflexivity). assert (Hg : has_shape [2;2]%nat gy) by (split; reflexivity).
  split.
  - exists (mat false true 2 2 2 gy b). split; [apply matmul_mat; reflexivity|]. intros V.
    pose proof (vjp_unique _ _ _ _ _ V (matmul_vjp_a true false 2 2 2 a b gy Ha Hb Hg)) as E.
    apply (f_equal (fun x => aget 0 x [0;1]%nat)) in E. rewrite !mat_get in E by lia. cbv -[Rplus Rmult IZR] in E. lra.
  - exists (mat true false 2 2 2 a gy). split; [apply matmul_mat; reflexivity|]. intros V.
    pose proof (vjp_unique _ _ _ _ _ V (matmul_vjp_b true false 2 2 2 a b gy Ha Hb Hg)) as E.
    apply (f_equal (fun x => aget 0 x [1;0]%nat)) in E. rewrite !mat_get in E by lia. cbv -[Rplus Rmult IZR] in E. lra.
Qed.
Print Assumptions C35_transposed_square_refuted.
Example C35_hypotheses_met :
  let a := Arr [2;3]%nat [1;2;3;4;5;6] in let b := Arr [3;1]%nat [1;0;2] in
  has_shape [2;3]%nat a /\ has_shape [3;1]%nat b /\ matmul 0 Rplus Rmult false false a b = Ok (Arr [2;1]%nat [7;16]) /\
  matmul_grad_a 0 Rplus Rmult false false a b (Arr [2;1]%nat [1;10]) = Ok (Arr [2;3]%nat [1;0;2;10;0;20]).
Proof. cbv zeta. split; [split; reflexivity|]. split; [split; reflexivity|]. split; reals. Qed.

(** ** C47: tensordot *)
Theorem C47_tensordot : forall a b za zb xa xb,
  has_shape (a_shape a) a -> has_shape (a_shape b) b ->
  Forall2 (names_axis (length (a_shape a))) za xa -> Forall2 (names_axis (length (a_shape b))) zb xb ->
  NoDup xa -> NoDup xb -> at_axes xa (a_shape a) = at_axes xb (a_shape b) ->
  exists y, tensordot 0 Rplus Rmult a b za zb = Some y /\ contraction a b xa xb y.
Proof. intros a b za zb xa xb [_ Wa] [_ Wb]. apply tensordot_ok; assumption. Qed.
Print Assumptions C47_tensordot.
(** Whatever the axes are, the contracted sizes must have the same product. *)
Theorem C47_mismatch : forall (A : Type) (zero : A) add mul a b za zb xa xb,
  Forall2 (names_axis (length (a_shape a))) za xa -> Forall2 (names_axis (length (a_shape b))) zb xb ->
  prod (at_axes xa (a_shape a)) <> prod (at_axes xb (a_shape b)) -> tensordot zero add mul a b za zb = None.
Proof.
  intros A zero add mul a b za zb xa xb Fa Fb N. unfold tensordot. rewrite (normalize_names _ _ _ Fa), (normalize_names _ _ _ Fb). unfold bind, tensordot_pre.
  destruct (forallb _ xa); [|reflexivity]. destruct (forallb _ xb); [|reflexivity].
  destruct (transpose _ _ _ a) as [ta|]; [|reflexivity]. destruct (reshape _ ta) as [ra|] eqn:Ra; [|reflexivity].
  destruct (transpose _ _ _ b) as [tb|]; [|reflexivity]. destruct (reshape _ tb) as [rb|] eqn:Rb; [|reflexivity].
  assert (R : forall (x y : arr A) u v, reshape (map Z.of_nat [u; v]) x = Some y -> a_shape y = [u; v]).
  { clear. intros x y u v E. unfold reshape in E. simpl reshape_dims in E. unfold reshape_dim in E.
    destruct (Z.eqb_spec (Z.of_nat u) (-1)); [lia|]. destruct (Z.ltb_spec (Z.of_nat u) 0); [lia|]. destruct (Z.eqb_spec (Z.of_nat v) (-1)); [lia|]. destruct (Z.ltb_spec (Z.of_nat v) 0); [lia|].
    rewrite !Nat2Z.id in E. simpl in E. unfold into_shape in E. destruct (_ =? _)%nat; [|discriminate]. injection E as <-. reflexivity. }
  apply R in Ra. apply R in Rb. unfold matmul. rewrite Ra, Rb. unfold dims_at. fold (at_axes xa (a_shape a)). fold (at_axes xb (a_shape b)).
  destruct (Nat.eqb_spec (prod (at_axes xa (a_shape a))) (prod (at_axes xb (a_shape b)))); [contradiction|reflexivity].
Qed.
Print Assumptions C47_mismatch.
Example C47_hypotheses_met :
  let a := Arr [2;3;2]%nat [1;2;3;4;5;6;7;8;9;10;11;12] in let b := Arr [3;2;1]%nat [1;0;2;0;0;1] in
  Forall2 (names_axis 3) [1; -3]%Z [1;0]%nat /\ Forall2 (names_axis 3) [0;1]%Z [0;1]%nat /\ at_axes [1;0]%nat [2;3;2]%nat = at_axes [0;1]%nat [3;2;1]%nat /\
  tensordot 0 Rplus Rmult a b [1; -3]%Z [0;1]%Z = Some (Arr [2;1]%nat [18;22]).
Proof.
  cbv zeta. split; [repeat (apply Forall2_cons; [split; [lia|]; lia|]); constructor|].
  split; [repeat (apply Forall2_cons; [split; [lia|]; lia|]); constructor|]. split; [reflexivity|]. reals.
Qed.

(** ** C48: batch_matmul *)
(** On operands in standard layout with at least one batch axis and no empty
    axis, each matrix of the result is the product of the operands' matrices. *)
Theorem C48_product : forall (ta tb : bool) batch m k n (x0 x1 : view R), batch <> [] -> prod batch <> 0%nat -> m <> 0%nat -> k <> 0%nat -> n <> 0%nat ->
  standard x0 -> standard x1 ->
  v_shape x0 = batch ++ (if ta then [k; m] else [m; k]) -> v_shape x1 = batch ++ (if tb then [n; k] else [k; n]) ->
  exists y, batch_matmul 0 Rplus Rmult ta tb x0 x1 = Ok y /\ has_shape (batch ++ [m; n]) y /\
    forall b i j, in_bounds batch b -> (i < m)%nat -> (j < n)%nat ->
      aget 0 y (b ++ [i; j]) = sum_below k (fun l => aget 0 (contents 0 x0) (b ++ (if ta then [l; i] else [i; l])) * aget 0 (contents 0 x1) (b ++ (if tb then [j; l] else [l; j]))).
Proof.
  intros ta tb batch m k n x0 x1 N Nb Nm Nk Nn S0 S1 Sh0 Sh1.
  destruct (batch_ok 0 Rplus Rmult ta tb batch m k k n x0 x1 N Nb Nm Nk Nn Nk S0 S1 Sh0 Sh1) as (y & E & Sy & W & G).
  exists y. split; [exact E|]. split; [apply has_shape_wf; auto|]. intros b i j Hb Hi Hj. rewrite (G (le_n _)) by auto. rewrite gemm_sum.
  apply sum_below_ext. intros l Hl. unfold bget, contents. rewrite !aget_tab; [reflexivity| |].
  - rewrite Sh1. apply Forall2_app; [exact Hb|]. destruct tb; apply in_bounds_pair; auto.
  - rewrite Sh0. apply Forall2_app; [exact Hb|]. destruct ta; apply in_bounds_pair; auto.
Qed.
Print Assumptions C48_product.
Theorem C48_gradients : forall batch m k n a b gy, batch <> [] -> prod batch <> 0%nat -> m <> 0%nat -> k <> 0%nat -> n <> 0%nat ->
  has_shape (batch ++ [m; k]) a -> has_shape (batch ++ [k; n]) b -> has_shape (batch ++ [m; n]) gy ->
  (exists ga, batch_grad_a 0 Rplus Rmult false false (of_arr a) (of_arr b) (of_arr gy) = Ok ga /\
     vjp (fun a => ok (batch_matmul 0 Rplus Rmult false false (of_arr a) (of_arr b))) a gy ga) /\
  (exists gb, batch_grad_b 0 Rplus Rmult false false (of_arr a) (of_arr b) (of_arr gy) = Ok gb /\
     vjp (fun b => ok (batch_matmul 0 Rplus Rmult false false (of_arr a) (of_arr b))) b gy gb).
Proof. intros. split; [apply (batch_vjp_a batch m k n)|apply (batch_vjp_b batch m k n)]; assumption. Qed.
Print Assumptions C48_gradients.
(** Documented for rank >= 2, but plain matrices panic. *)
Theorem C48_matrices_panic : forall (A : Type) (zero : A) add mul ta tb x0 x1 m k k' n,
  v_shape x0 = [m; k] -> length (v_strides x0) = 2%nat -> v_shape x1 = [k'; n] -> batch_matmul zero add mul ta tb x0 x1 = Panic.
Proof.
  intros A zero add mul ta tb x0 x1 m k k' n S0 L0 S1. unfold batch_matmul. rewrite S0, S1. cbn [length Nat.ltb Nat.leb orb Nat.eqb andb Nat.sub firstn].
  change (shape_eqb [] []) with true. cbv iota. unfold batch_kernel.
  assert (R : requires_copy (v_strides (if ta then vswap x0 else x0)) = None).
  { destruct (v_strides x0) as [|s [|s' [|? ?]]] eqn:Q; try discriminate. destruct ta; [unfold vswap|]; simpl; rewrite ?Q; reflexivity. }
  rewrite R. reflexivity.
Qed.
Print Assumptions C48_matrices_panic.
(** The inner dimensions are not compared: with a longer right operand the
    result is the product with its first rows. *)
Theorem C48_inner_dimension_unchecked : forall batch m k k2 n (x0 x1 : view R), batch <> [] -> prod batch <> 0%nat -> m <> 0%nat -> k <> 0%nat -> n <> 0%nat ->
  (k < k2)%nat -> standard x0 -> standard x1 -> v_shape x0 = batch ++ [m; k] -> v_shape x1 = batch ++ [k2; n] ->
  exists y, batch_matmul 0 Rplus Rmult false false x0 x1 = Ok y /\ has_shape (batch ++ [m; n]) y /\
    forall b i j, in_bounds batch b -> (i < m)%nat -> (j < n)%nat ->
      aget 0 y (b ++ [i; j]) = sum_below k (fun l => aget 0 (contents 0 x0) (b ++ [i; l]) * aget 0 (contents 0 x1) (b ++ [l; j])).
Proof.
  intros batch m k k2 n x0 x1 N Nb Nm Nk Nn Hk S0 S1 Sh0 Sh1.
  destruct (batch_ok 0 Rplus Rmult false false batch m k k2 n x0 x1 N Nb Nm Nk Nn ltac:(lia) S0 S1 Sh0 Sh1) as (y & E & Sy & W & G).
  exists y. split; [exact E|]. split; [apply has_shape_wf; auto|]. intros b i j Hb Hi Hj. rewrite (G ltac:(lia)) by auto. rewrite gemm_sum.
  apply sum_below_ext. intros l Hl. unfold bget, contents. rewrite !aget_tab; [reflexivity| |].
  - rewrite Sh1. apply Forall2_app; [exact Hb|]. apply in_bounds_pair; lia.
  - rewrite Sh0. apply Forall2_app; [exact Hb|]. apply in_bounds_pair; lia.
Qed.
Print Assumptions C48_inner_dimension_unchecked.
(** Transposed batch axes ([transpose] returns a view) give the products of the
    wrong pairs: two views with the same contents, different results. *)
Theorem C48_transposed_batches_refuted :
  let x := View [1;2;3;4] 0 [2;2;1;1]%nat (std_strides [2;2;1;1]%nat) in
  let t := vpermute [1;0;2;3]%nat x in
  let t' := View [1;3;2;4] 0 [2;2;1;1]%nat (std_strides [2;2;1;1]%nat) in
  let one := View [1;1;1;1] 0 [2;2;1;1]%nat (std_strides [2;2;1;1]%nat) in
  contents 0 t = contents 0 t' /\
  batch_matmul 0 Rplus Rmult false false t' one = Ok (Arr [2;2;1;1]%nat [1;3;2;4]) /\
  batch_matmul 0 Rplus Rmult false false t one = Ok (Arr [2;2;1;1]%nat [1;2;3;4]).
Proof.
  cbv zeta. split; [reflexivity|]. split; reals.
Qed.
Print Assumptions C48_transposed_batches_refuted.
(** When a copy is made, its strides are used with the original memory. *)
Theorem C48_copied_operand_refuted :
  let x := View [1;2;3;4] 0 [2;1;2]%nat (std_strides [2;1;2]%nat) in
  let t := vpermute [2;1;0]%nat x in
  let t' := View [1;3;2;4] 0 [2;1;2]%nat (std_strides [2;1;2]%nat) in
  let one := View [1;0;1;0] 0 [2;2;1]%nat (std_strides [2;2;1]%nat) in
  requires_copy (v_strides t) = Some true /\ contents 0 t = contents 0 t' /\
  batch_matmul 0 Rplus Rmult false false t' one = Ok (Arr [2;1;1]%nat [1;2]) /\
  batch_matmul 0 Rplus Rmult false false t one = Ok (Arr [2;1;1]%nat [1;3]).
Proof. cbv zeta. split; [reflexivity|]. split; [reflexivity|]. split; reals. Qed.
Print Assumptions C48_copied_operand_refuted.
Example C48_hypotheses_met :
  let a := Arr [2;1;2]%nat [1;2;3;4] in let b := Arr [2;2;1]%nat [1;2;3;4] in
  standard (of_arr a) /\ standard (of_arr b) /\
  batch_matmul 0 Rplus Rmult false false (of_arr a) (of_arr b) = Ok (Arr [2;1;1]%nat [5;25]).
Proof. cbv zeta. split; [reflexivity|]. split; [reflexivity|]. reals. Qed.
