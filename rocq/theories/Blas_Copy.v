(** BatchMatMul with the feature blas: operands that are copied first. *)
From Coq Require Import List Arith ZArith Bool Lia.
Import ListNotations.
From Verif Require Import Eval_Proofs Array_Model Array_Proofs Arith_Proofs Dot_Model Dot_Proofs Batch_Model Batch_Proofs Blas_Model Blas_Spec Blas_Proofs.

Lemma fold_min_le l : forall x y, In y (x :: l) -> fold_left Nat.min l x <= y.
Proof.
  induction l as [|z l IH]; intros x y H; cbn [fold_left].
  - destruct H as [->|[]]. lia.
  - destruct H as [->|[->|H]].
    + etransitivity; [apply IH; left; reflexivity|lia].
    + etransitivity; [apply IH; left; reflexivity|lia].
    + apply IH. right. exact H.
Qed.
Lemma interleaved_copy strides : interleaved strides -> requires_copy strides = Some true.
Proof.
  intros (b & s0 & s1 & s & -> & Hs & Hl). unfold requires_copy. rewrite app_length. change (length [s0; s1]) with 2.
  destruct (nth_pair b s0 s1 0) as [-> ->]. rewrite firstn_here by lia. unfold least. destruct b as [|x b]; [destruct Hs|].
  pose proof (fold_min_le b x s Hs) as M. f_equal. apply orb_true_iff. rewrite !Nat.ltb_lt. lia.
Qed.
Lemma interleaved_swap strides : interleaved strides -> interleaved (swap_last strides).
Proof. intros (b & s0 & s1 & s & -> & Hs & Hl). rewrite swap_last_app. exists b, s1, s0, s. split; [reflexivity|]. split; [exact Hs|tauto]. Qed.

Section Copy.
  Context {A : Type} (zero : A) (add mul : A -> A -> A).
  Notation gm := (gemm zero add mul).

  Lemma deep_standard (w : view A) : standard (deep_copy zero w).
  Proof. reflexivity. Qed.
  Lemma deep_get (w : view A) i : prod (v_shape w) <> 0 -> in_bounds (v_shape w) i -> vget zero (deep_copy zero w) i = vget zero w i.
  Proof.
    intros N Hi. unfold vget at 1. cbn [deep_copy v_off v_strides v_mem]. rewrite std_row_major by exact N. rewrite row_major_ravel.
    change (nth (0 + ravel (v_shape w) i) (a_data (contents zero w)) zero) with (aget zero (contents zero w) i).
    unfold contents. rewrite aget_tab by exact Hi. reflexivity.
  Qed.

  (** What the kernel works on. *)
  Definition settled (w l : view A) : Prop :=
    (requires_copy (v_strides w) = Some true /\ l = deep_copy zero w) \/ (requires_copy (v_strides w) = Some false /\ l = w).
  Definition operand_ok (t : bool) (x : view A) : Prop := (t = false /\ standard x) \/ interleaved (v_strides x).

  Lemma settle (t : bool) batch p q (x : view A) : batch <> [] -> prod batch <> 0 -> p <> 0 -> q <> 0 ->
    v_shape x = vshape t batch p q -> length (v_strides x) = length (v_shape x) -> operand_ok t x ->
    v_shape (if t then vswap x else x) = batch ++ [p; q] /\
    exists l, settled (if t then vswap x else x) l /\ standard l /\ v_shape l = batch ++ [p; q] /\
      forall b i j, in_bounds batch b -> i < p -> j < q -> vget zero l (b ++ [i; j]) = bget zero t x b i j.
  Proof.
    intros N Nb Np Nq Sh Ln K.
    assert (E1 : v_shape (if t then vswap x else x) = batch ++ [p; q]).
    { destruct t; cbn [vswap v_shape]; rewrite Sh; unfold vshape; [apply swap_last_app|reflexivity]. }
    split; [exact E1|]. destruct K as [[-> St]|I].
    - exists x. split; [|split; [exact St|split; [exact E1|reflexivity]]]. right. split; [|reflexivity].
      rewrite St, Sh. unfold vshape. rewrite std_strides_last by assumption. apply no_copy; auto; nia.
    - exists (deep_copy zero (if t then vswap x else x)). split; [|split; [apply deep_standard|split]].
      + left. split; [|reflexivity]. apply interleaved_copy. destruct t; [cbn [vswap v_strides]; apply interleaved_swap|]; exact I.
      + exact E1.
      + intros b i j Hb Hi Hj. rewrite deep_get.
        * unfold bget. destruct t; [|reflexivity]. destruct I as (S & s0 & s1 & s & E & _). unfold vget. cbn [vswap v_off v_strides v_mem].
          f_equal. f_equal. rewrite E, swap_last_app.
          assert (L : length S = length b).
          { rewrite (in_bounds_length _ _ Hb). rewrite E, Sh in Ln. unfold vshape in Ln. rewrite !app_length in Ln. cbn [length] in Ln. lia. }
          clear -L. revert b L. induction S as [|z S IH]; intros [|c b] L; try discriminate; cbn [app stride_sum]; [lia|]. rewrite IH by (cbn in L; lia). reflexivity.
        * rewrite E1, prod_app. cbn [prod fold_right]. nia.
        * rewrite E1. apply Forall2_app; [exact Hb|]. repeat constructor; assumption.
  Qed.

  Lemma settled_shape w l : settled w l -> v_shape l = v_shape w.
  Proof. intros [[_ ->]|[_ ->]]; reflexivity. Qed.

  Section Both.
    Variables (batch : list nat) (m k n : nat) (w0 w1 l h : view A) (junk : nat -> A).
    Hypothesis (Nbt : batch <> []) (Nb : prod batch <> 0) (Nm : m <> 0) (Nk : k <> 0) (Nn : n <> 0).
    Hypothesis (Sb : Forall small batch) (Sm : small m) (Sk : small k) (Sn : small n).
    Hypothesis (S0 : settled w0 l) (S1 : settled w1 h) (T0 : standard l) (T1 : standard h).
    Hypothesis (Sh0 : v_shape l = batch ++ [m; k]) (Sh1 : v_shape h = batch ++ [k; n]).

    Lemma settled_no_copy (v : view A) p q : standard v -> v_shape v = batch ++ [p; q] -> p <> 0 -> q <> 0 -> requires_copy (v_strides v) = Some false.
    Proof. intros T Sh Np Nq. rewrite T, Sh, std_strides_last by assumption. apply no_copy; auto; nia. Qed.

    Lemma fast_settled : batch_fast zero add mul junk w0 w1 = batch_fast zero add mul junk l h.
    Proof.
      assert (P0 : v_shape w0 = batch ++ [m; k]) by (rewrite <- Sh0; symmetry; apply settled_shape; exact S0).
      assert (P1 : v_shape w1 = batch ++ [k; n]) by (rewrite <- Sh1; symmetry; apply settled_shape; exact S1).
      assert (R0 : exists c, requires_copy (v_strides w0) = Some c /\ (if c then deep_copy zero w0 else w0) = l).
      { destruct S0 as [[R ->]|[R ->]]; eauto. }
      assert (R1 : exists c, requires_copy (v_strides w1) = Some c /\ (if c then deep_copy zero w1 else w1) = h).
      { destruct S1 as [[R ->]|[R ->]]; eauto. }
      destruct R0 as (c0 & R0 & E0). destruct R1 as (c1 & R1 & E1).
      pose proof (settled_no_copy l m k T0 Sh0 Nm Nk) as Q0. pose proof (settled_no_copy h k n T1 Sh1 Nk Nn) as Q1.
      unfold batch_fast. rewrite R0, R1, Q0, Q1. cbv iota zeta. rewrite E0, E1, P0, P1, Sh0, Sh1.
      match goal with |- (if ?c then _ else _) = _ => assert (C : c = true) end; [|rewrite C; reflexivity].
      clear R0 R1 E0 E1 P0 P1 S0 S1. destruct l as [ml ol sl tl]. destruct h as [mh oh sh th]. unfold standard in T0, T1. cbn [v_shape v_strides] in *. subst sl sh tl th.
      rewrite !std_strides_last by assumption.
      assert (Lr : forall x y, length (batch ++ [x; y]) = length batch + 2) by (intros; rewrite app_length; reflexivity). rewrite !Lr.
      assert (LM : forall p, length (map (fun x => x * p) (row_major batch)) = length batch) by (intros; rewrite map_length; apply row_major_length).
      destruct (nth_last2 batch _ m k eq_refl) as [-> ->]. destruct (nth_last2 batch _ k n eq_refl) as [_ ->].
      destruct (nth_last2 _ _ k 1 (LM (m * k))) as [-> _]. destruct (nth_last2 _ _ n 1 (LM (k * n))) as [-> _].
      rewrite firstn_here by lia. rewrite std_strides_last by assumption.
      assert (S1' : small 1) by (unfold small; lia).
      assert (Sm0 : forall p q, small (nth 0 (batch ++ [p; q]) 0)).
      { intros p q. destruct batch as [|d r]; [contradiction|]. simpl. inversion Sb; assumption. }
      assert (Sm1 : forall p q, small p -> small (nth 1 (batch ++ [p; q]) 0)).
      { intros p q Hp. destruct batch as [|d [|d' r]]; [contradiction|exact Hp|]. simpl. inversion Sb as [|? ? _ H]. inversion H; assumption. }
      unfold vswap.
      destruct (Nat.eqb_spec k 1) as [Ek|Ek]; destruct (Nat.eqb_spec n 1) as [En|En]; destruct (Nat.eqb_spec m k) as [Emk|Emk]; destruct (Nat.eqb_spec k n) as [Ekn|Ekn];
        cbn [andb negb v_shape v_strides]; rewrite ?swap_last_app, !nd_pass; auto; try lia.
    Qed.
  End Both.

  Theorem batch_copied (ta tb : bool) batch m k n (x0 x1 : view A) (junk : nat -> A) :
    (forall x y, mul x y = mul y x) ->
    batch <> [] -> prod batch <> 0 -> m <> 0 -> k <> 0 -> n <> 0 ->
    v_shape x0 = vshape ta batch m k -> v_shape x1 = vshape tb batch k n ->
    length (v_strides x0) = length (v_shape x0) -> length (v_strides x1) = length (v_shape x1) ->
    operand_ok ta x0 -> operand_ok tb x1 ->
    Forall small batch -> small m -> small k -> small n ->
    length batch = 1 \/ nth 1 batch 0 <> 1 -> n <> 1 \/ m = 1 \/ k <> 1 ->
    exists y, batch_matmul_blas zero add mul junk ta tb x0 x1 = Ok y /\ a_shape y = batch ++ [m; n] /\ wf y /\
      forall b i j, in_bounds batch b -> i < m -> j < n -> aget zero y (b ++ [i; j]) = gm k (bget zero ta x0 b) (bget zero tb x1 b) i j.
  Proof.
    intros comm Nbt Nb Nm Nk Nn Sh0 Sh1 L0 L1 K0 K1 Sb Sm Sk Sn U V.
    destruct (settle ta batch m k x0 Nbt Nb Nm Nk Sh0 L0 K0) as (W0 & l & S0 & T0 & H0 & G0).
    destruct (settle tb batch k n x1 Nbt Nb Nk Nn Sh1 L1 K1) as (W1 & h & S1 & T1 & H1 & G1).
    assert (E : batch_matmul_blas zero add mul junk ta tb x0 x1 = batch_matmul_blas zero add mul junk false false l h).
    { unfold batch_matmul_blas. rewrite H0, H1, Sh0, Sh1. unfold vshape. rewrite !app_length.
      replace (length (if ta then [k; m] else [m; k])) with 2 by (destruct ta; reflexivity).
      replace (length (if tb then [n; k] else [k; n])) with 2 by (destruct tb; reflexivity). cbn [length].
      destruct (Nat.ltb_spec (length batch + 2) 2) as [|_]; [lia|]. cbn [orb]. cbv iota zeta. rewrite ?H0, ?H1, W0, W1. rewrite !firstn_here by lia.
      destruct (_ && _); [|reflexivity]. apply fast_settled with (batch := batch) (m := m) (k := k) (n := n); auto. }
    rewrite E.
    destruct (batch_blas_ok zero add mul comm false false batch m k n l h junk) as (y & E2 & A1 & A2 & A3); auto.
    { destruct V as [V|[V|V]]; auto. }
    exists y. split; [exact E2|]. split; [exact A1|]. split; [exact A2|]. intros b i j Hb Hi Hj. rewrite A3 by assumption.
    apply gemm_ext; intros c Hc; [apply (G0 b i c)|apply (G1 b c j)]; auto.
  Qed.

  Lemma shape_eqb_no s t : s <> t -> shape_eqb s t = false.
  Proof. intros H. destruct (shape_eqb s t) eqn:E; [|reflexivity]. apply shape_eqb_ok in E. contradiction. Qed.
  (** Operands without rows and columns, of different ranks, or of different batches. *)
  Theorem batch_mismatch (ta tb : bool) (x0 x1 : view A) (junk : nat -> A) :
    length (v_shape x0) < 2 \/ length (v_shape x1) < 2 \/ length (v_shape x0) <> length (v_shape x1) \/
    (exists b0 b1 p0 q0 p1 q1, v_shape x0 = b0 ++ [p0; q0] /\ v_shape x1 = b1 ++ [p1; q1] /\ b0 <> b1) ->
    batch_matmul_blas zero add mul junk ta tb x0 x1 = OpErr.
  Proof.
    intros H. unfold batch_matmul_blas. destruct (Nat.ltb_spec (length (v_shape x0)) 2) as [|G0]; [reflexivity|].
    destruct (Nat.ltb_spec (length (v_shape x1)) 2) as [|G1]; [reflexivity|]. cbn [orb]. cbv iota zeta.
    destruct H as [H|[H|[H|H]]]; [lia|lia| |].
    - apply Nat.eqb_neq in H. rewrite H. reflexivity.
    - destruct (Nat.eqb_spec (length (v_shape x0)) (length (v_shape x1))) as [El|]; [|reflexivity]. cbn [andb].
      destruct H as (b0 & b1 & p0 & q0 & p1 & q1 & E0 & E1 & Nq). rewrite E0, E1, !app_length in El. cbn in El.
      replace (firstn (length (v_shape x0) - 2) (v_shape (if ta then vswap x0 else x0))) with b0.
      2: { destruct ta; cbn [vswap v_shape]; rewrite E0, ?swap_last_app, app_length; symmetry; apply firstn_here; cbn; lia. }
      replace (firstn (length (v_shape x0) - 2) (v_shape (if tb then vswap x1 else x1))) with b1.
      2: { destruct tb; cbn [vswap v_shape]; rewrite E0, E1, ?swap_last_app, app_length; symmetry; apply firstn_here; cbn; lia. }
      rewrite shape_eqb_no by exact Nq. reflexivity.
  Qed.
End Copy.
