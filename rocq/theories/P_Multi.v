(** C81: operations with two outputs and the gradients read from the second. *)
From Coq Require Import List Arith ZArith NArith Bool Reals Lia Lra.
Import ListNotations.
From Verif Require Import Graph_Model Eval_Model Eval_Spec Eval_Proofs Eval_Proofs2 Graph_Proofs Scalar_Model.
From Verif Require Import Array_Model Array_Proofs Arith_Model Vjp_Spec Softmax_Model Softmax_Spec P_Softmax Tens_Model Num_Model Num_Proofs.
From Verif Require P_Arith Softmax_Xent Conv_Model Conv_Proofs Conv_Spec P_Conv P_ConvGrad Pool_Model Pool_Spec Pool_Proofs P_Pool.
From Verif Require Import Dot_Spec Multi_Model Multi_Proofs.
Local Set Bullet Behavior "Strict Subproofs".
Local Open Scope R_scope.

Section MultiGraph.
  Context {Op Err : Type}.
  Variable other : Op -> list (opin (arr R)) -> cout (arr R) Err.
  Variable bad : Err.
  Variable uninit : nat -> R.
  Variable at_empty : arr R -> option R.
  Variable debug : bool.
  Variable G : graph (mop Op).
  Variable feeds : list (ph_key * arr R).
  Variable env : list (arr R).
  Notation mc := (mcompute other bad uninit at_empty).
  Notation reads := (reads (@a_shape R) mc debug G feeds env).
  Notation value := (value (@a_shape R) mc debug G feeds env).
  Notation tensor_value := (tensor_value (@a_shape R) mc debug G feeds env).
  Hypothesis Hvp : forall i n, nth_error G i = Some n -> n_var n <> None -> n_ph n = None.

  Lemma identity_node g g' x k y more : nth_tensor g x k = Some (g', y) -> G = g' ++ more ->
    exists n, op_node G y n /\ n_op n = MIdentity /\ n_inputs n = [Incoming x false k].
  Proof.
    intros B Eg. apply built_node in B; [|reflexivity|reflexivity]. destruct B as (_ & n & _ & N & O & I).
    exists n. split; [rewrite Eg; apply op_node_app; exact N|]. split; [exact O|exact I].
  Qed.
  Lemma made_node g g' xs bs o t more : node_of g xs bs o = Some (g', t) -> G = g' ++ more ->
    exists n, op_node G t n /\ n_op n = o /\ n_inputs n = map (fun x => Incoming x false 0) xs.
  Proof.
    unfold node_of. intros B Eg.
    set (b := fold_left (fun b x => append_input b x false 0) xs new_builder) in B.
    assert (I : forall xs b, b_inputs (fold_left (fun b x => append_input b x false 0) xs b) = b_inputs b ++ map (fun x => Incoming x false 0) xs
      /\ b_ph (fold_left (fun b x => append_input b x false 0) xs b) = b_ph b /\ b_var (fold_left (fun b x => append_input b x false 0) xs b) = b_var b).
    { clear. induction xs as [|x xs IH]; intros b; cbn; [rewrite app_nil_r; auto|]. destruct (IH (append_input b x false 0)) as (A & B & C).
      rewrite A, B, C. cbn. rewrite <- app_assoc. auto. }
    assert (J : forall bs b, b_inputs (fold_left append_backprop_input bs b) = b_inputs b
      /\ b_ph (fold_left append_backprop_input bs b) = b_ph b /\ b_var (fold_left append_backprop_input bs b) = b_var b).
    { clear. induction bs as [|x bs IH]; intros b; cbn; [auto|]. destruct (IH (append_backprop_input b x)) as (A & B & C). rewrite A, B, C. auto. }
    destruct (I xs new_builder) as (I1 & I2 & I3). fold b in I1, I2, I3. destruct (J bs b) as (J1 & J2 & J3).
    apply built_node in B; [|rewrite J2, I2; reflexivity|rewrite J3, I3; reflexivity]. destruct B as (_ & n & _ & N & O & E).
    exists n. split; [rewrite Eg; apply op_node_app; exact N|]. split; [exact O|]. rewrite E, J1, I1. reflexivity.
  Qed.
  Lemma identity_value y n x k m v : op_node G y n -> n_op n = MIdentity -> n_inputs n = [Incoming x false k] -> op_node G x m ->
    forall ys, value x (inl ys) -> nth_error ys k = Some v -> tensor_value y (inl v).
  Proof.
    intros N O I M ys W E. apply (first_of _ _ _ _ _ _ y v []). apply (runs _ _ _ _ _ _ y n [v]); [exact N| |
      |discriminate].
    - rewrite I. constructor; [|constructor]. apply (reads_output _ _ _ _ _ _ x m); [exact M|reflexivity|]. exists ys. split; assumption.
    - intros bs Eb. rewrite O. destruct bs as [|b [|? ?]]; try discriminate. cbn in Eb |- *. injection Eb as ->. reflexivity.
  Qed.
  (** The tensors of the rules: inputs read their tensors' values. *)
  Lemma made_value t n xs vs ys : op_node G t n -> n_inputs n = map (fun x => Incoming x false 0) xs ->
    Forall2 (fun x v => tensor_value x (inl v)) xs vs ->
    (forall bs, map opin_val bs = vs -> mc (n_op n) bs = CRet [] ys None) -> ys <> [] -> value t (inl ys).
  Proof.
    intros N I F C D. apply (runs _ _ _ _ _ _ t n vs); auto. rewrite I. clear - F Hvp.
    induction F as [|x v xs vs T F IH]; constructor; [apply reads_first; assumption|exact IH].
  Qed.
  Lemma made_stuck t n xs vs r : op_node G t n -> n_inputs n = map (fun x => Incoming x false 0) xs ->
    Forall2 (fun x v => tensor_value x (inl v)) xs vs ->
    (forall bs, map opin_val bs = vs -> mc (n_op n) bs = CPanic) -> ~ tensor_value t r.
  Proof.
    intros N I F C T. pose proof (op_tensor_value _ _ _ _ _ _ _ _ _ N T) as W.
    assert (S : forall r, ~ value t r).
    { intros r'. apply (stuck _ _ _ _ _ _ Hvp t n vs); auto. rewrite I. clear - F Hvp.
      induction F as [|x v xs vs T F IH]; constructor; [apply reads_first; assumption|exact IH]. }
    destruct r as [v|e]; [destruct W as (ys & W)|]; exact (S _ W).
  Qed.
End MultiGraph.

Ltac vals bs E := destruct bs as [|? [|? [|? [|? ?]]]]; try discriminate E; cbn in E; injection E as ? ?; subst.

(** [nth_tensor] gives output [k] of an operation, has no value if there is none, and
    passes errors on. *)
Theorem C81_nth_tensor :
  forall (Op Err : Type) (other : Op -> list (opin (arr R)) -> cout (arr R) Err) (bad : Err) (uninit : nat -> R)
    (at_empty : arr R -> option R) (debug : bool) (feeds : list (ph_key * arr R)) (env : list (arr R))
    (g g' more : graph (mop Op)) (x k y : nat) (m : node (mop Op)),
  (forall i n, nth_error (g' ++ more) i = Some n -> n_var n <> None -> n_ph n = None) ->
  nth_tensor g x k = Some (g', y) -> op_node (g' ++ more) x m ->
  let value := value (@a_shape R) (mcompute other bad uninit at_empty) debug (g' ++ more) feeds env in
  let tensor_value := tensor_value (@a_shape R) (mcompute other bad uninit at_empty) debug (g' ++ more) feeds env in
  (forall v, tensor_value y (inl v) <-> exists ys, value x (inl ys) /\ nth_error ys k = Some v) /\
  (forall e, tensor_value y (inr e) <-> value x (inr e)).
Proof.
  intros Op Err other bad uninit at_empty debug feeds env g g' more x k y m Hvp B Hm value tensor_value. subst value tensor_value.
  destruct (identity_node (g' ++ more) g g' x k y more B eq_refl) as (n & N & O & I). split.
  - intros v. split.
    + intros T. destruct (op_tensor_value _ _ _ _ _ _ _ _ _ N T) as (zs & W).
      inversion W as [i n' bs ws ys st Hn' A Hc Hd E1 E2|]; subst.
      assert (n' = n) by (destruct Hn', N; congruence). subst n'. rewrite I in A. inversion A as [|? b ? bs' Ab Bs]; subst.
      inversion Bs; subst. rewrite O in Hc. cbn in Hc. injection Hc as <- <- <-. injection E2 as <- <-.
      apply (reads_output _ _ _ _ _ _ x m (Incoming x false k)); [exact Hm|reflexivity|]. exists b. split; [exact Ab|reflexivity].
    + intros (ys & W & E). exact (identity_value _ _ _ _ _ _ _ _ y n x k m v N O I Hm ys W E).
  - intros e. split.
    + intros T. pose proof (op_tensor_value _ _ _ _ _ _ _ _ _ N T) as W. cbn in W.
      inversion W as [i n' bs ws ys st Hn' A Hc Hd E1 E2|i n' pre inc post m' e' Hn' Hin Hp Hm' He E1 E2]; subst.
      * assert (n' = n) by (destruct Hn', N; congruence). subst n'. rewrite O in Hc. destruct bs; cbn in Hc; [discriminate|].
        injection Hc as <- <- <-. discriminate.
      * assert (n' = n) by (destruct Hn', N; congruence). subst n'. rewrite I in Hin.
        destruct pre as [|p pre]; cbn in Hin; [|destruct pre; discriminate Hin]. injection Hin as <- _. exact He.
    + intros W. apply tv_err. apply (value_fail _ _ _ _ _ _ y n [] (Incoming x false k) [] m); auto. intros a [].
Qed.
Print Assumptions C81_nth_tensor.

(** A variable or placeholder has only itself, whatever output is asked for. *)
Theorem C81_nth_of_leaf :
  forall (Op Err : Type) (other : Op -> list (opin (arr R)) -> cout (arr R) Err) (bad : Err) (uninit : nat -> R)
    (at_empty : arr R -> option R) (debug : bool) (feeds : list (ph_key * arr R)) (env : list (arr R))
    (g g' more : graph (mop Op)) (x k y : nat) (v : arr R),
  (forall i n, nth_error (g' ++ more) i = Some n -> n_var n <> None -> n_ph n = None) ->
  nth_tensor g x k = Some (g', y) -> (forall m, ~ op_node (g' ++ more) x m) ->
  let tensor_value := tensor_value (@a_shape R) (mcompute other bad uninit at_empty) debug (g' ++ more) feeds env in
  tensor_value x (inl v) -> tensor_value y (inl v).
Proof.
  intros Op Err other bad uninit at_empty debug feeds env g g' more x k y v Hvp B Hm tensor_value T. subst tensor_value.
  destruct (identity_node (g' ++ more) g g' x k y more B eq_refl) as (n & N & O & I).
  assert (A : reads (@a_shape R) (mcompute other bad uninit at_empty) debug (g' ++ more) feeds env (Incoming x false k) v).
  { inversion T as [m vid v' H1 H2 H3|m v' H1 H2 H3|w ys H1|]; subst.
    - exists (RdOnly v). split; [|reflexivity]. apply (arg_var _ _ _ _ _ _ (Incoming x false k) m vid v); auto. apply (Hvp x); congruence.
    - exists (NonVar v). split; [|reflexivity]. eapply arg_ph; eauto.
    - exfalso. assert (exists m, op_node (g' ++ more) x m) as (m & Q) by (inversion H1; subst; eauto). exact (Hm m Q). }
  apply (first_of _ _ _ _ _ _ y v []). apply (runs _ _ _ _ _ _ y n [v]); [exact N|rewrite I; constructor; [exact A|constructor]| |discriminate].
  intros bs Eb. rewrite O. destruct bs as [|b [|? ?]]; try discriminate. cbn in Eb |- *. injection Eb as ->. reflexivity.
Qed.
Print Assumptions C81_nth_of_leaf.

Lemma build_extends {Op} (g g' : graph Op) b o t : build g b o = Some (g', t) -> exists n, g' = g ++ [n].
Proof. intros B. apply build_spec in B. destruct B as (_ & _ & ->). eexists. reflexivity. Qed.
Lemma op_at {Op} (G : graph Op) i n n' : op_node G i n -> op_node G i n' -> n = n'.
Proof. intros (A & _) (B & _). congruence. Qed.

(** ** The gradients *)
Section Rules.
  Context {Op Err : Type}.
  Variable other : Op -> list (opin (arr R)) -> cout (arr R) Err.
  Variable bad : Err.
  Variable uninit : nat -> R.
  Variable at_empty : arr R -> option R.
  Variable debug : bool.
  Variable feeds : list (ph_key * arr R).
  Variable env : list (arr R).
  Notation mc := (mcompute other bad uninit at_empty).
  Notation value G := (value (@a_shape R) mc debug G feeds env).
  Notation tensor_value G := (tensor_value (@a_shape R) mc debug G feeds env).

  (** A two-output operation and a rule that starts with its second output: the nodes. *)
  Lemma second_output (g g1 mid g2 rest : graph (mop Op)) xs o out sec :
    node_of g xs [] o = Some (g1, out) -> nth_tensor (g1 ++ mid) out 1 = Some (g2, sec) ->
    (forall i n, nth_error (g2 ++ rest) i = Some n -> n_var n <> None -> n_ph n = None) ->
    exists n m, op_node (g2 ++ rest) out n /\ n_op n = o /\ n_inputs n = map (fun x => Incoming x false 0) xs /\
      op_node (g2 ++ rest) sec m /\ n_op m = MIdentity /\ n_inputs m = [Incoming out false 1].
  Proof.
    intros B1 B2 Hvp. pose proof B2 as B3. unfold nth_tensor in B3. apply build_extends in B3. destruct B3 as (k & E).
    destruct (made_node (g2 ++ rest) g g1 xs [] o out (mid ++ k :: rest) B1) as (n & N & O & I).
    { rewrite E, <- !app_assoc. reflexivity. }
    destruct (identity_node (g2 ++ rest) (g1 ++ mid) g2 out 1 sec rest B2 eq_refl) as (m & M & P & J).
    exists n, m. repeat (split; [assumption|]). assumption.
  Qed.
  Lemma both_outputs (g : graph (mop Op)) xs vs o g1 out mid g2 sec rest y z :
    node_of g xs [] o = Some (g1, out) -> nth_tensor (g1 ++ mid) out 1 = Some (g2, sec) ->
    (forall i n, nth_error (g2 ++ rest) i = Some n -> n_var n <> None -> n_ph n = None) ->
    Forall2 (fun x v => tensor_value (g2 ++ rest) x (inl v)) xs vs ->
    (forall bs, map opin_val bs = vs -> mc o bs = CRet [] [y; z] None) ->
    tensor_value (g2 ++ rest) out (inl y) /\ tensor_value (g2 ++ rest) sec (inl z).
  Proof.
    intros B1 B2 Hvp F C. destruct (second_output g g1 mid g2 rest xs o out sec B1 B2 Hvp) as (n & m & N & O & I & M & P & J).
    assert (W : value (g2 ++ rest) out (inl [y; z])).
    { apply (made_value other bad uninit at_empty debug (g2 ++ rest) feeds env Hvp out n xs vs [y; z] N I F); [rewrite O; exact C|discriminate]. }
    split; [exact (first_of _ _ _ _ _ _ out y [z] W)|].
    exact (identity_value other bad uninit at_empty debug (g2 ++ rest) feeds env sec m out 1 n z M P J N [y; z] W eq_refl).
  Qed.
  Lemma made_tensor (G : graph (mop Op)) g g' xs bs o t rest vs r : node_of g xs bs o = Some (g', t) -> G = g' ++ rest ->
    (forall i n, nth_error G i = Some n -> n_var n <> None -> n_ph n = None) ->
    Forall2 (fun x v => tensor_value G x (inl v)) xs vs ->
    (forall ins, map opin_val ins = vs -> mc o ins = CRet [] [r] None) -> tensor_value G t (inl r).
  Proof.
    intros B Eg Hvp F C. destruct (made_node G g g' xs bs o t rest B Eg) as (n & N & O & I).
    apply (first_of _ _ _ _ _ _ t r []). apply (made_value other bad uninit at_empty debug G feeds env Hvp t n xs vs [r] N I F); [rewrite O; exact C|discriminate].
  Qed.
  Lemma made_nothing (G : graph (mop Op)) g g' xs bs o t rest vs r : node_of g xs bs o = Some (g', t) -> G = g' ++ rest ->
    (forall i n, nth_error G i = Some n -> n_var n <> None -> n_ph n = None) ->
    Forall2 (fun x v => tensor_value G x (inl v)) xs vs ->
    (forall ins, map opin_val ins = vs -> mc o ins = CPanic) -> ~ tensor_value G t r.
  Proof.
    intros B Eg Hvp F C. destruct (made_node G g g' xs bs o t rest B Eg) as (n & N & O & I).
    apply (made_stuck other bad uninit at_empty debug G feeds env Hvp t n xs vs r N I F). rewrite O. exact C.
  Qed.
  Lemma node_extends (g : graph (mop Op)) xs bs o g' t : node_of g xs bs o = Some (g', t) -> exists n, g' = g ++ [n].
  Proof. apply build_extends. Qed.
End Rules.

Ltac reads2 := repeat first [apply Forall2_cons; [eassumption|] | apply Forall2_nil].

(** The sparse cross entropy: its loss, and the tensor its [grad] makes for the scores. *)
Theorem C81_sparse_cross_entropy :
  forall (Op Err : Type) (other : Op -> list (opin (arr R)) -> cout (arr R) Err) (bad : Err) (uninit : nat -> R)
    (at_empty : arr R -> option R) (debug : bool) (feeds : list (ph_key * arr R)) (env : list (arr R)) (minv : R)
    (g g1 mid g2 more : graph (mop Op)) (x t gy out gx : nat) (xv tv gv : arr R) (n c : nat) (lab : nat -> nat),
  (forall i n, nth_error (g2 ++ more) i = Some n -> n_var n <> None -> n_ph n = None) ->
  sparse_softmax_cross_entropy g minv x t = Some (g1, out) ->
  sparse_xent_rule (g1 ++ mid) out t gy = Some (g2, gx) ->
  let tensor_value := tensor_value (@a_shape R) (mcompute other bad uninit at_empty) debug (g2 ++ more) feeds env in
  tensor_value x (inl xv) -> tensor_value t (inl tv) -> tensor_value gy (inl gv) ->
  (n * c <> 0)%nat -> has_shape [n; c] xv -> has_shape [n] tv \/ has_shape [n; 1%nat] tv ->
  (forall i, (i < n)%nat -> nth_error (a_data tv) i = Some (INR (lab i)) /\ (lab i < c)%nat) -> has_shape [n; 1%nat] gv ->
  exists y log_x gxv, tensor_value out (inl y) /\ tensor_value gx (inl gxv) /\
    log_softmax_of 1 xv log_x /\ has_shape [n; 1%nat] y /\
    (forall i, (i < n)%nat -> aget 0 y [i; 0%nat] = - aget 0 log_x [i; lab i]) /\
    vjp (fun x => option_map fst (sparse_xent minv exp x tv)) xv gv gxv.
Proof.
  intros Op Err other bad uninit at_empty debug feeds env minv g g1 mid g2 more x t gy out gx xv tv gv n c lab Hvp B1 B2 TV Tx Tt Tg P Hx Ht L Hg.
  subst TV. destruct (C50_sparse minv n c xv tv lab gv P Hx Ht L Hg) as (y & log_x & gxv & E1 & SL & Sy & Vy & E2 & V).
  unfold sparse_xent_rule in B2. destruct (nth_tensor (g1 ++ mid) out 1) as [[g1' sec]|] eqn:B3; [|discriminate].
  destruct (node_extends _ _ _ _ _ _ B2) as (k & Ek).
  assert (EG : g2 ++ more = g1' ++ (k :: more)) by (rewrite Ek, <- app_assoc; reflexivity).
  destruct (both_outputs other bad uninit at_empty debug feeds env g [x; t] [xv; tv] (MSparseXent minv) g1 out mid g1' sec (k :: more) y log_x) as (T1 & T2).
  - exact B1.
  - exact B3.
  - rewrite <- EG. exact Hvp.
  - rewrite <- EG. reads2.
  - intros bs Eb. destruct bs as [|b1 [|b2 [|? ?]]]; try discriminate. cbn in Eb |- *. injection Eb as -> ->.
    unfold sparse_run. pose proof E1 as E3. unfold sparse_xent in E3. destruct (log_softmax minv exp 1 xv) as [l|]; [|discriminate].
    rewrite E1. cbn [option_map outputs fst snd]. cbn [bind] in E3. unfold xent_shapes.
    destruct (a_shape l) as [|? [|? [|? ?]]]; try discriminate E3.
    destruct (a_shape tv) as [|? [|q [|? ?]]]; try discriminate E3; [reflexivity|]. destruct (q =? 1)%nat; [reflexivity|discriminate E3].
  - rewrite <- EG in T1, T2. exists y, log_x, gxv. split; [exact T1|]. split; [|auto].
    apply (made_tensor other bad uninit at_empty debug feeds env (g2 ++ more) g1' g2 [sec; t; gy] [] MSparseXentGrad gx more [log_x; tv; gv]); [exact B2|reflexivity|exact Hvp|reads2|].
    intros bs Eb. destruct bs as [|b1 [|b2 [|b3 [|? ?]]]]; try discriminate. cbn in Eb |- *. injection Eb as -> -> ->. rewrite E2. reflexivity.
Qed.
Print Assumptions C81_sparse_cross_entropy.

(** The convolution: its value, and the tensor its [grad] makes for the filter. *)
Theorem C81_convolution :
  forall (Op Err : Type) (other : Op -> list (opin (arr R)) -> cout (arr R) Err) (bad : Err) (uninit : nat -> R)
    (at_empty : arr R -> option R) (debug : bool) (feeds : list (ph_key * arr R)) (env : list (arr R))
    (g g1 mid g2 more : graph (mop Op)) (x w gy out gw : nat) (xv wv gv : arr R)
    (batch xch ych xh xw kh kw p s d yh yw : nat),
  (forall i n, nth_error (g2 ++ more) i = Some n -> n_var n <> None -> n_ph n = None) ->
  dilated_conv2d g x w p s d = Some (g1, out) \/ d = 1%nat /\ conv2d g x w p s = Some (g1, out) ->
  conv_rule_w (g1 ++ mid) out x w gy = Some (g2, gw) ->
  let tensor_value := tensor_value (@a_shape R) (mcompute other bad uninit at_empty) debug (g2 ++ more) feeds env in
  tensor_value x (inl xv) -> tensor_value w (inl wv) -> tensor_value gy (inl gv) ->
  Conv_Spec.conv_sizes xch ych xh xw kh kw p s d yh yw -> (0 < batch)%nat ->
  has_shape [batch; xch; xh; xw] xv -> has_shape [ych; xch; kh; kw] wv -> has_shape [batch; ych; yh; yw] gv ->
  exists y gwv, tensor_value out (inl y) /\ tensor_value gw (inl gwv) /\ has_shape [batch; ych; yh; yw] y /\
    (forall b o i j, (b < batch)%nat -> (o < ych)%nat -> (i < yh)%nat -> (j < yw)%nat ->
      aget 0 y [b; o; i; j] = Conv_Spec.correlation xch kh kw p s d xv wv b o i j) /\
    vjp (fun w => P_ConvGrad.conv_result (Conv_Model.conv2d 0 Rplus Rmult uninit p s d xv w)) wv gv gwv.
Proof.
  intros Op Err other bad uninit at_empty debug feeds env g g1 mid g2 more x w gy out gw xv wv gv batch xch ych xh xw kh kw p s d yh yw
    Hvp B0 B2 TV Tx Tw Tg S Pb Hx Hw Hg. subst TV.
  assert (B1 : dilated_conv2d g x w p s d = Some (g1, out)) by (destruct B0 as [B0|(-> & B0)]; exact B0). clear B0.
  destruct (P_Conv.C37_value batch xch ych xh xw kh kw p s d yh yw uninit xv wv S Hx Hw) as (y & cols & E1 & Sy & Vy).
  destruct (P_ConvGrad.C51_filter_gradient batch xch ych xh xw kh kw p s d yh yw uninit uninit xv wv gv S Pb Hx Hw Hg) as (gwv & E2 & _ & V).
  unfold Conv_Model.conv2d_grad_w in E2. rewrite E1 in E2. cbn [Conv_Model.kbind snd] in E2.
  unfold conv_rule_w in B2. destruct (nth_tensor (g1 ++ mid) out 1) as [[g1' sec]|] eqn:B3; [|discriminate].
  destruct (node_extends _ _ _ _ _ _ B2) as (k & Ek).
  assert (EG : g2 ++ more = g1' ++ (k :: more)) by (rewrite Ek, <- app_assoc; reflexivity).
  destruct (both_outputs other bad uninit at_empty debug feeds env g [x; w] [xv; wv] (MConv p s d) g1 out mid g1' sec (k :: more) y cols) as (T1 & T2).
  - exact B1.
  - exact B3.
  - rewrite <- EG. exact Hvp.
  - rewrite <- EG. reads2.
  - intros bs Eb. destruct bs as [|b1 [|b2 [|? ?]]]; try discriminate. cbn in Eb |- *. injection Eb as -> ->. rewrite E1. reflexivity.
  - rewrite <- EG in T1, T2. exists y, gwv. split; [exact T1|]. split; [|auto].
    apply (made_tensor other bad uninit at_empty debug feeds env (g2 ++ more) g1' g2 [sec; gy; w] [x; gy] MConvGradW gw more [cols; gv; wv]); [exact B2|reflexivity|exact Hvp|reads2|].
    intros bs Eb. destruct bs as [|b1 [|b2 [|b3 [|? ?]]]]; try discriminate. cbn in Eb |- *. injection Eb as -> -> ->. rewrite E2. reflexivity.
Qed.
Print Assumptions C81_convolution.

Lemma positions_back pos : amap position (amap INR pos) = pos.
Proof.
  destruct pos as [sh l]. unfold amap. cbn [a_shape a_data]. f_equal. rewrite map_map. rewrite <- (map_id l) at 2. apply map_ext.
  intros n. unfold position. rewrite INR_IZR_INZ, trunc_IZR. apply Nat2Z.id.
Qed.
(** Max pooling without padding: its value, and the tensor its [grad] makes. *)
Theorem C81_max_pool :
  forall (Op Err : Type) (other : Op -> list (opin (arr R)) -> cout (arr R) Err) (bad : Err) (uninit : nat -> R)
    (at_empty : arr R -> option R) (debug : bool) (feeds : list (ph_key * arr R)) (env : list (arr R))
    (lowest : R) (bits : N) (checked : bool)
    (g g1 mid g2 more : graph (mop Op)) (x gy out gx : nat) (xv gv : arr R) (batch ch xh xw s size yh yw : nat),
  (forall i n, nth_error (g2 ++ more) i = Some n -> n_var n <> None -> n_ph n = None) ->
  max_pool2d g lowest bits checked x size 0 s = Some (g1, out) ->
  pool_rule (g1 ++ mid) out gy checked 0 s size = Some (g2, gx) ->
  let tensor_value := tensor_value (@a_shape R) (mcompute other bad uninit at_empty) debug (g2 ++ more) feeds env in
  tensor_value x (inl xv) -> tensor_value gy (inl gv) ->
  Pool_Spec.pool_sizes xh xw 0 s size yh yw -> Pool_Spec.pool_covers xh 0 s size yh -> Pool_Spec.pool_covers xw 0 s size yw ->
  has_shape [batch; ch; xh; xw] xv -> has_shape [batch; ch; yh; yw] gv -> Forall (Rlt lowest) (a_data xv) ->
  (N.of_nat (batch * ch * xh * xw) <= 2 ^ bits)%N -> Pool_Spec.unique_maxima batch ch xh xw yh yw 0 s size xv ->
  exists y gxv, tensor_value out (inl y) /\ tensor_value gx (inl gxv) /\ has_shape [batch; ch; yh; yw] y /\
    (forall b c i j, (b < batch)%nat -> (c < ch)%nat -> (i < yh)%nat -> (j < yw)%nat ->
      exists h w, Pool_Spec.first_max xh xw 0 s size xv b c i j h w /\ aget 0 y [b; c; i; j] = aget 0 xv [b; c; h; w]) /\
    vjp (fun x => option_map fst (Conv_Model.kok (Pool_Model.max_pool2d lowest rgtb bits uninit checked 0 s size x))) xv gv gxv.
Proof.
  intros Op Err other bad uninit at_empty debug feeds env lowest bits checked g g1 mid g2 more x gy out gx xv gv batch ch xh xw s size yh yw
    Hvp B1 B2 TV Tx Tg S Ch Cw Hx Hg Low HB U. subst TV.
  destruct (P_Pool.C40_value checked lowest bits uninit batch ch xh xw s size yh yw xv S Hx Low HB) as (y & pos & E1 & Sy & _ & Vy).
  destruct (P_Pool.C40_gradient checked lowest bits uninit uninit batch ch xh xw s size yh yw xv gv S Ch Cw Hx Hg Low HB U) as (gxv & E2 & V).
  unfold Pool_Model.max_pool2d_grad_x in E2. rewrite E1 in E2. cbn [Conv_Model.kbind snd] in E2.
  change Pool_Proofs.rgt with rgtb in *.
  unfold pool_rule in B2. destruct (nth_tensor (g1 ++ mid) out 1) as [[g1' sec]|] eqn:B3; [|discriminate].
  destruct (node_extends _ _ _ _ _ _ B2) as (k & Ek).
  assert (EG : g2 ++ more = g1' ++ (k :: more)) by (rewrite Ek, <- app_assoc; reflexivity).
  destruct (both_outputs other bad uninit at_empty debug feeds env g [x] [xv] (MPool lowest bits checked 0 s size) g1 out mid g1' sec (k :: more) y (amap INR pos)) as (T1 & T2).
  - exact B1.
  - exact B3.
  - rewrite <- EG. exact Hvp.
  - rewrite <- EG. reads2.
  - intros bs Eb. destruct bs as [|b1 [|? ?]]; try discriminate. cbn in Eb |- *. injection Eb as ->. rewrite E1. reflexivity.
  - rewrite <- EG in T1, T2. exists y, gxv. split; [exact T1|]. split; [|split; [exact Sy|split; [|exact V]]].
    + apply (made_tensor other bad uninit at_empty debug feeds env (g2 ++ more) g1' g2 [gy; sec] [] (MPoolGrad checked 0 s size) gx more [gv; amap INR pos]); [exact B2|reflexivity|exact Hvp|reads2|].
      intros bs Eb. destruct bs as [|b1 [|b2 [|? ?]]]; try discriminate. cbn in Eb |- *. injection Eb as -> ->. rewrite positions_back, E2. reflexivity.
    + intros b c i j Hb Hc Hi Hj. destruct (Vy b c i j Hb Hc Hi Hj) as (h & w & F & E & _). exists h, w. split; assumption.
Qed.
Print Assumptions C81_max_pool.

(** The dense cross entropy: the nodes of its rule. *)
Section Dense.
  Context {Op Err : Type}.
  Variable other : Op -> list (opin (arr R)) -> cout (arr R) Err.
  Variable bad : Err.
  Variable uninit : nat -> R.
  Variable at_empty : arr R -> option R.
  Variable debug : bool.
  Variable feeds : list (ph_key * arr R).
  Variable env : list (arr R).
  Variable minv : R.
  Variables (g g1 mid g2 more : graph (mop Op)) (x t gy out gx : nat) (xv tv gv y log_x d : arr R).
  Notation TV := (tensor_value (@a_shape R) (mcompute other bad uninit at_empty) debug (g2 ++ more) feeds env).
  Lemma dense_rule :
    (forall i n, nth_error (g2 ++ more) i = Some n -> n_var n <> None -> n_ph n = None) ->
    softmax_cross_entropy g minv x t = Some (g1, out) ->
    xent_rule (g1 ++ mid) out t gy = Some (g2, gx) ->
    TV x (inl xv) -> TV t (inl tv) -> TV gy (inl gv) ->
    softmax_xent minv exp xv tv = Some (y, log_x) ->
    sub_forward 0 Rminus at_empty (amap exp log_x) tv = Some d ->
    TV out (inl y) /\
    (forall r, mul_forward 0 Rmult at_empty d gv = Some r -> TV gx (inl r)) /\
    (mul_forward 0 Rmult at_empty d gv = None -> forall r, ~ TV gx r).
  Proof.
    intros Hvp B1 B2 Tx Tt Tg E1 E2.
    unfold xent_rule in B2. destruct (nth_tensor (g1 ++ mid) out 1) as [[g3 sec]|] eqn:B3; [|discriminate].
    destruct (node_of g3 [sec] [] MExp) as [[g4 e]|] eqn:B4; [|discriminate].
    destruct (node_of g4 [e; t] [] MSub) as [[g5 df]|] eqn:B5; [|discriminate].
    destruct (node_extends _ _ _ _ _ _ B4) as (k4 & K4). destruct (node_extends _ _ _ _ _ _ B5) as (k5 & K5).
    destruct (node_extends _ _ _ _ _ _ B2) as (k6 & K6).
    assert (EG5 : g2 ++ more = g5 ++ k6 :: more) by (rewrite K6, <- app_assoc; reflexivity).
    assert (EG4 : g2 ++ more = g4 ++ k5 :: k6 :: more) by (rewrite EG5, K5, <- app_assoc; reflexivity).
    assert (EG3 : g2 ++ more = g3 ++ k4 :: k5 :: k6 :: more) by (rewrite EG4, K4, <- app_assoc; reflexivity).
    destruct (both_outputs other bad uninit at_empty debug feeds env g [x; t] [xv; tv] (MXent minv) g1 out mid g3 sec (k4 :: k5 :: k6 :: more) y log_x) as (T1 & T2).
    { exact B1. } { exact B3. } { rewrite <- EG3. exact Hvp. } { rewrite <- EG3. reads2. }
    { intros bs Eb. destruct bs as [|b1 [|b2 [|? ?]]]; try discriminate. cbn in Eb |- *. injection Eb as -> ->. rewrite E1. reflexivity. }
    rewrite <- EG3 in T1, T2. split; [exact T1|].
    assert (T3 : TV e (inl (amap exp log_x))).
    { apply (made_tensor other bad uninit at_empty debug feeds env (g2 ++ more) g3 g4 [sec] [] MExp e (k5 :: k6 :: more) [log_x]); [exact B4|exact EG4|exact Hvp|reads2|].
      intros bs Eb. destruct bs as [|b1 [|? ?]]; try discriminate. cbn in Eb |- *. injection Eb as ->. reflexivity. }
    assert (T4 : TV df (inl d)).
    { apply (made_tensor other bad uninit at_empty debug feeds env (g2 ++ more) g4 g5 [e; t] [] MSub df (k6 :: more) [amap exp log_x; tv]); [exact B5|exact EG5|exact Hvp|reads2|].
      intros bs Eb. destruct bs as [|b1 [|b2 [|? ?]]]; try discriminate. cbn in Eb |- *. injection Eb as -> ->. rewrite E2. reflexivity. }
    split.
    - intros r E. apply (made_tensor other bad uninit at_empty debug feeds env (g2 ++ more) g5 g2 [df; gy] [] MMul gx more [d; gv]); [exact B2|reflexivity|exact Hvp|reads2|].
      intros bs Eb. destruct bs as [|b1 [|b2 [|? ?]]]; try discriminate. cbn in Eb |- *. injection Eb as -> ->. rewrite E. reflexivity.
    - intros E r. apply (made_nothing other bad uninit at_empty debug feeds env (g2 ++ more) g5 g2 [df; gy] [] MMul gx more [d; gv]); [exact B2|reflexivity|exact Hvp|reads2|].
      intros bs Eb. destruct bs as [|b1 [|b2 [|? ?]]]; try discriminate. cbn in Eb |- *. injection Eb as -> ->. rewrite E. reflexivity.
  Qed.
End Dense.

(** One row of scores, labels that sum to one: the tensor [grad] makes is the gradient. *)
Theorem C81_cross_entropy_one_row :
  forall (Op Err : Type) (other : Op -> list (opin (arr R)) -> cout (arr R) Err) (bad : Err) (uninit : nat -> R)
    (at_empty : arr R -> option R) (debug : bool) (feeds : list (ph_key * arr R)) (env : list (arr R)) (minv : R)
    (g g1 mid g2 more : graph (mop Op)) (x t gy out gx : nat) (xv tv gv : arr R) (c : nat),
  scalar_index at_empty ->
  (forall i n, nth_error (g2 ++ more) i = Some n -> n_var n <> None -> n_ph n = None) ->
  softmax_cross_entropy g minv x t = Some (g1, out) ->
  xent_rule (g1 ++ mid) out t gy = Some (g2, gx) ->
  let tensor_value := tensor_value (@a_shape R) (mcompute other bad uninit at_empty) debug (g2 ++ more) feeds env in
  tensor_value x (inl xv) -> tensor_value t (inl tv) -> tensor_value gy (inl gv) ->
  (c <> 0)%nat -> has_shape [1%nat; c] xv -> has_shape [1%nat; c] tv -> has_shape [1%nat] gv ->
  sum_below c (fun j => aget 0 tv [0%nat; j]) = 1 ->
  exists y log_x gxv, tensor_value out (inl y) /\ tensor_value gx (inl gxv) /\
    log_softmax_of 1 xv log_x /\ has_shape [1%nat] y /\
    aget 0 y [0%nat] = - sum_below c (fun j => aget 0 tv [0%nat; j] * aget 0 log_x [0%nat; j]) /\
    vjp (fun x => option_map fst (softmax_xent minv exp x tv)) xv gv gxv.
Proof.
  intros Op Err other bad uninit at_empty debug feeds env minv g g1 mid g2 more x t gy out gx xv tv gv c AE Hvp B1 B2 TV Tx Tt Tg C Hx Ht Hg L. subst TV.
  destruct (C50_softmax minv 1 c xv tv Hx Ht) as (y & log_x & E1 & SL & Sy & Vy); [lia|].
  destruct (C50_softmax_gradient_one_row minv at_empty c xv tv gv AE C Hx Ht Hg L) as (y' & log' & gxv & E1' & E2 & V).
  rewrite E1 in E1'. injection E1' as <- <-. unfold softmax_xent_grad_x in E2.
  destruct (sub_forward 0 Rminus at_empty (amap exp log_x) tv) as [d|] eqn:E3; [|discriminate]. cbn [bind] in E2.
  destruct (dense_rule other bad uninit at_empty debug feeds env minv g g1 mid g2 more x t gy out gx xv tv gv y log_x d) as (T1 & T2 & _); auto.
  exists y, log_x, gxv. split; [exact T1|]. split; [apply T2; exact E2|]. split; [exact SL|]. split; [exact Sy|]. split; [apply Vy; lia|exact V].
Qed.
Print Assumptions C81_cross_entropy_one_row.

(** Several rows, the incoming gradient of the loss's shape: evaluating the tensor [grad]
    makes panics unless there is one class or there are as many classes as rows. *)
Theorem C81_cross_entropy_rows_panic :
  forall (Op Err : Type) (other : Op -> list (opin (arr R)) -> cout (arr R) Err) (bad : Err) (uninit : nat -> R)
    (at_empty : arr R -> option R) (debug : bool) (feeds : list (ph_key * arr R)) (env : list (arr R)) (minv : R)
    (g g1 mid g2 more : graph (mop Op)) (x t gy out gx : nat) (xv tv gv : arr R) (n c fuel : nat)
    (targets : list nat) (oc : @outcome (arr R) Err),
  scalar_index at_empty ->
  (forall i n, nth_error (g2 ++ more) i = Some n -> n_var n <> None -> n_ph n = None) ->
  wf_graph (g2 ++ more) -> in_range (g2 ++ more) targets -> no_inplace (g2 ++ more) targets ->
  softmax_cross_entropy g minv x t = Some (g1, out) ->
  xent_rule (g1 ++ mid) out t gy = Some (g2, gx) ->
  let tensor_value := tensor_value (@a_shape R) (mcompute other bad uninit at_empty) debug (g2 ++ more) feeds env in
  tensor_value x (inl xv) -> tensor_value t (inl tv) -> tensor_value gy (inl gv) ->
  (n * c <> 0)%nat -> n <> 1%nat -> c <> 1%nat -> n <> c ->
  has_shape [n; c] xv -> has_shape [n; c] tv -> has_shape [n] gv ->
  (exists y, tensor_value out (inl y)) /\
  (In gx targets -> eval (@a_shape R) (mcompute other bad uninit at_empty) debug (g2 ++ more) feeds fuel targets env <> Ok oc).
Proof.
  intros Op Err other bad uninit at_empty debug feeds env minv g g1 mid g2 more x t gy out gx xv tv gv n c fuel targets oc
    AE Hvp W Ir Ni B1 B2 TV Tx Tt Tg N0 N1 C1 NC Hx Ht Hg. subst TV.
  destruct (C50_softmax minv n c xv tv Hx Ht N0) as (y & log_x & E1 & SL & Sy & Vy).
  pose proof (C50_softmax_gradient_panics minv at_empty n c xv tv y log_x gv AE N0 N1 C1 NC Hx Ht Hg E1) as E2.
  unfold softmax_xent_grad_x in E2.
  assert (exists d, sub_forward 0 Rminus at_empty (amap exp log_x) tv = Some d) as (d & E3).
  { pose proof E1 as E4. rewrite (Softmax_Xent.softmax_xent_run minv n c xv tv) in E4 by (auto; simpl; lia). injection E4 as _ <-.
    eexists. apply (Softmax_Xent.softmax_xent_diff at_empty n c xv tv); [apply P_Arith.index_empty_at; exact AE|exact Hx|exact Ht]. }
  rewrite E3 in E2. cbn [bind] in E2.
  destruct (dense_rule other bad uninit at_empty debug feeds env minv g g1 mid g2 more x t gy out gx xv tv gv y log_x d) as (T1 & _ & T2); auto.
  split; [exists y; exact T1|]. intros It Ev.
  destruct (eval_only_values _ _ _ _ _ _ _ _ _ W Ir Ni Ev) as (F & _ & _).
  apply In_nth_error in It. destruct It as (i & It). clear - F It T2 E2.
  revert i It. induction F as [|a b l l' H F IH]; intros i It; [destruct i; discriminate|].
  destruct i as [|i]; [injection It as ->; exact (T2 E2 _ H)|exact (IH i It)].
Qed.
Print Assumptions C81_cross_entropy_rows_panic.

(** An error of the operation is an error of its gradient (in release builds; in debug
    builds evaluation panics, since no output was appended). *)
Theorem C81_errors :
  forall (Op Err : Type) (other : Op -> list (opin (arr R)) -> cout (arr R) Err) (bad : Err) (uninit : nat -> R)
    (at_empty : arr R -> option R) (debug : bool) (feeds : list (ph_key * arr R)) (env : list (arr R))
    (g g1 mid g2 more : graph (mop Op)) (x w gy out gw : nat) (xv wv : arr R) (batch xch xh xw ych wch kh kw p s d : nat),
  (forall i n, nth_error (g2 ++ more) i = Some n -> n_var n <> None -> n_ph n = None) ->
  dilated_conv2d g x w p s d = Some (g1, out) \/ d = 1%nat /\ conv2d g x w p s = Some (g1, out) ->
  conv_rule_w (g1 ++ mid) out x w gy = Some (g2, gw) ->
  let tensor_value := tensor_value (@a_shape R) (mcompute other bad uninit at_empty) debug (g2 ++ more) feeds env in
  tensor_value x (inl xv) -> tensor_value w (inl wv) ->
  a_shape xv = [batch; xch; xh; xw] -> a_shape wv = [ych; wch; kh; kw] -> xch <> wch ->
  (debug = false -> tensor_value out (inr bad) /\ tensor_value gw (inr bad)) /\
  (debug = true -> forall r, ~ tensor_value out r).
Proof.
  intros Op Err other bad uninit at_empty debug feeds env g g1 mid g2 more x w gy out gw xv wv batch xch xh xw ych wch kh kw p s d
    Hvp B0 B2 TV Tx Tw Sx Sw N. subst TV.
  assert (B1 : dilated_conv2d g x w p s d = Some (g1, out)) by (destruct B0 as [B0|(-> & B0)]; exact B0). clear B0.
  pose proof (P_Conv.C37_channels batch xch xh xw ych wch kh kw p s d uninit xv wv Sx Sw N) as E.
  unfold conv_rule_w in B2. destruct (nth_tensor (g1 ++ mid) out 1) as [[g1' sec]|] eqn:B3; [|discriminate].
  destruct (node_extends _ _ _ _ _ _ B2) as (k & Ek).
  assert (EG : g2 ++ more = g1' ++ (k :: more)) by (rewrite Ek, <- app_assoc; reflexivity).
  destruct (second_output g g1 mid g1' (k :: more) [x; w] (MConv p s d) out sec B1 B3) as (n & m & No & O & I & M & P & J); [rewrite <- EG; exact Hvp|].
  rewrite <- EG in No, M.
  assert (F : Forall2 (reads (@a_shape R) (mcompute other bad uninit at_empty) debug (g2 ++ more) feeds env) (n_inputs n) [xv; wv]).
  { rewrite I. repeat constructor; apply reads_first; assumption. }
  assert (C : forall bs, map opin_val bs = [xv; wv] -> mcompute other bad uninit at_empty (n_op n) bs = CRet [] [] (Some bad)).
  { intros bs Eb. destruct bs as [|b1 [|b2 [|? ?]]]; try discriminate. rewrite O. cbn in Eb |- *. injection Eb as -> ->. rewrite E. reflexivity. }
  split.
  - intros ->. pose proof F as F'. apply reads_all in F'. destruct F' as (bs & A & Eb).
    assert (W : value (@a_shape R) (mcompute other bad uninit at_empty) false (g2 ++ more) feeds env out (inr bad)).
    { apply (value_run _ _ _ _ _ _ out n bs [] [] (Some bad)); auto. }
    split; [apply tv_err; exact W|].
    destruct (made_node (g2 ++ more) g1' g2 [sec; gy; w] [x; gy] MConvGradW gw more B2 eq_refl) as (q & Q & _ & Iq).
    apply tv_err. apply (value_fail _ _ _ _ _ _ gw q [] (Incoming sec false 0) [Incoming gy false 0; Incoming w false 0] m); auto; [intros a []|].
    apply (value_fail _ _ _ _ _ _ sec m [] (Incoming out false 1) [] n); auto. intros a [].
  - intros -> r T. pose proof (op_tensor_value _ _ _ _ _ _ _ _ _ No T) as W.
    assert (X : forall r, ~ value (@a_shape R) (mcompute other bad uninit at_empty) true (g2 ++ more) feeds env out r).
    { intros r' W'. inversion W' as [i n' bs ws ys st Hn' A Hc Hd E1 E2|i n' pre inc post m' e Hn' Hin Hp Hm He E1 E2]; subst.
      - pose proof (op_at _ _ _ _ Hn' No). subst n'. rewrite (C bs) in Hc by (eapply reads_all_fun; eauto). injection Hc as <- <- <-. exact (Hd eq_refl eq_refl).
      - pose proof (op_at _ _ _ _ Hn' No). subst n'. rewrite Hin in F. apply Forall2_app_inv_l in F. destruct F as (u & v & _ & F & _). inversion F; subst.
        eapply reads_no_failure; eauto. }
    destruct r as [v|e]; [destruct W as (ys & W)|]; exact (X _ W).
Qed.
Print Assumptions C81_errors.

(** Constants, and the operations with their rules applied to them. *)
Definition mnode (a : arr R) : node (mop (arr R)) := Node (MOther a) [] 0 None None true None None None.
Definition mconst (a : arr R) (ins : list (opin (arr R))) : cout (arr R) unit := CRet [] [a] None.
Definition m_scores : arr R := Arr [2; 3]%nat [1; 4; 2; 2; 0; 5].
Definition m_labels : arr R := Arr [2]%nat [INR 1; INR 0].
Definition m_gy : arr R := Arr [2; 1]%nat [1; 1].
Definition m_onehot : arr R := Arr [2; 3]%nat [0; 1; 0; 1; 0; 0].
Definition m_gy1 : arr R := Arr [2]%nat [1; 1].
Definition m_image : arr R := Arr [1; 2; 5; 4]%nat (map INR (seq 0 40)).
Definition m_filter : arr R := Arr [3; 2; 3; 2]%nat (map INR (seq 0 36)).
Definition m_gconv : arr R := Arr [1; 3; 3; 4]%nat (map INR (seq 0 36)).
Definition m_plain : arr R := Arr [1; 1; 2; 2]%nat [1; 2; 3; 4].
Definition m_gpool : arr R := Arr [1; 1; 1; 1]%nat [7].
Definition m_base : graph (mop (arr R)) :=
  map mnode [m_scores; m_labels; m_gy; m_onehot; m_gy1; m_image; m_filter; m_gconv; m_plain; m_gpool].
Definition first_graph {O} (r : option (graph O * nat)) : graph O := match r with Some (g, _) => g | None => [] end.
Definition m_sparse := first_graph (sparse_softmax_cross_entropy m_base (-10) 0 1).
Definition m_sparse' := first_graph (sparse_xent_rule m_sparse 10 1 2).
Definition m_conv := first_graph (dilated_conv2d m_base 5 6 1 1 2).
Definition m_conv' := first_graph (conv_rule_w m_conv 10 5 6 7).
Definition m_pool := first_graph (max_pool2d m_base 0 24 true 8 2 0 2).
Definition m_pool' := first_graph (pool_rule m_pool 10 9 true 0 2 2).
Definition m_dense := first_graph (softmax_cross_entropy m_base (-10) 0 3).
Definition m_dense' := first_graph (xent_rule m_dense 10 3 4).

Definition plain_nodes {O} (g : graph O) : bool :=
  forallb (fun p : nat * node O =>
     match n_var (snd p), n_ph (snd p) with
     | None, None => forallb (fun inc => (in_id inc <? fst p)%nat && negb (in_mut inc)) (n_inputs (snd p))
     | _, _ => false
     end) (combine (seq 0 (length g)) g).
Lemma plain_spec {O} (g : graph O) : plain_nodes g = true -> forall i n, nth_error g i = Some n ->
  n_var n = None /\ n_ph n = None /\ forall inc, In inc (n_inputs n) -> (in_id inc < i)%nat /\ in_mut inc = false.
Proof.
  intros F i n H. assert (L : (i < length g)%nat) by (apply nth_error_Some; congruence).
  unfold plain_nodes in F. rewrite forallb_forall in F. specialize (F (i, n)). cbn [fst snd] in F.
  assert (Nb : forall k s i (l : list (node O)) x, nth_error l i = Some x -> (i < k)%nat -> In ((s + i)%nat, x) (combine (seq s k) l)).
  { clear. induction k as [|k IH]; intros s i l x H L; [lia|]. destruct l as [|a l]; [destruct i; discriminate|].
    destruct i as [|i]; [injection H as <-; left; f_equal; lia|]. right. replace (s + S i)%nat with (S s + i)%nat by lia. apply IH; [exact H|lia]. }
  specialize (F (Nb _ 0%nat i g n H L)). destruct (n_var n); [discriminate|]. destruct (n_ph n); [discriminate|].
  split; [reflexivity|]. split; [reflexivity|]. intros inc Hi. rewrite forallb_forall in F. specialize (F inc Hi).
  apply andb_true_iff in F. destruct F as [F1 F2]. split; [apply Nat.ltb_lt; exact F1|apply negb_true_iff; exact F2].
Qed.
Lemma plain_graph {O} (g : graph O) ts : plain_nodes g = true -> forallb (fun t => t <? length g)%nat ts = true ->
  (forall i n, nth_error g i = Some n -> n_var n <> None -> n_ph n = None) /\ wf_graph g /\ in_range g ts /\ no_inplace g ts.
Proof.
  intros P R. pose proof (plain_spec g P) as C. split; [|split; [|split]].
  - intros i n H _. apply (C i n H).
  - apply wf_graph_intro.
    + intros i n inc H Hin. destruct (C i n H) as (_ & _ & Q). apply Q in Hin.
      assert (i < length g)%nat by (apply nth_error_Some; congruence). lia.
    + intros i n H Hv. destruct (C i n H) as (A & B & _). unfold is_variable, is_placeholder in Hv. rewrite A, B in Hv. discriminate.
  - intros t Ht. rewrite forallb_forall in R. apply Nat.ltb_lt. apply R. exact Ht.
  - intros i n p vid _ H (inc & m & Hin & Hm & _). apply nth_error_In in Hin. destruct (C i n H) as (_ & _ & Q).
    apply Q in Hin. destruct Hin as (_ & Hin). congruence.
Qed.
Lemma m_value u ae g i a : nth_error g i = Some (mnode a) ->
  tensor_value (@a_shape R) (mcompute mconst tt u ae) true g [] [] i (inl a).
Proof.
  intros H. apply (tv_ok _ _ _ _ _ _ i a []). apply (value_run _ _ _ _ _ _ i (mnode a) [] [] [a] None).
  - split; [exact H|split; reflexivity].
  - constructor.
  - reflexivity.
  - discriminate.
Qed.
Example C81_hypotheses_met : forall u ae,
  let value_in g i v := tensor_value (@a_shape R) (mcompute mconst tt u ae) true g [] [] i (inl v) in
  let sound g ts := (forall i n, nth_error g i = Some n -> n_var n <> None -> n_ph n = None) /\ wf_graph g /\ in_range g ts /\ no_inplace g ts in
  (* the sparse cross entropy of two rows *)
  (sparse_softmax_cross_entropy m_base (-10) 0 1 = Some (m_sparse, 10%nat) /\
   sparse_xent_rule m_sparse 10 1 2 = Some (m_sparse', 12%nat) /\ sound m_sparse' [12%nat] /\
   value_in m_sparse' 0%nat m_scores /\ value_in m_sparse' 1%nat m_labels /\ value_in m_sparse' 2%nat m_gy /\
   has_shape [2; 3]%nat m_scores /\ has_shape [2%nat] m_labels /\ has_shape [2; 1]%nat m_gy /\
   (forall i, (i < 2)%nat -> nth_error (a_data m_labels) i = Some (INR (1 - i)) /\ (1 - i < 3)%nat)) /\
  (* a dilated convolution *)
  (dilated_conv2d m_base 5 6 1 1 2 = Some (m_conv, 10%nat) /\
   conv_rule_w m_conv 10 5 6 7 = Some (m_conv', 12%nat) /\ sound m_conv' [12%nat] /\
   value_in m_conv' 5%nat m_image /\ value_in m_conv' 6%nat m_filter /\ value_in m_conv' 7%nat m_gconv /\
   Conv_Spec.conv_sizes 2 3 5 4 3 2 1 1 2 3 4 /\
   has_shape [1; 2; 5; 4]%nat m_image /\ has_shape [3; 2; 3; 2]%nat m_filter /\ has_shape [1; 3; 3; 4]%nat m_gconv) /\
  (* max pooling *)
  (max_pool2d m_base 0 24 true 8 2 0 2 = Some (m_pool, 10%nat) /\
   pool_rule m_pool 10 9 true 0 2 2 = Some (m_pool', 12%nat) /\ sound m_pool' [12%nat] /\
   value_in m_pool' 8%nat m_plain /\ value_in m_pool' 9%nat m_gpool /\
   Pool_Spec.pool_sizes 2 2 0 2 2 1 1 /\ has_shape [1; 1; 2; 2]%nat m_plain /\ has_shape [1; 1; 1; 1]%nat m_gpool /\
   Forall (Rlt 0) (a_data m_plain) /\ Pool_Spec.unique_maxima 1 1 2 2 1 1 0 2 2 m_plain) /\
  (* the dense cross entropy of two rows and three classes *)
  (softmax_cross_entropy m_base (-10) 0 3 = Some (m_dense, 10%nat) /\
   xent_rule m_dense 10 3 4 = Some (m_dense', 14%nat) /\ sound m_dense' [14%nat] /\
   value_in m_dense' 0%nat m_scores /\ value_in m_dense' 3%nat m_onehot /\ value_in m_dense' 4%nat m_gy1 /\
   has_shape [2; 3]%nat m_onehot /\ has_shape [2%nat] m_gy1).
Proof.
  intros u ae value_in sound. subst value_in sound. cbv beta.
  split; [|split; [|split]].
  - split; [reflexivity|]. split; [reflexivity|]. split; [apply plain_graph; reflexivity|].
    do 3 (split; [apply m_value; reflexivity|]). do 3 (split; [split; reflexivity|]).
    intros [|[|i]] Hi; [| |lia]; (split; [reflexivity|lia]).
  - split; [reflexivity|]. split; [reflexivity|]. split; [apply plain_graph; reflexivity|].
    do 3 (split; [apply m_value; reflexivity|]). split; [apply P_Conv.conv_example_covers|].
    do 2 (split; [split; reflexivity|]). split; reflexivity.
  - split; [reflexivity|]. split; [reflexivity|]. split; [apply plain_graph; reflexivity|].
    do 2 (split; [apply m_value; reflexivity|]). split; [repeat split; lia|]. do 2 (split; [split; reflexivity|]).
    split; [repeat constructor; lra|]. intros b c i j Hb Hc Hi Hj. exists 1%nat, 1%nat.
    assert (b = 0 /\ c = 0 /\ i = 0 /\ j = 0)%nat as (-> & -> & -> & ->) by lia.
    split; [unfold Pool_Spec.in_window; lia|]. intros h w (W1 & W2 & W3 & W4) Ne.
    destruct h as [|[|h]]; [| |lia]; destruct w as [|[|w]]; try lia; try (exfalso; apply Ne; reflexivity); cbn; lra.
  - split; [reflexivity|]. split; [reflexivity|]. split; [apply plain_graph; reflexivity|].
    do 3 (split; [apply m_value; reflexivity|]). split; split; reflexivity.
Qed.
