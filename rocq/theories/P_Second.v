(** C83: the labels' gradients of the cross entropies, and second-order gradients of
    convolution and max pooling, in graphs. *)
From Coq Require Import List Arith ZArith NArith Bool Reals Lia Lra.
Import ListNotations.
From Verif Require Import Graph_Model Eval_Model Eval_Spec Eval_Proofs Eval_Proofs2 Graph_Proofs Scalar_Model.
From Verif Require Import Array_Model Array_Proofs Arith_Model Vjp_Spec Softmax_Model Softmax_Spec P_Softmax Tens_Model Num_Model Num_Proofs.
From Verif Require P_Arith Softmax_Xent Conv_Model Conv_Proofs Conv_Spec P_Conv P_ConvGrad Pool_Model Pool_Spec Pool_Proofs P_Pool.
From Verif Require Import Dot_Spec Reduce_Model Multi_Model Multi_Proofs P_Multi Second_Model Second_Proofs.
From Verif Require Import Shape_Spec Arith_Proofs.
Local Set Bullet Behavior "Strict Subproofs".
Local Open Scope R_scope.

(** [G] is [g] with more tensors. *)
Definition ext {O} (g G : graph O) : Prop := exists l, G = g ++ l.
Lemma ext_refl {O} (g : graph O) : ext g g.
Proof. exists []. symmetry. apply app_nil_r. Qed.
Lemma ext_app {O} (g l : graph O) : ext g (g ++ l).
Proof. exists l. reflexivity. Qed.
Lemma ext_trans {O} (a b c : graph O) : ext a b -> ext b c -> ext a c.
Proof. intros (l & ->) (m & ->). exists (l ++ m). rewrite app_assoc. reflexivity. Qed.
Lemma ext_nth {O} (g G : graph O) i n : ext g G -> nth_error g i = Some n -> nth_error G i = Some n.
Proof. intros (l & ->) H. rewrite nth_error_app1; [exact H|]. apply nth_error_Some. congruence. Qed.
Lemma ext_node {Op} (g G : graph (mop Op)) xs bs o g' t : node_of g xs bs o = Some (g', t) -> ext g' G -> ext g G.
Proof. intros B E. apply node_extends in B. destruct B as (n & ->). eapply ext_trans; [apply ext_app|exact E]. Qed.
Lemma ext_nth_tensor {Op} (g G : graph (mop Op)) x k g' t : nth_tensor g x k = Some (g', t) -> ext g' G -> ext g G.
Proof. intros B E. apply build_extends in B. destruct B as (n & ->). eapply ext_trans; [apply ext_app|exact E]. Qed.
Lemma after_inv {Op X} (r : option (graph (mop (sop Op)) * nat)) k (x : X) : after r k = Some x -> exists g t, r = Some (g, t) /\ k g t = Some x.
Proof. destruct r as [[g t]|]; [|discriminate]. intros H. exists g, t. split; [reflexivity|exact H]. Qed.

(** The record of a tensor just built. *)
Lemma made {Op} (g g' : graph (mop Op)) xs bs o t : node_of g xs bs o = Some (g', t) ->
  exists n, nth_error g' t = Some n /\ n_op n = o /\ n_inputs n = map (fun x => Incoming x false 0) xs /\
    get_backprop_inputs n = map (fun x => Incoming x false 0) (match bs with [] => xs | _ => bs end).
Proof.
  unfold node_of. intros B.
  assert (I : forall xs b, b_inputs (fold_left (fun b x => append_input b x false 0) xs b) = b_inputs b ++ map (fun x => Incoming x false 0) xs
    /\ b_backprop (fold_left (fun b x => append_input b x false 0) xs b) = b_backprop b).
  { clear. induction xs as [|x xs IH]; intros b; cbn; [rewrite app_nil_r; auto|]. destruct (IH (append_input b x false 0)) as (A & B).
    rewrite A, B. cbn. rewrite <- app_assoc. auto. }
  assert (J : forall bs b, b_inputs (fold_left append_backprop_input bs b) = b_inputs b
    /\ b_backprop (fold_left append_backprop_input bs b) =
       match bs with [] => b_backprop b | _ => Some (match b_backprop b with Some l => l | None => [] end ++ map (fun x => Incoming x false 0) bs) end).
  { clear. induction bs as [|x bs IH]; intros b; cbn; [auto|]. destruct (IH (append_backprop_input b x)) as (A & B). rewrite A, B. split; [reflexivity|].
    destruct bs; cbn; [reflexivity|]. rewrite <- app_assoc. reflexivity. }
  destruct (I xs new_builder) as (I1 & I2). set (b := fold_left (fun b x => append_input b x false 0) xs new_builder) in *.
  destruct (J bs b) as (J1 & J2). apply build_spec in B. destruct B as (-> & _ & ->).
  eexists. split; [rewrite nth_error_app2, Nat.sub_diag by lia; reflexivity|]. split; [reflexivity|].
  split; [exact (eq_trans J1 I1)|]. unfold get_backprop_inputs. cbn [n_backprop n_inputs].
  match goal with |- context [b_backprop ?e] => change (b_backprop e) with (b_backprop (fold_left append_backprop_input bs b)); change (b_inputs e) with (b_inputs (fold_left append_backprop_input bs b)) end.
  rewrite J1, J2, I1, I2. destruct bs; reflexivity.
Qed.

Section Steps.
  Context {Op Err : Type}.
  Variable other : Op -> list (opin (arr R)) -> cout (arr R) Err.
  Variable bad : Err.
  Variable uninit : nat -> R.
  Variable at_empty : arr R -> option R.
  Variable debug : bool.
  Variable feeds : list (ph_key * arr R).
  Variable env : list (arr R).
  Notation mc := (mcompute (scompute other bad uninit) bad uninit at_empty).
  Notation TV G := (tensor_value (@a_shape R) mc debug G feeds env).
  Variable G : graph (mop (sop Op)).
  Hypothesis Hvp : forall i n, nth_error G i = Some n -> n_var n <> None -> n_ph n = None.

  Lemma step g g' xs bs o t vs r : node_of g xs bs o = Some (g', t) -> ext g' G ->
    Forall2 (fun x v => TV G x (inl v)) xs vs ->
    (forall ins, map opin_val ins = vs -> mc o ins = CRet [] [r] None) -> TV G t (inl r).
  Proof. intros B (l & E) F C. exact (made_tensor (scompute other bad uninit) bad uninit at_empty debug feeds env G g g' xs bs o t l vs r B E Hvp F C). Qed.
  Lemma step_none g g' xs bs o t vs r : node_of g xs bs o = Some (g', t) -> ext g' G ->
    Forall2 (fun x v => TV G x (inl v)) xs vs ->
    (forall ins, map opin_val ins = vs -> mc o ins = CPanic) -> ~ TV G t r.
  Proof. intros B (l & E) F C. exact (made_nothing (scompute other bad uninit) bad uninit at_empty debug feeds env G g g' xs bs o t l vs r B E Hvp F C). Qed.
  (** A tensor whose first input has no value has none. *)
  Lemma step_stuck g g' x xs bs o t m r : node_of g (x :: xs) bs o = Some (g', t) -> ext g' G -> op_node G x m ->
    (forall r, ~ TV G x r) -> ~ TV G t r.
  Proof.
    intros B (l & E) M Nx T. destruct (made_node G g g' (x :: xs) bs o t l B E) as (n & N & _ & I).
    assert (A : forall b, ~ arg (@a_shape R) mc debug G feeds env (Incoming x false 0) b).
    { intros b A. assert (Rd : reads (@a_shape R) mc debug G feeds env (Incoming x false 0) (opin_val b)) by (exists b; split; [exact A|reflexivity]).
      apply (reads_output _ _ _ _ _ _ x m (Incoming x false 0) (opin_val b) M eq_refl) in Rd. destruct Rd as (ys & W & Q). cbn in Q.
      destruct ys as [|v ys]; [discriminate|]. exact (Nx _ (first_of _ _ _ _ _ _ x v ys W)). }
    assert (W : forall r, ~ value (@a_shape R) mc debug G feeds env t r).
    { intros r' W. inversion W as [i n' bs' ws ys st Hn' As Hc Hd E1 E2|i n' pre inc post m' e Hn' Hin Hp Hm' He E1 E2]; subst.
      - assert (n' = n) by (destruct Hn', N; congruence). subst n'. rewrite I in As. cbn in As. inversion As; subst. eapply A; eassumption.
      - assert (n' = n) by (destruct Hn', N; congruence). subst n'. rewrite I in Hin. destruct pre as [|a pre]; cbn in Hin; injection Hin as Q _.
        + subst inc. cbn in He. exact (Nx (inr e) (tv_err _ _ _ _ _ _ x e He)).
        + subst a. destruct (Hp _ (or_introl eq_refl)) as (b & Ab). exact (A b Ab). }
    pose proof (op_tensor_value _ _ _ _ _ _ _ _ _ N T) as Q. destruct r as [v|e]; [destruct Q as (ys & Q)|]; exact (W _ Q).
  Qed.
  Lemma step_node g g' xs bs o t : node_of g xs bs o = Some (g', t) -> ext g' G -> exists m, op_node G t m.
  Proof. intros B (l & E). destruct (made_node G g g' xs bs o t l B E) as (n & N & _). exists n. exact N. Qed.
  Lemma step_outputs g xs vs o g1 out mid g2 sec y z :
    node_of g xs [] o = Some (g1, out) -> nth_tensor (g1 ++ mid) out 1 = Some (g2, sec) -> ext g2 G ->
    Forall2 (fun x v => TV G x (inl v)) xs vs ->
    (forall bs, map opin_val bs = vs -> mc o bs = CRet [] [y; z] None) ->
    TV G out (inl y) /\ TV G sec (inl z).
  Proof.
    intros B1 B2 (l & E) F C. revert Hvp F. rewrite E. intros Hv F.
    exact (both_outputs (scompute other bad uninit) bad uninit at_empty debug feeds env g xs vs o g1 out mid g2 sec l y z B1 B2 Hv F C).
  Qed.
  Lemma step_exp g g' x t v : node_of g [x] [] MExp = Some (g', t) -> ext g' G -> TV G x (inl v) -> TV G t (inl (amap exp v)).
  Proof.
    intros B E T. apply (step g g' [x] [] MExp t [v]); [exact B|exact E|reads2|].
    intros bs Eb. destruct bs as [|b1 [|? ?]]; try discriminate. cbn in Eb |- *. injection Eb as ->. reflexivity.
  Qed.
  Lemma step_mul g g' x y t u v r : node_of g [x; y] [] MMul = Some (g', t) -> ext g' G -> TV G x (inl u) -> TV G y (inl v) ->
    mul_forward 0 Rmult at_empty u v = Some r -> TV G t (inl r).
  Proof.
    intros B E T1 T2 C. apply (step g g' [x; y] [] MMul t [u; v]); [exact B|exact E|reads2|].
    intros bs Eb. destruct bs as [|b1 [|b2 [|? ?]]]; try discriminate. cbn in Eb |- *. injection Eb as -> ->. rewrite C. reflexivity.
  Qed.
  Lemma step_mul_none g g' x y t u v r : node_of g [x; y] [] MMul = Some (g', t) -> ext g' G -> TV G x (inl u) -> TV G y (inl v) ->
    mul_forward 0 Rmult at_empty u v = None -> ~ TV G t r.
  Proof.
    intros B E T1 T2 C. apply (step_none g g' [x; y] [] MMul t [u; v]); [exact B|exact E|reads2|].
    intros bs Eb. destruct bs as [|b1 [|b2 [|? ?]]]; try discriminate. cbn in Eb |- *. injection Eb as -> ->. rewrite C. reflexivity.
  Qed.
  Lemma step_sub g g' x y t u v r : node_of g [x; y] [] MSub = Some (g', t) -> ext g' G -> TV G x (inl u) -> TV G y (inl v) ->
    sub_forward 0 Rminus at_empty u v = Some r -> TV G t (inl r).
  Proof.
    intros B E T1 T2 C. apply (step g g' [x; y] [] MSub t [u; v]); [exact B|exact E|reads2|].
    intros bs Eb. destruct bs as [|b1 [|b2 [|? ?]]]; try discriminate. cbn in Eb |- *. injection Eb as -> ->. rewrite C. reflexivity.
  Qed.
  Lemma step_sum g g' x axes keep t v r : reduce_sum g x axes keep = Some (g', t) -> ext g' G -> TV G x (inl v) ->
    reduce 0 Rplus 0 axes keep false v = Some r -> TV G t (inl r) /\ ext g G.
  Proof.
    unfold reduce_sum, as_tensor. intros B E T C. apply after_inv in B. destruct B as (g3 & ax & B1 & B2).
    pose proof (ext_node _ _ _ _ _ _ _ B2 E) as E3. split; [|exact (ext_node _ _ _ _ _ _ _ B1 E3)].
    assert (Ta : TV G ax (inl (Arr [length axes] (map IZR axes)))).
    { apply (step g g3 [] [] (MOther (SConst (Arr [length axes] (map IZR axes)))) ax []); [exact B1|exact E3|constructor|].
      intros bs _. reflexivity. }
    apply (step g3 g' [x; ax] [] (MOther (SSum keep)) t [v; Arr [length axes] (map IZR axes)]); [exact B2|exact E|reads2|].
    intros bs Eb. destruct bs as [|b1 [|b2 [|? ?]]]; try discriminate. cbn in Eb |- *. injection Eb as -> ->. cbn [a_data].
    assert (Q : map trunc (map IZR axes) = axes) by (rewrite map_map; rewrite <- (map_id axes) at 2; apply map_ext; intros z; apply trunc_IZR).
    rewrite Q, C. reflexivity.
  Qed.
  (** Names for the labels' gradients: see [entropy_terms]. *)
  Lemma step_entropy axis n c g1 g2 g3 x l p s v : (n * c <> 0)%nat -> at_empty_ok 0 at_empty -> names_axis 2 axis 1 -> has_shape [n; c] v ->
    TV G x (inl (amap exp v)) -> TV G l (inl v) ->
    node_of g1 [x; l] [] MMul = Some (g2, p) -> reduce_sum g2 p [axis] true = Some (g3, s) -> ext g3 G ->
    exists dv sv, TV G s (inl sv) /\ sub_forward 0 Rminus at_empty sv v = Some dv /\ ext g1 G /\ has_shape [n; c] dv /\
      forall i j, (i < n)%nat -> (j < c)%nat ->
        aget 0 dv [i; j] = sum_below c (fun k => exp (aget 0 v [i; k]) * aget 0 v [i; k]) - aget 0 v [i; j].
  Proof.
    intros N AE Ax Hv Tx Tl B1 B2 E. destruct (entropy_terms at_empty AE axis n c v Ax Hv N) as (pv & sv & dv & E1 & E2 & E3 & Sd & Vd).
    assert (E2' : ext g2 G).
    { unfold reduce_sum, as_tensor in B2. pose proof B2 as B3. apply after_inv in B3. destruct B3 as (g4 & ax & B4 & B5).
      exact (ext_node _ _ _ _ _ _ _ B4 (ext_node _ _ _ _ _ _ _ B5 E)). }
    pose proof (step_mul _ _ _ _ _ _ _ _ B1 E2' Tx Tl E1) as Tp.
    destruct (step_sum _ _ _ _ _ _ _ _ B2 E Tp E2) as (Ts & _).
    exists dv, sv. split; [exact Ts|]. split; [exact E3|]. split; [exact (ext_node _ _ _ _ _ _ _ B1 E2')|]. split; assumption.
  Qed.
End Steps.

Ltac unroll H := repeat (let g := fresh "g" in let t := fresh "t" in let B := fresh "B" in apply after_inv in H; destruct H as (g & t & B & H)).

Lemma log_shape n c x l : has_shape [n; c] x -> log_softmax_of 1 x l -> has_shape [n; c] l.
Proof. intros Hx (S & W & _). rewrite (proj1 Hx) in S, W. split; assumption. Qed.

(** The sparse cross entropy: both tensors its [grad] makes.  The labels' one has the
    shape of the scores; with several classes it is not the gradient of the labels. *)
Theorem C83_sparse_label_gradient :
  forall (Op Err : Type) (other : Op -> list (opin (arr R)) -> cout (arr R) Err) (bad : Err) (uninit : nat -> R)
    (at_empty : arr R -> option R) (debug : bool) (feeds : list (ph_key * arr R)) (env : list (arr R)) (minv : R)
    (g g1 mid g2 more : graph (mop (sop Op))) (x t gy out gx gt : nat) (xv tv gv : arr R) (n c : nat) (lab : nat -> nat),
  scalar_index at_empty ->
  (forall i n, nth_error (g2 ++ more) i = Some n -> n_var n <> None -> n_ph n = None) ->
  sparse_softmax_cross_entropy g minv x t = Some (g1, out) ->
  sparse_xent_grads (g1 ++ mid) out t gy = Some (g2, gx, gt) ->
  let tensor_value := tensor_value (@a_shape R) (mcompute (scompute other bad uninit) bad uninit at_empty) debug (g2 ++ more) feeds env in
  tensor_value x (inl xv) -> tensor_value t (inl tv) -> tensor_value gy (inl gv) ->
  (n * c <> 0)%nat -> has_shape [n; c] xv -> has_shape [n] tv \/ has_shape [n; 1%nat] tv ->
  (forall i, (i < n)%nat -> nth_error (a_data tv) i = Some (INR (lab i)) /\ (lab i < c)%nat) -> has_shape [n; 1%nat] gv ->
  exists log_x gxv gtv, tensor_value gx (inl gxv) /\ tensor_value gt (inl gtv) /\ log_softmax_of 1 xv log_x /\
    vjp (fun x => option_map fst (sparse_xent minv exp x tv)) xv gv gxv /\
    has_shape [n; c] gtv /\
    (forall i j, (i < n)%nat -> (j < c)%nat -> aget 0 gtv [i; j] =
      exp (aget 0 log_x [i; j]) * aget 0 gv [i; 0%nat] *
      (sum_below c (fun k => exp (aget 0 log_x [i; k]) * aget 0 log_x [i; k]) - aget 0 log_x [i; j])) /\
    ((2 <= c)%nat -> ~ vjp (fun t => option_map fst (sparse_xent minv exp xv t)) tv gv gtv).
Proof.
  intros Op Err other bad uninit at_empty debug feeds env minv g g1 mid g2 more x t gy out gx gt xv tv gv n c lab AE Hvp B0 B TV Tx Tt Tg P Hx Ht L Hg.
  subst TV. apply P_Arith.index_empty_at in AE.
  destruct (C50_sparse minv n c xv tv lab gv P Hx Ht L Hg) as (y & log_x & gxv & E1 & SL & Sy & Vy & E2 & V).
  assert (HL : has_shape [n; c] log_x).
  { exact (log_shape n c xv log_x Hx SL). }
  unfold sparse_xent_grads in B. unroll B. injection B as -> -> ->.
  set (G := g2 ++ more) in *. assert (X : ext g2 G) by apply ext_app.
  pose proof (ext_node _ _ _ _ _ _ _ B8 X) as X8. pose proof (ext_node _ _ _ _ _ _ _ B7 X8) as X7. pose proof (ext_node _ _ _ _ _ _ _ B6 X7) as X6.
  assert (X5 : ext g5 G) by (unfold reduce_sum, as_tensor in B5; unroll B5; exact (ext_node _ _ _ _ _ _ _ B (ext_node _ _ _ _ _ _ _ B5 X6))).
  pose proof (ext_node _ _ _ _ _ _ _ B4 X5) as X4. pose proof (ext_node _ _ _ _ _ _ _ B3 X4) as X3. pose proof (ext_node _ _ _ _ _ _ _ B2 X3) as X2.
  destruct (step_outputs other bad uninit at_empty debug feeds env G Hvp g [x; t] [xv; tv] (MSparseXent minv) g1 out mid g0 t0 y log_x) as (To & Tl).
  { exact B0. } { exact B1. } { exact X2. } { reads2. }
  { intros bs Eb. destruct bs as [|b1 [|b2 [|? ?]]]; try discriminate. cbn in Eb |- *. injection Eb as -> ->.
    unfold sparse_run. pose proof E1 as E3. unfold sparse_xent in E3. destruct (log_softmax minv exp 1 xv) as [l|]; [|discriminate].
    rewrite E1. cbn [option_map outputs fst snd]. cbn [bind] in E3. unfold xent_shapes.
    destruct (a_shape l) as [|? [|? [|? ?]]]; try discriminate E3.
    destruct (a_shape tv) as [|? [|q [|? ?]]]; try discriminate E3; [reflexivity|]. destruct (q =? 1)%nat; [reflexivity|discriminate E3]. }
  assert (Tx1 : tensor_value (@a_shape R) (mcompute (scompute other bad uninit) bad uninit at_empty) debug G feeds env gx (inl gxv)).
  { apply (step other bad uninit at_empty debug feeds env G Hvp g0 g3 [t0; t; gy] [] MSparseXentGrad gx [log_x; tv; gv]); [exact B2|exact X3|reads2|].
    intros bs Eb. destruct bs as [|b1 [|b2 [|b3 [|? ?]]]]; try discriminate. cbn in Eb |- *. injection Eb as -> -> ->. rewrite E2. reflexivity. }
  pose proof (step_exp other bad uninit at_empty debug feeds env G Hvp _ _ _ _ _ B3 X4 Tl) as Te.
  destruct (step_entropy other bad uninit at_empty debug feeds env G Hvp 1 n c g4 g5 g6 t2 t0 t3 t4 log_x P AE (Softmax_Xent.names_one n c) HL Te Tl B4 B5 X6)
    as (dv & sv & Ts & Ed & _ & Hd & Vd).
  destruct (sparse_terms at_empty AE n c log_x gv dv HL Hg Hd P) as (xg & r & E3 & E4 & Hr & Vr).
  pose proof (step_mul other bad uninit at_empty debug feeds env G Hvp _ _ _ _ _ _ _ _ B6 X7 Te Tg E3) as T5.
  pose proof (step_sub other bad uninit at_empty debug feeds env G Hvp _ _ _ _ _ _ _ _ B7 X8 Ts Tl Ed) as T6.
  pose proof (step_mul other bad uninit at_empty debug feeds env G Hvp _ _ _ _ _ _ _ _ B8 X T5 T6 E4) as T7.
  exists log_x, gxv, r. split; [exact Tx1|]. split; [exact T7|]. split; [exact SL|]. split; [exact V|]. split; [exact Hr|]. split.
  - intros i j Hi Hj. rewrite Vr, Vd by assumption. reflexivity.
  - intros C2 ((Sr & _) & _). rewrite (proj1 Hr) in Sr. destruct Ht as [(Ht & _)|(Ht & _)]; rewrite Ht in Sr; [discriminate|injection Sr as Q; lia].
Qed.
Print Assumptions C83_sparse_label_gradient.

(** The dense cross entropy: the tensor its [grad] makes for the labels.  The incoming
    gradient and the loss, one number for each row, are lined up with the columns. *)
Theorem C83_dense_label_gradient :
  forall (Op Err : Type) (other : Op -> list (opin (arr R)) -> cout (arr R) Err) (bad : Err) (uninit : nat -> R)
    (at_empty : arr R -> option R) (debug : bool) (feeds : list (ph_key * arr R)) (env : list (arr R)) (minv : R)
    (g g1 mid g2 more : graph (mop (sop Op))) (x t gy out gx gt : nat) (xv tv gv : arr R) (n c : nat),
  scalar_index at_empty ->
  (forall i n, nth_error (g2 ++ more) i = Some n -> n_var n <> None -> n_ph n = None) ->
  softmax_cross_entropy g minv x t = Some (g1, out) ->
  xent_grads (g1 ++ mid) out t gy = Some (g2, gx, gt) ->
  let tensor_value := tensor_value (@a_shape R) (mcompute (scompute other bad uninit) bad uninit at_empty) debug (g2 ++ more) feeds env in
  tensor_value x (inl xv) -> tensor_value t (inl tv) -> tensor_value gy (inl gv) ->
  (n * c <> 0)%nat -> has_shape [n; c] xv -> has_shape [n; c] tv -> has_shape [n] gv ->
  exists y log_x, tensor_value out (inl y) /\ log_softmax_of 1 xv log_x /\
    (n = c \/ n = 1%nat \/ c = 1%nat ->
      let m := if (n =? 1)%nat then c else n in
      let col k j := if (k =? 1)%nat then 0%nat else j in
      exists gtv, tensor_value gt (inl gtv) /\ has_shape [n; m] gtv /\
        forall i j, (i < n)%nat -> (j < m)%nat -> aget 0 gtv [i; j] =
          aget 0 gv [col n j] *
          (sum_below c (fun k => exp (aget 0 log_x [i; k]) * aget 0 log_x [i; k]) - aget 0 log_x [i; col c j]) *
          aget 0 y [col n j]) /\
    (n <> c -> n <> 1%nat -> c <> 1%nat -> forall r, ~ tensor_value gt r).
Proof.
  intros Op Err other bad uninit at_empty debug feeds env minv g g1 mid g2 more x t gy out gx gt xv tv gv n c AE Hvp B0 B TV Tx Tt Tg P Hx Ht Hg.
  subst TV. apply P_Arith.index_empty_at in AE.
  destruct (C50_softmax minv n c xv tv Hx Ht P) as (y & log_x & E1 & SL & Hy & _).
  pose proof (log_shape n c xv log_x Hx SL) as HL.
  unfold xent_grads in B. unroll B. injection B as -> -> ->.
  set (G := g2 ++ more) in *. assert (X : ext g2 G) by apply ext_app.
  pose proof (ext_node _ _ _ _ _ _ _ B9 X) as X9. pose proof (ext_node _ _ _ _ _ _ _ B8 X9) as X8. pose proof (ext_node _ _ _ _ _ _ _ B7 X8) as X7.
  assert (X6 : ext g6 G) by (unfold reduce_sum, as_tensor in B6; unroll B6; exact (ext_node _ _ _ _ _ _ _ B (ext_node _ _ _ _ _ _ _ B6 X7))).
  pose proof (ext_node _ _ _ _ _ _ _ B5 X6) as X5. pose proof (ext_node _ _ _ _ _ _ _ B4 X5) as X4. pose proof (ext_node _ _ _ _ _ _ _ B3 X4) as X3.
  pose proof (ext_node _ _ _ _ _ _ _ B2 X3) as X2.
  destruct (step_outputs other bad uninit at_empty debug feeds env G Hvp g [x; t] [xv; tv] (MXent minv) g1 out mid g0 t0 y log_x) as (To & Tl).
  { exact B0. } { exact B1. } { exact X2. } { reads2. }
  { intros bs Eb. destruct bs as [|b1 [|b2 [|? ?]]]; try discriminate. cbn in Eb |- *. injection Eb as -> ->. rewrite E1. reflexivity. }
  pose proof (step_exp other bad uninit at_empty debug feeds env G Hvp _ _ _ _ _ B2 X3 Tl) as Te.
  assert (Ax : names_axis 2 (-1) 1) by (split; [lia|right; reflexivity]).
  destruct (step_entropy other bad uninit at_empty debug feeds env G Hvp (-1) n c g5 g6 g7 t1 t0 t4 t5 log_x P AE Ax HL Te Tl B5 B6 X7)
    as (dv & sv & Ts & Ed & _ & Hd & Vd).
  pose proof (step_sub other bad uninit at_empty debug feeds env G Hvp _ _ _ _ _ _ _ _ B7 X8 Ts Tl Ed) as T6.
  exists y, log_x. split; [exact To|]. split; [exact SL|]. split.
  - intros K m. destruct (dense_terms at_empty AE n c gv y dv Hg Hy Hd P K) as (e & r & E3 & E4 & Hr & Vr). fold m in Hr, Vr.
    pose proof (step_mul other bad uninit at_empty debug feeds env G Hvp _ _ _ _ _ _ _ _ B8 X9 Tg T6 E3) as T7.
    exists r. split; [exact (step_mul other bad uninit at_empty debug feeds env G Hvp _ _ _ _ _ _ _ _ B9 X T7 To E4)|]. split; [exact Hr|].
    intros i j Hi Hj. rewrite (Vr i j Hi Hj). unfold Second_Proofs.col. rewrite Vd; [reflexivity|exact Hi|].
    unfold m in Hj. destruct (Nat.eqb_spec c 1); [lia|]. destruct (Nat.eqb_spec n 1); lia.
  - intros K1 K2 K3. pose proof (dense_terms_none at_empty n c gv dv Hg Hd P K1 K2 K3) as E3.
    destruct (step_node G _ _ _ _ _ _ B8 X9) as (m & M).
    intros r. apply (step_stuck other bad uninit at_empty debug feeds env G Hvp _ _ _ _ _ _ _ m r B9 X M).
    intros r'. exact (step_mul_none other bad uninit at_empty debug feeds env G Hvp _ _ _ _ _ _ _ r' B8 X9 Tg T6 E3).
Qed.
Print Assumptions C83_dense_label_gradient.

(** Convolution: both tensors its [grad] makes, and the two that the [grad] of the filter's
    gradient makes, which go to the image and to the incoming gradient. *)
Theorem C83_convolution :
  forall (Op Err : Type) (other : Op -> list (opin (arr R)) -> cout (arr R) Err) (bad : Err) (uninit : nat -> R)
    (at_empty : arr R -> option R) (debug checked : bool) (feeds : list (ph_key * arr R)) (env : list (arr R))
    (g g1 mid g2 mid2 g3 more : graph (mop (sop Op))) (x w gy ggw out gx gw hx hgy : nat) (xv wv gv ggv : arr R)
    (batch xch ych xh xw kh kw p s d yh yw : nat),
  (forall i n, nth_error (g3 ++ more) i = Some n -> n_var n <> None -> n_ph n = None) ->
  dilated_conv2d g x w p s d = Some (g1, out) ->
  conv_grads (g1 ++ mid) out x w gy checked p s d = Some (g2, gx, gw) ->
  filter_grad_rule (g2 ++ mid2) gw ggw checked p s d = Some (g3, hx, hgy) ->
  let tensor_value := tensor_value (@a_shape R) (mcompute (scompute other bad uninit) bad uninit at_empty) debug (g3 ++ more) feeds env in
  tensor_value x (inl xv) -> tensor_value w (inl wv) -> tensor_value gy (inl gv) -> tensor_value ggw (inl ggv) ->
  Conv_Spec.conv_sizes xch ych xh xw kh kw p s d yh yw -> Conv_Spec.covers xh p s d kh yh -> Conv_Spec.covers xw p s d kw yw ->
  (checked = true -> (2 * p <= s * (yh - 1) /\ 2 * p <= s * (yw - 1))%nat) -> (0 < batch)%nat ->
  has_shape [batch; xch; xh; xw] xv -> has_shape [ych; xch; kh; kw] wv -> has_shape [batch; ych; yh; yw] gv -> has_shape [ych; xch; kh; kw] ggv ->
  (exists node, nth_error (g3 ++ more) gw = Some node /\ map in_id (get_backprop_inputs node) = [x; gy]) /\
  exists gxv gwv hxv hgv, tensor_value gx (inl gxv) /\ tensor_value gw (inl gwv) /\ tensor_value hx (inl hxv) /\ tensor_value hgy (inl hgv) /\
    vjp (fun x => P_ConvGrad.conv_result (Conv_Model.conv2d 0 Rplus Rmult uninit p s d x wv)) xv gv gxv /\
    vjp (fun w => P_ConvGrad.conv_result (Conv_Model.conv2d 0 Rplus Rmult uninit p s d xv w)) wv gv gwv /\
    vjp (fun x => Conv_Model.kok (Conv_Model.conv2d_grad_w 0 Rplus Rmult uninit p s d x wv gv)) xv ggv hxv /\
    vjp (fun gy => Conv_Model.kok (Conv_Model.conv2d_grad_w 0 Rplus Rmult uninit p s d xv wv gy)) gv ggv hgv.
Proof.
  intros Op Err other bad uninit at_empty debug checked feeds env g g1 mid g2 mid2 g3 more x w gy ggw out gx gw hx hgy xv wv gv ggv
    batch xch ych xh xw kh kw p s d yh yw Hvp B0 B B' TV Tx Tw Tg Tgg S Ch Cw Ck Pb Hx Hw Hg Hgg. subst TV.
  destruct (P_Conv.C37_value batch xch ych xh xw kh kw p s d yh yw uninit xv wv S Hx Hw) as (y & cols & E1 & Sy & Vy).
  destruct (P_ConvGrad.C51_image_gradient checked batch xch ych xh xw kh kw p s d yh yw uninit uninit xv wv gv S Ch Cw Ck Pb Hx Hw Hg) as (gxv & E2 & V2).
  destruct (P_ConvGrad.C51_filter_gradient batch xch ych xh xw kh kw p s d yh yw uninit uninit xv wv gv S Pb Hx Hw Hg) as (gwv & E3 & _ & V3).
  destruct (P_ConvGrad.C53_filter_gradient_of_image checked batch xch ych xh xw kh kw p s d yh yw uninit uninit xv wv gv ggv S Ch Cw Ck Pb Hx Hw Hg Hgg) as (hxv & E4 & V4).
  destruct (P_ConvGrad.C53_filter_gradient_of_gradient batch xch ych xh xw kh kw p s d yh yw uninit uninit xv wv gv ggv y cols S Pb Hx Hw Hg Hgg E1) as (hgv & E5 & V5).
  unfold Conv_Model.conv2d_grad_x in E2. unfold Conv_Model.conv2d_grad_w in E3. rewrite E1 in E3. cbn [Conv_Model.kbind snd] in E3.
  unfold conv_grads in B. unroll B. injection B as -> -> ->.
  unfold conv_rule_w in B2. destruct (nth_tensor g0 out 1) as [[g4 sec]|] eqn:B3; [|discriminate].
  destruct (made _ _ _ _ _ _ B2) as (nd & Nd & _ & Ni & Nb).
  unfold filter_grad_rule, input_of, backprop_input_of in B'.
  rewrite (ext_nth g2 (g2 ++ mid2) gw nd (ext_app _ _) Nd), Ni, Nb in B'. cbn in B'. unfold filter_grads in B'. unroll B'. injection B' as -> -> ->.
  set (G := g3 ++ more) in *. assert (X : ext g3 G) by apply ext_app.
  pose proof (ext_node _ _ _ _ _ _ _ B4 X) as X5. pose proof (ext_node _ _ _ _ _ _ _ B X5) as X2'.
  assert (X2 : ext g2 G) by (eapply ext_trans; [apply ext_app|exact X2']).
  pose proof (ext_node _ _ _ _ _ _ _ B2 X2) as X4. pose proof (ext_nth_tensor _ _ _ _ _ _ B3 X4) as X0.
  split; [exists nd; split; [exact (ext_nth g2 G gw nd X2 Nd)|rewrite Nb; reflexivity]|].
  assert (exists mid', g0 = g1 ++ mid') as (mid' & ->).
  { destruct (node_extends _ _ _ _ _ _ B1) as (k & ->). exists (mid ++ [k]). rewrite app_assoc. reflexivity. }
  destruct (step_outputs other bad uninit at_empty debug feeds env G Hvp g [x; w] [xv; wv] (MConv p s d) g1 out mid' g4 sec y cols) as (To & Tc).
  { exact B0. } { exact B3. } { exact X4. } { reads2. }
  { intros bs Eb. destruct bs as [|b1 [|b2 [|? ?]]]; try discriminate. cbn in Eb |- *. injection Eb as -> ->. rewrite E1. reflexivity. }
  exists gxv, gwv, hxv, hgv.
  split.
  { apply (step other bad uninit at_empty debug feeds env G Hvp (g1 ++ mid) (g1 ++ mid') [gy; w] [] (MOther (STransposed checked p s d)) gx [gv; wv]); [exact B1|exact X0|reads2|].
    intros bs Eb. destruct bs as [|b1 [|b2 [|? ?]]]; try discriminate. cbn in Eb |- *. injection Eb as -> ->. rewrite E2. reflexivity. }
  split.
  { apply (step other bad uninit at_empty debug feeds env G Hvp g4 g2 [sec; gy; w] [x; gy] MConvGradW gw [cols; gv; wv]); [exact B2|exact X2|reads2|].
    intros bs Eb. destruct bs as [|b1 [|b2 [|b3 [|? ?]]]]; try discriminate. cbn in Eb |- *. injection Eb as -> -> ->. rewrite E3. reflexivity. }
  split.
  { apply (step other bad uninit at_empty debug feeds env G Hvp (g2 ++ mid2) g5 [gy; ggw] [] (MOther (STransposed checked p s d)) hx [gv; ggv]); [exact B|exact X5|reads2|].
    intros bs Eb. destruct bs as [|b1 [|b2 [|? ?]]]; try discriminate. cbn in Eb |- *. injection Eb as -> ->. rewrite E4. reflexivity. }
  split; [|auto].
  apply (step other bad uninit at_empty debug feeds env G Hvp g5 g3 [sec; ggw] [x; ggw] (MOther SWithCols) hgy [cols; ggv]); [exact B4|exact X|reads2|].
  intros bs Eb. destruct bs as [|b1 [|b2 [|? ?]]]; try discriminate. cbn in Eb |- *. injection Eb as -> ->. rewrite E5. reflexivity.
Qed.
Print Assumptions C83_convolution.

Lemma pool_positions checked lowest bits uninit batch ch xh xw s size yh yw (x y : arr R) pos :
  Pool_Spec.pool_sizes xh xw 0 s size yh yw -> has_shape [batch; ch; xh; xw] x -> Forall (Rlt lowest) (a_data x) ->
  (N.of_nat (batch * ch * xh * xw) <= 2 ^ bits)%N ->
  Pool_Model.max_pool2d lowest Pool_Proofs.rgt bits uninit checked 0 s size x = Conv_Model.KOk (y, pos) ->
  a_shape pos = [batch; ch; yh; yw] /\ wf pos /\ Forall (fun k => (k < batch * ch * xh * xw)%nat) (a_data pos).
Proof.
  intros S Hx Low HB E. destruct (P_Pool.C40_value checked lowest bits uninit batch ch xh xw s size yh yw x S Hx Low HB) as (y' & pos' & E' & _ & Sp & V).
  rewrite E in E'. injection E' as <- <-. 
  assert (W : wf pos).
  { rewrite (Pool_Final.pool_run lowest checked batch ch xh xw 0 s size yh yw S bits uninit x (fun _ => eq_refl) Hx) in E. injection E as _ <-. apply tab_wf. }
  split; [exact Sp|]. split; [exact W|]. rewrite (Vjp_Proofs.data_map 0%nat pos W), Sp. apply Forall_forall. intros k Hk. apply in_map_iff in Hk.
  destruct Hk as (ix & <- & Hix). apply indices_in in Hix.
  inversion Hix as [|b ? ? ? Hb H1]; subst. inversion H1 as [|c ? ? ? Hc H2]; subst. inversion H2 as [|i ? ? ? Hi H3]; subst. inversion H3 as [|j ? ? ? Hj H4]; subst. inversion H4; subst.
  destruct (V b c i j Hb Hc Hi Hj) as (h & w & ((Hh & Hw & _) & _) & _ & ->).
  replace (batch * ch * xh * xw)%nat with (prod [batch; ch; xh; xw]) by (cbn; lia). apply ravel_lt. repeat constructor; assumption.
Qed.

(** Max pooling without padding: the tensor that the [grad] of its gradient makes is the
    gradient of the gradient with respect to what came in. *)
Theorem C83_max_pool :
  forall (Op Err : Type) (other : Op -> list (opin (arr R)) -> cout (arr R) Err) (bad : Err) (uninit : nat -> R)
    (at_empty : arr R -> option R) (debug : bool) (feeds : list (ph_key * arr R)) (env : list (arr R))
    (lowest : R) (bits : N) (checked : bool)
    (g g1 mid g2 mid2 g3 more : graph (mop (sop Op))) (x gy ggx out gx h : nat) (xv gv ggv : arr R) (batch ch xh xw s size yh yw : nat),
  (forall i n, nth_error (g3 ++ more) i = Some n -> n_var n <> None -> n_ph n = None) ->
  max_pool2d g lowest bits checked x size 0 s = Some (g1, out) ->
  pool_rule (g1 ++ mid) out gy checked 0 s size = Some (g2, gx) ->
  pool_second_rule (g2 ++ mid2) gx ggx 0 s size = Some (g3, h) ->
  let tensor_value := tensor_value (@a_shape R) (mcompute (scompute other bad uninit) bad uninit at_empty) debug (g3 ++ more) feeds env in
  tensor_value x (inl xv) -> tensor_value gy (inl gv) -> tensor_value ggx (inl ggv) ->
  Pool_Spec.pool_sizes xh xw 0 s size yh yw -> Pool_Spec.pool_covers xh 0 s size yh -> Pool_Spec.pool_covers xw 0 s size yw ->
  has_shape [batch; ch; xh; xw] xv -> has_shape [batch; ch; yh; yw] gv -> has_shape [batch; ch; xh; xw] ggv ->
  Forall (Rlt lowest) (a_data xv) -> (N.of_nat (batch * ch * xh * xw) <= 2 ^ bits)%N ->
  exists hv, tensor_value h (inl hv) /\
    vjp (fun gy => Conv_Model.kok (Pool_Model.max_pool2d_grad_x 0 lowest Rplus rgtb bits uninit checked 0 s size xv gy)) gv ggv hv /\
    (forall b c i j, (b < batch)%nat -> (c < ch)%nat -> (i < yh)%nat -> (j < yw)%nat ->
      exists ph pw, Pool_Spec.first_max xh xw 0 s size xv b c i j ph pw /\ aget 0 hv [b; c; i; j] = aget 0 ggv [b; c; ph; pw]).
Proof.
  intros Op Err other bad uninit at_empty debug feeds env lowest bits checked g g1 mid g2 mid2 g3 more x gy ggx out gx h xv gv ggv batch ch xh xw s size yh yw
    Hvp B0 B1 B2 TV Tx Tg Tgg S Ch Cw Hx Hg Hgg Low HB. subst TV.
  destruct (P_Pool.C40_value checked lowest bits uninit batch ch xh xw s size yh yw xv S Hx Low HB) as (y & pos & E1 & Sy & Sp & Vy).
  destruct (pool_positions checked lowest bits uninit batch ch xh xw s size yh yw xv y pos S Hx Low HB E1) as (_ & Wp & Fp).
  destruct (P_Pool.C40_second_order checked batch ch xh xw s size yh yw gv ggv pos S Ch Cw Hg Hgg Sp Wp Fp) as (hv & E2 & V).
  unfold pool_rule in B1. destruct (nth_tensor (g1 ++ mid) out 1) as [[g4 sec]|] eqn:B3; [|discriminate].
  destruct (made _ _ _ _ _ _ B1) as (nd & Nd & _ & Ni & _).
  unfold pool_second_rule, input_of in B2. rewrite (ext_nth g2 (g2 ++ mid2) gx nd (ext_app _ _) Nd), Ni in B2. cbn in B2. unfold pool_grad_rule in B2.
  set (G := g3 ++ more) in *. assert (X : ext g3 G) by apply ext_app.
  pose proof (ext_node _ _ _ _ _ _ _ B2 X) as X2'. assert (X2 : ext g2 G) by (eapply ext_trans; [apply ext_app|exact X2']).
  pose proof (ext_node _ _ _ _ _ _ _ B1 X2) as X4.
  destruct (step_outputs other bad uninit at_empty debug feeds env G Hvp g [x] [xv] (MPool lowest bits checked 0 s size) g1 out mid g4 sec y (amap INR pos)) as (To & Tp).
  { exact B0. } { exact B3. } { exact X4. } { reads2. }
  { intros bs Eb. destruct bs as [|b1 [|? ?]]; try discriminate. cbn in Eb |- *. injection Eb as ->. change rgtb with Pool_Proofs.rgt. rewrite E1. reflexivity. }
  exists hv. split; [|split].
  - apply (step other bad uninit at_empty debug feeds env G Hvp (g2 ++ mid2) g3 [ggx; sec] [] (MOther (SPoolGradGrad 0 s size)) h [ggv; amap INR pos]); [exact B2|exact X|reads2|].
    intros bs Eb. destruct bs as [|b1 [|b2 [|? ?]]]; try discriminate. cbn in Eb |- *. injection Eb as -> ->. rewrite positions_back, E2. reflexivity.
  - unfold Pool_Model.max_pool2d_grad_x. change rgtb with Pool_Proofs.rgt. rewrite E1. exact V.
  - intros b c i j Hb Hc Hi Hj. destruct (Vy b c i j Hb Hc Hi Hj) as (ph & pw & F & _ & Ep). exists ph, pw. split; [exact F|].
    assert (L : (yh * yw * ch * batch)%nat = length (a_data pos)) by (rewrite Wp, Sp; cbn; lia).
    unfold Pool_Model.max_pool2d_grad_grad in E2. rewrite (proj1 Hgg) in E2.
    pose proof S as (Q1 & Q2 & Q3 & Q4 & F1 & F2 & _). rewrite !(Pool_Proofs.fits_out_size xh 0 s size yh), !(Pool_Proofs.fits_out_size xw 0 s size yw) in E2 by auto.
    cbn [Conv_Model.kbind] in E2. rewrite L, (Pool_Proofs.gather_value 0) in E2.
    2:{ intros k Hk. rewrite Forall_forall in Fp. rewrite (proj2 Hgg). replace (prod [batch; ch; xh; xw]) with (batch * ch * xh * xw)%nat by (cbn; lia). auto. }
    cbn [Conv_Model.kbind] in E2. injection E2 as <-. unfold aget at 1. cbn [a_shape a_data].
    assert (Hr : (ravel [batch; ch; yh; yw] [b; c; i; j] < length (a_data pos))%nat) by (rewrite Wp, Sp; apply ravel_lt; repeat constructor; assumption).
    rewrite (nth_indep _ 0 (nth 0 (a_data ggv) 0)) by (rewrite map_length; exact Hr).
    rewrite (map_nth (fun k => nth k (a_data ggv) 0)). unfold aget in Ep. rewrite Sp in Ep. rewrite Ep. unfold aget. rewrite (proj1 Hgg). reflexivity.
Qed.
Print Assumptions C83_max_pool.

(** Constants, and the operations with their rules applied to them. *)
Definition snode (a : arr R) : node (mop (sop unit)) := Node (MOther (SConst a)) [] 0 None None true None None None.
Definition s_other (o : unit) (ins : list (opin (arr R))) : cout (arr R) unit := CPanic.
Definition s_ggw : arr R := Arr [3; 2; 3; 2]%nat (map INR (rev (seq 0 36))).
Definition s_square : arr R := Arr [2; 2]%nat [0; 1; 1; 0].
Definition s_ggx : arr R := Arr [1; 1; 2; 2]%nat [5; 6; 7; 8].
Definition s_base : graph (mop (sop unit)) :=
  map snode [m_scores; m_labels; m_gy; m_onehot; m_gy1; m_image; m_filter; m_gconv; m_plain; m_gpool; s_ggw; s_square; s_ggx].
Definition first_graph3 {O} (r : option (graph O * nat * nat)) : graph O := match r with Some (g, _, _) => g | None => [] end.
Definition s_sparse := first_graph (sparse_softmax_cross_entropy s_base (-10) 0 1).
Definition s_sparse' := first_graph3 (sparse_xent_grads s_sparse 13 1 2).
Definition s_dense := first_graph (softmax_cross_entropy s_base (-10) 0 3).
Definition s_dense' := first_graph3 (xent_grads s_dense 13 3 4).
Definition s_equal := first_graph (softmax_cross_entropy s_base (-10) 11 11).
Definition s_equal' := first_graph3 (xent_grads s_equal 13 11 4).
Definition s_conv := first_graph (dilated_conv2d s_base 5 6 1 1 2).
Definition s_conv' := first_graph3 (conv_grads s_conv 13 5 6 7 true 1 1 2).
Definition s_conv'' := first_graph3 (filter_grad_rule s_conv' 16 10 true 1 1 2).
Definition s_pool := first_graph (max_pool2d s_base 0 24 true 8 2 0 2).
Definition s_pool' := first_graph (pool_rule s_pool 13 9 true 0 2 2).
Definition s_pool'' := first_graph (pool_second_rule s_pool' 15 12 0 2 2).
Lemma s_value u ae g i a : nth_error g i = Some (snode a) ->
  tensor_value (@a_shape R) (mcompute (scompute s_other tt u) tt u ae) true g [] [] i (inl a).
Proof.
  intros H. apply (tv_ok _ _ _ _ _ _ i a []). apply (value_run _ _ _ _ _ _ i (snode a) [] [] [a] None).
  - split; [exact H|split; reflexivity].
  - constructor.
  - reflexivity.
  - discriminate.
Qed.

(** C83's hypotheses hold for two rows of three scores, two rows of two, a dilated
    convolution and a max pooling. *)
Example C83_hypotheses_met : forall u ae,
  let value_in g i v := tensor_value (@a_shape R) (mcompute (scompute s_other tt u) tt u ae) true g [] [] i (inl v) in
  let sound g := forall i (n : node (mop (sop unit))), nth_error g i = Some n -> n_var n <> None -> n_ph n = None in
  (sparse_softmax_cross_entropy s_base (-10) 0 1 = Some (s_sparse, 13%nat) /\
   (exists gx gt, sparse_xent_grads s_sparse 13 1 2 = Some (s_sparse', gx, gt)) /\ sound s_sparse' /\
   value_in s_sparse' 0%nat m_scores /\ value_in s_sparse' 1%nat m_labels /\ value_in s_sparse' 2%nat m_gy /\
   has_shape [2; 3]%nat m_scores /\ has_shape [2%nat] m_labels /\ has_shape [2; 1]%nat m_gy /\
   (forall i, (i < 2)%nat -> nth_error (a_data m_labels) i = Some (INR (1 - i)) /\ (1 - i < 3)%nat)) /\
  (softmax_cross_entropy s_base (-10) 0 3 = Some (s_dense, 13%nat) /\
   (exists gx gt, xent_grads s_dense 13 3 4 = Some (s_dense', gx, gt)) /\ sound s_dense' /\
   value_in s_dense' 0%nat m_scores /\ value_in s_dense' 3%nat m_onehot /\ value_in s_dense' 4%nat m_gy1 /\
   has_shape [2; 3]%nat m_onehot /\ has_shape [2%nat] m_gy1) /\
  (softmax_cross_entropy s_base (-10) 11 11 = Some (s_equal, 13%nat) /\
   (exists gx gt, xent_grads s_equal 13 11 4 = Some (s_equal', gx, gt)) /\ sound s_equal' /\
   value_in s_equal' 11%nat s_square /\ value_in s_equal' 4%nat m_gy1 /\ has_shape [2; 2]%nat s_square) /\
  (dilated_conv2d s_base 5 6 1 1 2 = Some (s_conv, 13%nat) /\
   (exists gx, conv_grads s_conv 13 5 6 7 true 1 1 2 = Some (s_conv', gx, 16%nat)) /\
   (exists hx hgy, filter_grad_rule s_conv' 16 10 true 1 1 2 = Some (s_conv'', hx, hgy)) /\ sound s_conv'' /\
   value_in s_conv'' 5%nat m_image /\ value_in s_conv'' 6%nat m_filter /\ value_in s_conv'' 7%nat m_gconv /\ value_in s_conv'' 10%nat s_ggw /\
   Conv_Spec.conv_sizes 2 3 5 4 3 2 1 1 2 3 4 /\ Conv_Spec.covers 5 1 1 2 3 3 /\ Conv_Spec.covers 4 1 1 2 2 4 /\
   (2 * 1 <= 1 * (3 - 1) /\ 2 * 1 <= 1 * (4 - 1))%nat /\
   has_shape [1; 2; 5; 4]%nat m_image /\ has_shape [3; 2; 3; 2]%nat m_filter /\ has_shape [1; 3; 3; 4]%nat m_gconv /\ has_shape [3; 2; 3; 2]%nat s_ggw) /\
  (max_pool2d s_base 0 24 true 8 2 0 2 = Some (s_pool, 13%nat) /\
   pool_rule s_pool 13 9 true 0 2 2 = Some (s_pool', 15%nat) /\
   (exists h, pool_second_rule s_pool' 15 12 0 2 2 = Some (s_pool'', h)) /\ sound s_pool'' /\
   value_in s_pool'' 8%nat m_plain /\ value_in s_pool'' 9%nat m_gpool /\ value_in s_pool'' 12%nat s_ggx /\
   Pool_Spec.pool_sizes 2 2 0 2 2 1 1 /\ Pool_Spec.pool_covers 2 0 2 2 1 /\
   has_shape [1; 1; 2; 2]%nat m_plain /\ has_shape [1; 1; 1; 1]%nat m_gpool /\ has_shape [1; 1; 2; 2]%nat s_ggx /\
   Forall (Rlt 0) (a_data m_plain) /\ (N.of_nat (1 * 1 * 2 * 2) <= 2 ^ 24)%N).
Proof.
  intros u ae value_in sound. subst value_in sound. cbv beta.
  split; [|split; [|split; [|split]]].
  - split; [reflexivity|]. split; [do 2 eexists; reflexivity|]. split; [apply (plain_graph s_sparse' []); reflexivity|].
    do 3 (split; [apply s_value; reflexivity|]). do 3 (split; [split; reflexivity|]).
    intros [|[|i]] Hi; [| |lia]; (split; [reflexivity|lia]).
  - split; [reflexivity|]. split; [do 2 eexists; reflexivity|]. split; [apply (plain_graph s_dense' []); reflexivity|].
    do 3 (split; [apply s_value; reflexivity|]). split; split; reflexivity.
  - split; [reflexivity|]. split; [do 2 eexists; reflexivity|]. split; [apply (plain_graph s_equal' []); reflexivity|].
    do 2 (split; [apply s_value; reflexivity|]). split; reflexivity.
  - split; [reflexivity|]. split; [eexists; reflexivity|]. split; [do 2 eexists; reflexivity|]. split; [apply (plain_graph s_conv'' []); reflexivity|].
    do 4 (split; [apply s_value; reflexivity|]). destruct P_Conv.conv_example_covers as (S & C1 & C2 & P1 & P2).
    do 3 (split; [assumption|]). split; [split; assumption|]. do 3 (split; [split; reflexivity|]). split; reflexivity.
  - split; [reflexivity|]. split; [reflexivity|]. split; [eexists; reflexivity|]. split; [apply (plain_graph s_pool'' []); reflexivity|].
    do 3 (split; [apply s_value; reflexivity|]). split; [repeat split; lia|]. split; [reflexivity|]. do 3 (split; [split; reflexivity|]).
    split; [repeat constructor; lra|]. vm_compute. discriminate.
Qed.
