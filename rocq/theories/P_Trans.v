(** C86: transposed convolutions in graphs, their gradients, and the gradients of the
    filter's gradient. *)
From Coq Require Import List Arith ZArith NArith Bool Reals Lia Lra.
Import ListNotations.
From Verif Require Import Graph_Model Eval_Model Eval_Spec Eval_Proofs Eval_Proofs2 Graph_Proofs Scalar_Model.
From Verif Require Import Array_Model Array_Proofs Vjp_Spec Num_Model Num_Proofs.
From Verif Require Conv_Model Conv_Spec Conv_Filter P_Conv P_ConvGrad.
From Verif Require Import Multi_Model Multi_Proofs P_Multi Second_Model P_Second Trans_Model.
Local Set Bullet Behavior "Strict Subproofs".
Local Open Scope R_scope.

Section Steps.
  Context {Op Err : Type}.
  Variable other : Op -> list (opin (arr R)) -> cout (arr R) Err.
  Variable bad : Err.
  Variable uninit : nat -> R.
  Variable at_empty : arr R -> option R.
  Variable debug : bool.
  Variable feeds : list (ph_key * arr R).
  Variable env : list (arr R).
  Notation mc := (mcompute (scompute (trcompute other bad uninit) bad uninit) bad uninit at_empty).
  Notation TV G := (tensor_value (@a_shape R) mc debug G feeds env).
  Variable G : graph (mop (sop (trop Op))).
  Hypothesis Hvp : forall i n, nth_error G i = Some n -> n_var n <> None -> n_ph n = None.

  (** A tensor of an operation with two outputs holds the first one. *)
  Lemma step_first g g' xs o t vs y z : node_of g xs [] o = Some (g', t) -> ext g' G ->
    Forall2 (fun x v => TV G x (inl v)) xs vs ->
    (forall ins, map opin_val ins = vs -> mc o ins = CRet [] [y; z] None) -> TV G t (inl y).
  Proof.
    intros B (l & Eg) F C.
    destruct (made_node G g g' xs [] o t l B Eg) as (n & N & O & I).
    apply (first_of _ _ _ _ _ _ t y [z]).
    apply (made_value (scompute (trcompute other bad uninit) bad uninit) bad uninit at_empty debug G feeds env Hvp t n xs vs [y; z] N I F); [rewrite O; exact C|discriminate].
  Qed.
  (** What the tensors of the two rules hold, for any outcome of the kernels. *)
  Lemma rule_values g g2 x w gy gx gw p s d xv wv gv gxv cols gwv :
    transposed_grads g x w gy p s d = Some (g2, gx, gw) -> ext g2 G ->
    TV G x (inl xv) -> TV G w (inl wv) -> TV G gy (inl gv) ->
    Conv_Model.conv2d 0 Rplus Rmult uninit p s d gv wv = Conv_Model.KOk (gxv, cols) ->
    Conv_Model.conv2d_transpose_grad_w 0 Rplus Rmult uninit p s d xv wv gv = Conv_Model.KOk gwv ->
    TV G gx (inl gxv) /\ TV G gw (inl gwv).
  Proof.
    intros B X Tx Tw Tg E1 E2. unfold transposed_grads in B. unroll B. injection B as -> -> ->.
    pose proof (ext_node _ _ _ _ _ _ _ B2 X) as X1. unfold stop_gradient in B1. pose proof (ext_node _ _ _ _ _ _ _ B1 X1) as X0.
    split.
    - apply (step_first g g0 [gy; w] (MConv p s d) gx [gv; wv] gxv cols); [exact B0|exact X0|reads2|].
      intros bs Eb. destruct bs as [|b1 [|b2 [|? ?]]]; try discriminate. cbn in Eb |- *. injection Eb as -> ->. rewrite E1. reflexivity.
    - assert (Ts : TV G t0 (inl wv)).
      { apply (step (trcompute other bad uninit) bad uninit at_empty debug feeds env G Hvp g0 g1 [w] [] (MOther (SOther TStop)) t0 [wv]); [exact B1|exact X1|reads2|].
        intros bs Eb. destruct bs as [|b1 [|? ?]]; try discriminate. cbn in Eb |- *. injection Eb as ->. reflexivity. }
      apply (step (trcompute other bad uninit) bad uninit at_empty debug feeds env G Hvp g1 g2 [gy; x; t0] [] (MOther (SOther (TFilterGrad p s d))) gw [gv; xv; wv]); [exact B2|exact X|reads2|].
      intros bs Eb. destruct bs as [|b1 [|b2 [|b3 [|? ?]]]]; try discriminate. cbn in Eb |- *. injection Eb as -> -> ->.
      unfold Conv_Model.conv2d_transpose_grad_w in E2. rewrite E2. reflexivity.
  Qed.
End Steps.

(** [conv2d_transpose] evaluates to the gradient of [conv2d], for the same filter and any
    image, with its operand as the incoming gradient.  For images as high as wide or
    batches of one, the tensors its [grad] makes evaluate to the gradients of operand and
    filter, and differentiating the filter's gradient again gives two tensors that
    evaluate to the gradients of the filter's gradient. *)
Theorem C86_gradients :
  forall (Op Err : Type) (other : Op -> list (opin (arr R)) -> cout (arr R) Err) (bad : Err) (uninit : nat -> R)
    (at_empty : arr R -> option R) (debug checked : bool) (feeds : list (ph_key * arr R)) (env : list (arr R))
    (g g1 mid g2 mid2 g3 more : graph (mop (sop (trop Op)))) (x w gy ggw out gx gw hgy hx : nat) (xv wv gv ggv : arr R)
    (batch xch ych xh xw kh kw p s d yh yw : nat),
  (forall i n, nth_error (g3 ++ more) i = Some n -> n_var n <> None -> n_ph n = None) ->
  dilated_conv2d_transpose g x w checked p s d = Some (g1, out) ->
  transposed_grads (g1 ++ mid) x w gy p s d = Some (g2, gx, gw) ->
  transposed_filter_rule (g2 ++ mid2) gw ggw checked p s d = Some (g3, hgy, hx) ->
  let tensor_value := tensor_value (@a_shape R) (mcompute (scompute (trcompute other bad uninit) bad uninit) bad uninit at_empty) debug (g3 ++ more) feeds env in
  tensor_value x (inl xv) -> tensor_value w (inl wv) -> tensor_value gy (inl gv) -> tensor_value ggw (inl ggv) ->
  Conv_Spec.conv_sizes xch ych xh xw kh kw p s d yh yw -> Conv_Spec.covers xh p s d kh yh -> Conv_Spec.covers xw p s d kw yw ->
  (checked = true -> (2 * p <= s * (yh - 1) /\ 2 * p <= s * (yw - 1))%nat) -> (0 < batch)%nat -> (yh = yw \/ batch = 1%nat) ->
  has_shape [batch; ych; yh; yw] xv -> has_shape [ych; xch; kh; kw] wv -> has_shape [batch; xch; xh; xw] gv -> has_shape [ych; xch; kh; kw] ggv ->
  exists yv gxv gwv hgv hxv,
    tensor_value out (inl yv) /\ tensor_value gx (inl gxv) /\ tensor_value gw (inl gwv) /\ tensor_value hgy (inl hgv) /\ tensor_value hx (inl hxv) /\
    (forall image, has_shape [batch; xch; xh; xw] image ->
       vjp (fun i => P_ConvGrad.conv_result (Conv_Model.conv2d 0 Rplus Rmult uninit p s d i wv)) image xv yv) /\
    vjp (fun x => Conv_Model.kok (Conv_Model.conv2d_transpose 0 Rplus Rmult uninit checked p s d x wv)) xv gv gxv /\
    vjp (fun w => Conv_Model.kok (Conv_Model.conv2d_transpose 0 Rplus Rmult uninit checked p s d xv w)) wv gv gwv /\
    vjp (fun gy => Conv_Model.kok (Conv_Model.conv2d_transpose_grad_w 0 Rplus Rmult uninit p s d xv wv gy)) gv ggv hgv /\
    vjp (fun x => Conv_Model.kok (Conv_Model.conv2d_transpose_grad_w 0 Rplus Rmult uninit p s d x wv gv)) xv ggv hxv.
Proof.
  intros Op Err other bad uninit at_empty debug checked feeds env g g1 mid g2 mid2 g3 more x w gy ggw out gx gw hgy hx xv wv gv ggv
    batch xch ych xh xw kh kw p s d yh yw Hvp B0 B B' TV Tx Tw Tg Tgg S Ch Cw Ck Pb Sq Hx Hw Hg Hgg. subst TV.
  assert (E1 : exists yv, Conv_Model.conv2d_transpose 0 Rplus Rmult uninit checked p s d xv wv = Conv_Model.KOk yv /\
    forall image, has_shape [batch; xch; xh; xw] image ->
       vjp (fun i => P_ConvGrad.conv_result (Conv_Model.conv2d 0 Rplus Rmult uninit p s d i wv)) image xv yv).
  { destruct (P_ConvGrad.C51_image_gradient checked batch xch ych xh xw kh kw p s d yh yw uninit uninit gv wv xv S Ch Cw Ck Pb Hg Hw Hx) as (yv & E & _).
    exists yv. split; [exact E|]. intros im Him.
    destruct (P_ConvGrad.C51_image_gradient checked batch xch ych xh xw kh kw p s d yh yw uninit uninit im wv xv S Ch Cw Ck Pb Him Hw Hx) as (yv' & E' & V).
    rewrite E in E'. injection E' as <-. exact V. }
  destruct E1 as (yv & E1 & V1).
  destruct (P_ConvGrad.C52_input_gradient checked batch xch ych xh xw kh kw p s d yh yw uninit uninit xv wv gv S Ch Cw Ck Pb Hx Hw Hg) as (gxv & E2 & V2).
  destruct (P_ConvGrad.C52_filter_gradient checked batch xch ych xh xw kh kw p s d yh yw uninit uninit xv wv gv S Ch Cw Ck Pb Sq Hx Hw Hg) as (gwv & E3 & V3).
  destruct (P_ConvGrad.C53_transposed_filter_gradient checked batch xch ych xh xw kh kw p s d yh yw uninit uninit xv wv gv ggv S Ch Cw Ck Pb Sq Hx Hw Hg Hgg)
    as ((hgv & E4 & V4) & (hxv & E5 & V5)).
  unfold Conv_Model.conv2d_transpose_grad_x in E2.
  destruct (Conv_Model.conv2d 0 Rplus Rmult uninit p s d gv wv) as [[y0 c0]| | |] eqn:E2'; try discriminate E2. cbn in E2. injection E2 as ->.
  destruct (Conv_Model.conv2d 0 Rplus Rmult uninit p s d gv ggv) as [[y1 c1]| | |] eqn:E5'; try discriminate E5. cbn in E5. injection E5 as ->.
  set (G := g3 ++ more) in *. assert (X : ext g3 G) by apply ext_app.
  pose proof B as Bn. unfold transposed_grads in Bn. unroll Bn. injection Bn as -> -> ->.
  destruct (made _ _ _ _ _ _ B3) as (nd & Nd & _ & Ni & _).
  unfold transposed_filter_rule, input_of in B'. rewrite (ext_nth g2 (g2 ++ mid2) gw nd (ext_app _ _) Nd), Ni in B'. cbn in B'. unroll B'. injection B' as -> -> ->.
  pose proof (ext_node _ _ _ _ _ _ _ B5 X) as X5. pose proof (ext_node _ _ _ _ _ _ _ B4 X5) as X2'.
  assert (X2 : ext g2 G) by (eapply ext_trans; [apply ext_app|exact X2']).
  destruct (rule_values other bad uninit at_empty debug feeds env G Hvp (g1 ++ mid) g2 x w gy gx gw p s d xv wv gv gxv c0 gwv B X2 Tx Tw Tg E2' E3) as (Tgx & Tgw).
  pose proof (ext_node _ _ _ _ _ _ _ B3 X2) as Xb. unfold stop_gradient in B2. pose proof (ext_node _ _ _ _ _ _ _ B2 Xb) as Xa.
  pose proof (ext_node _ _ _ _ _ _ _ B1 Xa) as Xm. assert (X1 : ext g1 G) by (eapply ext_trans; [apply ext_app|exact Xm]).
  exists yv, gxv, gwv, hgv, hxv.
  split.
  { apply (step (trcompute other bad uninit) bad uninit at_empty debug feeds env G Hvp g g1 [x; w] [] (MOther (STransposed checked p s d)) out [xv; wv]); [exact B0|exact X1|reads2|].
    intros bs Eb. destruct bs as [|b1 [|b2 [|? ?]]]; try discriminate. cbn in Eb |- *. injection Eb as -> ->. rewrite E1. reflexivity. }
  split; [exact Tgx|]. split; [exact Tgw|].
  split.
  { eapply (step (trcompute other bad uninit) bad uninit at_empty debug feeds env G Hvp _ _ [x; ggw] [] (MOther (STransposed checked p s d)) hgy [xv; ggv]); [exact B4|exact X5|reads2|].
    intros bs Eb. destruct bs as [|b1 [|b2 [|? ?]]]; try discriminate. cbn in Eb |- *. injection Eb as -> ->. rewrite E4. reflexivity. }
  split; [|auto].
  eapply (step_first other bad uninit at_empty debug feeds env G Hvp _ _ [gy; ggw] (MConv p s d) hx [gv; ggv] hxv c1); [exact B5|exact X|reads2|].
  intros bs Eb. destruct bs as [|b1 [|b2 [|? ?]]]; try discriminate. cbn in Eb |- *. injection Eb as -> ->. rewrite E5'. reflexivity.
Qed.
Print Assumptions C86_gradients.

(** Batches of two or more images that are higher than wide: the filter's gradient has no
    value (evaluating it panics or reads behind a buffer). *)
Theorem C86_tall_batches :
  forall (Op Err : Type) (other : Op -> list (opin (arr R)) -> cout (arr R) Err) (bad : Err) (uninit : nat -> R)
    (at_empty : arr R -> option R) (debug : bool) (feeds : list (ph_key * arr R)) (env : list (arr R))
    (g g2 more : graph (mop (sop (trop Op)))) (x w gy gx gw : nat) (xv wv gv : arr R)
    (batch xch ych xh xw kh kw p s d yh yw : nat),
  (forall i n, nth_error (g2 ++ more) i = Some n -> n_var n <> None -> n_ph n = None) ->
  transposed_grads g x w gy p s d = Some (g2, gx, gw) ->
  let tensor_value := tensor_value (@a_shape R) (mcompute (scompute (trcompute other bad uninit) bad uninit) bad uninit at_empty) debug (g2 ++ more) feeds env in
  tensor_value x (inl xv) -> tensor_value w (inl wv) -> tensor_value gy (inl gv) ->
  Conv_Spec.conv_sizes xch ych xh xw kh kw p s d yh yw -> (2 <= batch)%nat -> (yw < yh)%nat ->
  has_shape [batch; ych; yh; yw] xv -> has_shape [ych; xch; kh; kw] wv -> has_shape [batch; xch; xh; xw] gv ->
  forall r, ~ tensor_value gw r.
Proof.
  intros Op Err other bad uninit at_empty debug feeds env g g2 more x w gy gx gw xv wv gv batch xch ych xh xw kh kw p s d yh yw
    Hvp B TV Tx Tw Tg S Hb Tall Hx Hw Hg r. subst TV. set (G := g2 ++ more) in *. assert (X : ext g2 G) by apply ext_app.
  pose proof (P_ConvGrad.C52_tall_filter_gradient_fails batch xch ych xh xw kh kw p s d yh yw uninit xv wv gv S Hb Tall Hx Hw Hg) as N.
  assert (N' : Conv_Model.conv2d_transpose_filter_grad 0 Rplus Rmult uninit p s d gv xv wv <> Conv_Model.KErr).
  { unfold Conv_Model.conv2d_transpose_filter_grad. rewrite (proj1 Hg), (proj1 Hx), (proj1 Hw).
    rewrite (P_Conv.sizes_h _ _ _ _ _ _ _ _ _ _ _ S), (P_Conv.sizes_w _ _ _ _ _ _ _ _ _ _ _ S). cbn [Conv_Model.kbind].
    repeat match goal with |- (if ?b then _ else _) <> _ => destruct b; [discriminate|] | |- match ?m with Some _ => _ | None => _ end <> _ => destruct m; [|discriminate] end.
    repeat match goal with |- (if ?b then _ else _) <> _ => destruct b; [|discriminate] | |- match ?m with Some _ => _ | None => _ end <> _ => destruct m; [|discriminate] end.
    discriminate. }
  unfold transposed_grads in B. unroll B. injection B as -> -> ->.
  pose proof (ext_node _ _ _ _ _ _ _ B2 X) as X1. unfold stop_gradient in B1.
  assert (Ts : tensor_value (@a_shape R) (mcompute (scompute (trcompute other bad uninit) bad uninit) bad uninit at_empty) debug G feeds env t0 (inl wv)).
  { apply (step (trcompute other bad uninit) bad uninit at_empty debug feeds env G Hvp g0 g1 [w] [] (MOther (SOther TStop)) t0 [wv]); [exact B1|exact X1|reads2|].
    intros bs Eb. destruct bs as [|b1 [|? ?]]; try discriminate. cbn in Eb |- *. injection Eb as ->. reflexivity. }
  apply (step_none (trcompute other bad uninit) bad uninit at_empty debug feeds env G Hvp g1 g2 [gy; x; t0] [] (MOther (SOther (TFilterGrad p s d))) gw [gv; xv; wv]); [exact B2|exact X|reads2|].
  intros bs Eb. destruct bs as [|b1 [|b2 [|b3 [|? ?]]]]; try discriminate. cbn in Eb |- *. injection Eb as -> -> ->.
  unfold Conv_Model.conv2d_transpose_grad_w in N.
  destruct (Conv_Model.conv2d_transpose_filter_grad 0 Rplus Rmult uninit p s d gv xv wv) as [a| | |]; [exfalso; exact (N a eq_refl)|exfalso; exact (N' eq_refl)|reflexivity|reflexivity].
Qed.
Print Assumptions C86_tall_batches.

(** Examples: constants, a transposed convolution of them, the two rules. *)
Definition t_other (o : unit) (ins : list (opin (arr R))) : cout (arr R) unit := CPanic.
Definition tnode (a : arr R) : node (mop (sop (trop unit))) := Node (MOther (SConst a)) [] 0 None None true None None None.
Lemma t_value u ae g i a : nth_error g i = Some (tnode a) ->
  tensor_value (@a_shape R) (mcompute (scompute (trcompute t_other tt u) tt u) tt u ae) true g [] [] i (inl a).
Proof.
  intros H. apply (tv_ok _ _ _ _ _ _ i a []). apply (value_run _ _ _ _ _ _ i (tnode a) [] [] [a] None).
  - split; [exact H|split; reflexivity].
  - constructor.
  - reflexivity.
  - discriminate.
Qed.

(** It is false that the filter's gradient is right for batches of images that are wider
    than high: two images of 2 x 3 entries; the tensor holds 66, the gradient is 78. *)
Theorem C86_wide_batches_refuted :
  exists (g g1 g2 : graph (mop (sop (trop unit)))) (out gx gw : nat) (xv wv gv gwv : arr R),
    dilated_conv2d_transpose g 0 1 true 0 1 1 = Some (g1, out) /\ transposed_grads g1 0 1 2 0 1 1 = Some (g2, gx, gw) /\
    let tensor_value := tensor_value (@a_shape R)
      (mcompute (scompute (trcompute t_other tt (fun _ => 0)) tt (fun _ => 0)) tt (fun _ => 0) (fun _ => None)) true g2 [] [] in
    tensor_value 0%nat (inl xv) /\ tensor_value 1%nat (inl wv) /\ tensor_value 2%nat (inl gv) /\ has_shape [2; 1; 2; 3]%nat gv /\
    tensor_value gw (inl gwv) /\ aget 0 gwv [0; 0; 0; 0]%nat = 66 /\
    exists right, vjp (fun w => Conv_Model.kok (Conv_Model.conv2d_transpose 0 Rplus Rmult (fun _ => 0) true 0 1 1 xv w)) wv gv right /\
      aget 0 right [0; 0; 0; 0]%nat = 78.
Proof.
  assert (S : Conv_Spec.conv_sizes 1 1 2 3 1 1 0 1 1 2 3) by (split; [lia|]; split; [intros i; lia|]; split; [intros i; lia|]; repeat constructor).
  set (x := Arr [2; 1; 2; 3]%nat (repeat 1%R 12)). set (w := Arr [1; 1; 1; 1]%nat [1%R]). set (gy := Arr [2; 1; 2; 3]%nat [1; 2; 3; 4; 5; 6; 7; 8; 9; 10; 11; 12]%R).
  assert (Hx : has_shape [2; 1; 2; 3]%nat x) by (split; reflexivity). assert (Hw : has_shape [1; 1; 1; 1]%nat w) by (split; reflexivity). assert (Hg : has_shape [2; 1; 2; 3]%nat gy) by (split; reflexivity).
  destruct (P_ConvGrad.C52_wide_filter_gradient 2 1 1 2 3 1 1 0 1 1 2 3 (fun _ => 0%R) x w gy S ltac:(lia) ltac:(lia) Hx Hw Hg) as (gw & E & Hgw & V).
  pose proof (P_ConvGrad.transposed_filter_vjp true 2 1 1 2 3 1 1 0 1 1 2 3 (fun _ => 0%R) x w gy S eq_refl eq_refl ltac:(lia) ltac:(lia) Hx Hw Hg) as V'.
  destruct (P_ConvGrad.C52_input_gradient true 2 1 1 2 3 1 1 0 1 1 2 3 (fun _ => 0%R) (fun _ => 0%R) x w gy S eq_refl eq_refl ltac:(lia) ltac:(lia) Hx Hw Hg) as (gx & E2 & _).
  unfold Conv_Model.conv2d_transpose_grad_x in E2.
  destruct (Conv_Model.conv2d 0 Rplus Rmult (fun _ => 0) 0 1 1 gy w) as [[y0 c0]| | |] eqn:E2'; try discriminate E2. cbn in E2. injection E2 as ->.
  set (base := [tnode x; tnode w; tnode gy]).
  set (g1 := first_graph (dilated_conv2d_transpose base 0 1 true 0 1 1)). set (g2 := first_graph3 (transposed_grads g1 0 1 2 0 1 1)).
  exists base, g1, g2, 3%nat, 4%nat, 6%nat, x, w, gy, gw. split; [reflexivity|]. split; [reflexivity|]. cbv zeta.
  assert (Hvp : forall i n, nth_error g2 i = Some n -> n_var n <> None -> n_ph n = None).
  { intros [|[|[|[|[|[|[|i]]]]]]] n Hn; try (injection Hn as <-; intros _; reflexivity). destruct i; discriminate. }
  split; [apply t_value; reflexivity|]. split; [apply t_value; reflexivity|]. split; [apply t_value; reflexivity|]. split; [exact Hg|]. split.
  { refine (proj2 (rule_values t_other tt (fun _ => 0) (fun _ => None) true [] [] g2 Hvp g1 g2 0%nat 1%nat 2%nat 4%nat 6%nat 0%nat 1%nat 1%nat x w gy gx c0 gw _ (ext_refl g2) _ _ _ E2' E));
      [reflexivity|apply t_value; reflexivity|apply t_value; reflexivity|apply t_value; reflexivity]. }
  split; [rewrite V by lia; cbv -[Rplus Rmult IZR]; lra|].
  exists (Conv_Filter.filter_array 2 1 1 1 1 2 3 0 1 1 gy x). split; [exact V'|].
  unfold Conv_Filter.filter_array. rewrite aget_tab by (repeat constructor). cbv -[Rplus Rmult IZR]. lra.
Qed.
Print Assumptions C86_wide_batches_refuted.

(** C86's hypotheses hold for two images of 3 x 3 entries, and, for the tall case, for two
    images of 2 x 1 entries. *)
Definition t_image : arr R := Arr [2; 3; 3; 3]%nat (map INR (seq 0 54)).
Definition t_filter : arr R := Arr [3; 2; 3; 2]%nat (map INR (seq 0 36)).
Definition t_gy : arr R := Arr [2; 2; 5; 4]%nat (map INR (seq 0 80)).
Definition t_tall : arr R := Arr [2; 1; 2; 1]%nat [1; 2; 3; 4].
Definition t_one : arr R := Arr [1; 1; 1; 1]%nat [1].
Definition t_base : graph (mop (sop (trop unit))) := map tnode [t_image; t_filter; t_gy; t_filter; t_tall; t_one].
Definition t_graph := first_graph (dilated_conv2d_transpose t_base 0 1 true 0 1 1).
Definition t_graph' := first_graph3 (transposed_grads t_graph 0 1 2 0 1 1).
Definition t_graph'' := first_graph3 (transposed_filter_rule t_graph' 9 3 true 0 1 1).
Definition t_graph_tall := first_graph3 (transposed_grads t_base 4 5 4 0 1 1).
Example C86_hypotheses_met : forall u ae,
  let value_in g i v := tensor_value (@a_shape R) (mcompute (scompute (trcompute t_other tt u) tt u) tt u ae) true g [] [] i (inl v) in
  let sound g := forall i (n : node (mop (sop (trop unit)))), nth_error g i = Some n -> n_var n <> None -> n_ph n = None in
  (dilated_conv2d_transpose t_base 0 1 true 0 1 1 = Some (t_graph, 6%nat) /\
   transposed_grads t_graph 0 1 2 0 1 1 = Some (t_graph', 7%nat, 9%nat) /\
   transposed_filter_rule t_graph' 9 3 true 0 1 1 = Some (t_graph'', 10%nat, 11%nat) /\ sound t_graph'' /\
   value_in t_graph'' 0%nat t_image /\ value_in t_graph'' 1%nat t_filter /\ value_in t_graph'' 2%nat t_gy /\ value_in t_graph'' 3%nat t_filter /\
   Conv_Spec.conv_sizes 2 3 5 4 3 2 0 1 1 3 3 /\ Conv_Spec.covers 5 0 1 1 3 3 /\ Conv_Spec.covers 4 0 1 1 2 3 /\
   has_shape [2; 3; 3; 3]%nat t_image /\ has_shape [3; 2; 3; 2]%nat t_filter /\ has_shape [2; 2; 5; 4]%nat t_gy) /\
  (transposed_grads t_base 4 5 4 0 1 1 = Some (t_graph_tall, 6%nat, 8%nat) /\ sound t_graph_tall /\
   value_in t_graph_tall 4%nat t_tall /\ value_in t_graph_tall 5%nat t_one /\
   Conv_Spec.conv_sizes 1 1 2 1 1 1 0 1 1 2 1 /\ has_shape [2; 1; 2; 1]%nat t_tall /\ has_shape [1; 1; 1; 1]%nat t_one).
Proof.
  intros u ae value_in sound. subst value_in sound. cbv beta. split.
  - split; [reflexivity|]. split; [reflexivity|]. split; [reflexivity|]. split; [apply (plain_graph t_graph'' []); reflexivity|].
    do 4 (split; [apply t_value; reflexivity|]).
    split; [split; [lia|]; split; [intros i; lia|]; split; [intros i; lia|]; repeat constructor|].
    do 2 (split; [reflexivity|]). do 2 (split; [split; reflexivity|]). split; reflexivity.
  - split; [reflexivity|]. split; [apply (plain_graph t_graph_tall []); reflexivity|].
    do 2 (split; [apply t_value; reflexivity|]).
    split; [split; [lia|]; split; [intros i; lia|]; split; [intros i; lia|]; repeat constructor|].
    split; [split; reflexivity|]. split; reflexivity.
Qed.
