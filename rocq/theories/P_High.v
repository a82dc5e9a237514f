(** C87: gradients of convolutions of every order. *)
From Coq Require Import List Arith ZArith NArith Bool Reals Lia Lra.
Import ListNotations.
From Verif Require Import Graph_Model Eval_Model Eval_Spec Eval_Proofs Eval_Proofs2 Graph_Proofs Scalar_Model.
From Verif Require Import Array_Model Array_Proofs Vjp_Spec Dot_Spec Dot_Proofs Num_Model Num_Proofs.
From Verif Require Import Vjp_Proofs Kernel_Proofs.
From Verif Require Conv_Model Conv_Spec Conv_Backward Conv_Filter P_Conv P_ConvGrad.
From Verif Require Import Multi_Model Multi_Proofs P_Multi Second_Model P_Second Trans_Model P_Trans High_Model High_Spec.
Local Set Bullet Behavior "Strict Subproofs".
Local Open Scope R_scope.

(** ** The three functions are each other's adjoints *)
Section Adjoint.
  Variables (batch xch ych xh xw kh kw p s d yh yw : nat).
  Notation M := (meaning batch xch ych xh xw kh kw p s d yh yw).
  Notation sh1 := (first_shape batch xch ych xh xw yh yw).
  Notation sh2 := (second_shape batch xch ych kh kw yh yw).
  Notation shr := (result_shape batch xch ych xh xw kh kw yh yw).
  Lemma spread_array y w : M Spread y w = P_ConvGrad.transposed_array batch xch xh xw kh kw p s d yh yw ych w y.
  Proof.
    unfold meaning, P_ConvGrad.transposed_array. apply tab_ext. intros i Hi. assert (L : length i = 4%nat) by (rewrite (in_bounds_length _ _ Hi); reflexivity).
    destruct i as [|b [|c [|y' [|x' [|? ?]]]]]; try discriminate L. symmetry. apply Conv_Backward.hit_sum_transposed. exact Hi.
  Qed.
  Lemma meaning_shape r a b : has_shape (shr r) (M r a b).
  Proof. destruct r; apply tab_has_shape. Qed.
  Lemma adjoint_image x w y : has_shape [batch; xch; xh; xw] x -> has_shape [batch; ych; yh; yw] y -> dot y (M Convolved x w) = dot (M Spread y w) x.
  Proof. intros Hx Hy. rewrite spread_array. apply (P_ConvGrad.dot_conv batch xch ych xh xw kh kw p s d yh yw x w y Hx Hy). Qed.
  Lemma adjoint_filter x w y : has_shape [ych; xch; kh; kw] w -> has_shape [batch; ych; yh; yw] y -> dot (M Matched x y) w = dot y (M Convolved x w).
  Proof. intros Hw Hy. apply (Conv_Filter.dot_filter batch xch ych kh kw p s d yh yw x y w Hy Hw). Qed.

  (** The gradients of the first and of the second argument. *)
  Definition first_gradient (r : role) (a b gz : arr R) : arr R :=
    match r with Convolved => M Spread gz b | Spread => M Convolved gz b | Matched => M Spread b gz end.
  Definition second_gradient (r : role) (a b gz : arr R) : arr R :=
    match r with Convolved => M Matched a gz | Spread => M Matched gz a | Matched => M Convolved a gz end.
  Lemma first_vjp r a b gz : has_shape (sh1 r) a -> has_shape (sh2 r) b -> has_shape (shr r) gz ->
    vjp (fun a => Some (M r a b)) a gz (first_gradient r a b gz).
  Proof.
    intros Ha Hb Hz. apply (vjp_adjoint _ _ _ _ (fun a => M r a b)).
    - apply has_shape_wf in Ha. tauto.
    - destruct r; apply tab_wf.
    - rewrite (proj1 Ha). destruct r; reflexivity.
    - intros a' _. split; [reflexivity|]. rewrite (proj1 Hz). apply meaning_shape.
    - intros a' Ha'. rewrite (proj1 Ha) in Ha'. destruct r; cbn [first_gradient]; cbn [first_shape second_shape result_shape] in *.
      + apply adjoint_image; assumption.
      + rewrite P_ConvGrad.dot_comm, <- adjoint_image by assumption. apply P_ConvGrad.dot_comm.
      + rewrite P_ConvGrad.dot_comm, adjoint_filter by assumption. apply adjoint_image; assumption.
  Qed.
  Lemma second_vjp r a b gz : has_shape (sh1 r) a -> has_shape (sh2 r) b -> has_shape (shr r) gz ->
    vjp (fun b => Some (M r a b)) b gz (second_gradient r a b gz).
  Proof.
    intros Ha Hb Hz. apply (vjp_adjoint _ _ _ _ (fun b => M r a b)).
    - apply has_shape_wf in Hb. tauto.
    - destruct r; apply tab_wf.
    - rewrite (proj1 Hb). destruct r; reflexivity.
    - intros b' _. split; [reflexivity|]. rewrite (proj1 Hz). apply meaning_shape.
    - intros b' Hb'. rewrite (proj1 Hb) in Hb'. destruct r; cbn [second_gradient]; cbn [first_shape second_shape result_shape] in *.
      + symmetry. apply adjoint_filter; assumption.
      + rewrite P_ConvGrad.dot_comm, <- adjoint_image by assumption. symmetry. apply adjoint_filter; assumption.
      + rewrite P_ConvGrad.dot_comm, adjoint_filter by assumption. apply P_ConvGrad.dot_comm.
  Qed.
End Adjoint.

(** ** Tensors of the graph *)
Section High.
  Context {Op Err : Type}.
  Variable other : Op -> list (opin (arr R)) -> cout (arr R) Err.
  Variable bad : Err.
  Variable uninit : nat -> R.
  Variable at_empty : arr R -> option R.
  Variable debug checked : bool.
  Variable feeds : list (ph_key * arr R).
  Variable env : list (arr R).
  Variables (batch xch ych xh xw kh kw p s d yh yw : nat).
  Variable G : graph (mop (sop (trop Op))).
  Notation mc := (mcompute (scompute (trcompute other bad uninit) bad uninit) bad uninit at_empty).
  Notation TV := (tensor_value (@a_shape R) mc debug G feeds env).
  Notation M := (meaning batch xch ych xh xw kh kw p s d yh yw).
  Notation sh1 := (first_shape batch xch ych xh xw yh yw).
  Notation sh2 := (second_shape batch xch ych kh kw yh yw).
  Notation shr := (result_shape batch xch ych xh xw kh kw yh yw).
  Notation incs xs := (map (fun x => Incoming x false 0) xs).

  (** Gradients of order [n] of the tensor [root]: the tensor itself, and what the rule makes
      for gradients of order [n - 1], called at any later time with any tensor of the right
      shape. *)
  Inductive gradient_of_order (root : nat) : nat -> nat -> Prop :=
  | the_tensor : gradient_of_order root 0 root
  | gradient_of n t h h' gz gv ta tb u : gradient_of_order root n t ->
      conv_rule h t gz checked p s d = Some (h', ta, tb) -> ext h' G ->
      TV gz (inl gv) -> (forall v, TV t (inl v) -> has_shape (a_shape v) gv) ->
      u = ta \/ u = tb -> gradient_of_order root (S n) u.

  Hypothesis Hvp : forall i n, nth_error G i = Some n -> n_var n <> None -> n_ph n = None.
  Hypothesis S : Conv_Spec.conv_sizes xch ych xh xw kh kw p s d yh yw.
  Hypothesis Ch : Conv_Spec.covers xh p s d kh yh.
  Hypothesis Cw : Conv_Spec.covers xw p s d kw yw.
  Hypothesis Ck : checked = true -> (2 * p <= s * (yh - 1) /\ 2 * p <= s * (yw - 1))%nat.
  Hypothesis Pb : (0 < batch)%nat.
  Hypothesis Sq : yh = yw \/ batch = 1%nat.

  Notation cols_of := (Conv_Filter.cols_array batch xch kh kw yh yw p s d).
  (** How a tensor with a given role is made. *)
  Inductive made_by (n : node (mop (sop (trop Op)))) : role -> nat -> nat -> arr R -> Prop :=
  | by_conv a b av : n_op n = MConv p s d -> n_inputs n = incs [a; b] -> get_backprop_inputs n = incs [a; b] -> made_by n Convolved a b av
  | by_cols a b av c : n_op n = MOther SWithCols -> n_inputs n = incs [c; b] -> get_backprop_inputs n = incs [a; b] ->
      TV c (inl (cols_of av)) -> made_by n Convolved a b av
  | by_transposed a b av : n_op n = MOther (STransposed checked p s d) -> n_inputs n = incs [a; b] -> get_backprop_inputs n = incs [a; b] -> made_by n Spread a b av
  | by_filter a b av c w wv : n_op n = MConvGradW -> n_inputs n = incs [c; b; w] -> get_backprop_inputs n = incs [a; b] ->
      TV c (inl (cols_of av)) -> TV w (inl wv) -> has_shape [ych; xch; kh; kw] wv -> made_by n Matched a b av
  | by_transposed_filter a b av w wv : n_op n = MOther (SOther (TFilterGrad p s d)) -> n_inputs n = incs [a; b; w] -> get_backprop_inputs n = incs [a; b; w] ->
      TV w (inl wv) -> has_shape [ych; xch; kh; kw] wv -> made_by n Matched a b av.
  Definition stands (t : nat) (r : role) (a b : nat) (av bv : arr R) : Prop :=
    TV a (inl av) /\ TV b (inl bv) /\ has_shape (sh1 r) av /\ has_shape (sh2 r) bv /\ exists n, op_node G t n /\ made_by n r a b av.

  Lemma pos : (0 < xch /\ 0 < ych /\ 0 < kh /\ 0 < kw /\ 0 < yh /\ 0 < yw)%nat.
  Proof. destruct S as (P & _). tauto. Qed.
  (** Both outputs of a convolution. *)
  Lemma conv_outputs n t a b av bv : op_node G t n -> n_op n = MConv p s d -> n_inputs n = incs [a; b] -> TV a (inl av) -> TV b (inl bv) ->
    has_shape [batch; xch; xh; xw] av -> has_shape [ych; xch; kh; kw] bv ->
    value (@a_shape R) mc debug G feeds env t (inl [M Convolved av bv; cols_of av]).
  Proof.
    intros N O I Ta Tb Ha Hb.
    apply (made_value (scompute (trcompute other bad uninit) bad uninit) bad uninit at_empty debug G feeds env Hvp t n [a; b] [av; bv]); [exact N|exact I|reads2| |discriminate].
    intros bs Eb. destruct bs as [|b1 [|b2 [|? ?]]]; try discriminate. rewrite O. cbn in Eb |- *. injection Eb as -> ->.
    rewrite (P_ConvGrad.conv_run batch xch ych xh xw kh kw p s d yh yw uninit av bv S Ha Hb). reflexivity.
  Qed.
  Lemma stands_value t r a b av bv : stands t r a b av bv -> TV t (inl (M r av bv)).
  Proof.
    intros (Ta & Tb & Ha & Hb & n & N & B).
    destruct B as [a b av O I _|a b av c O I _ Tc|a b av O I _|a b av c w wv O I _ Tc Tw Hw|a b av w wv O I _ Tw Hw]; cbn [first_shape second_shape] in Ha, Hb.
    - exact (first_of _ _ _ _ _ _ t _ [_] (conv_outputs n t a b av bv N O I Ta Tb Ha Hb)).
    - apply (first_of _ _ _ _ _ _ t _ []).
      apply (made_value (scompute (trcompute other bad uninit) bad uninit) bad uninit at_empty debug G feeds env Hvp t n [c; b] [cols_of av; bv]); [exact N|exact I|reads2| |discriminate].
      intros bs Eb. destruct bs as [|b1 [|b2 [|? ?]]]; try discriminate. rewrite O. cbn in Eb |- *. injection Eb as -> ->.
      rewrite (Conv_Filter.conv2d_with_cols_value batch xch ych kh kw p s d yh yw uninit pos av bv Hb). reflexivity.
    - apply (first_of _ _ _ _ _ _ t _ []).
      apply (made_value (scompute (trcompute other bad uninit) bad uninit) bad uninit at_empty debug G feeds env Hvp t n [a; b] [av; bv]); [exact N|exact I|reads2| |discriminate].
      intros bs Eb. destruct bs as [|b1 [|b2 [|? ?]]]; try discriminate. rewrite O. cbn in Eb |- *. injection Eb as -> ->.
      rewrite (P_Conv.transpose_run checked batch xch ych xh xw kh kw p s d yh yw uninit av bv S Ch Cw Ck Pb Ha Hb).
      pose proof (spread_array batch xch ych xh xw kh kw p s d yh yw av bv) as Q. unfold P_ConvGrad.transposed_array in Q. rewrite <- Q. reflexivity.
    - apply (first_of _ _ _ _ _ _ t _ []).
      apply (made_value (scompute (trcompute other bad uninit) bad uninit) bad uninit at_empty debug G feeds env Hvp t n [c; b; w] [cols_of av; bv; wv]); [exact N|exact I|reads2| |discriminate].
      intros bs Eb. destruct bs as [|b1 [|b2 [|b3 [|? ?]]]]; try discriminate. rewrite O. cbn in Eb |- *. injection Eb as -> -> ->.
      rewrite (Conv_Filter.conv2d_filter_grad_value batch xch ych kh kw p s d yh yw uninit av bv wv Pb Hb (proj1 Hw)). reflexivity.
    - apply (first_of _ _ _ _ _ _ t _ []).
      apply (made_value (scompute (trcompute other bad uninit) bad uninit) bad uninit at_empty debug G feeds env Hvp t n [a; b; w] [av; bv; wv]); [exact N|exact I|reads2| |discriminate].
      intros bs Eb. destruct bs as [|b1 [|b2 [|b3 [|? ?]]]]; try discriminate. rewrite O. cbn in Eb |- *. injection Eb as -> -> ->.
      rewrite (Conv_Filter.transpose_filter_value batch xch ych kh kw p s d yh yw xh xw uninit (P_Conv.sizes_h _ _ _ _ _ _ _ _ _ _ _ S) (P_Conv.sizes_w _ _ _ _ _ _ _ _ _ _ _ S)
        (P_Conv.sizes_fit4 _ _ _ _ _ _ _ _ _ _ _ S)); auto; [destruct S; tauto|exact (proj1 Hw)].
  Qed.

  Lemma new_node g g' xs bs o t : node_of g xs bs o = Some (g', t) -> ext g' G ->
    exists n, op_node G t n /\ n_op n = o /\ n_inputs n = incs xs /\ get_backprop_inputs n = incs (match bs with [] => xs | _ => bs end).
  Proof.
    intros B E. destruct (made _ _ _ _ _ _ B) as (n & N & O & I & J). destruct E as (l & E). destruct (made_node G g g' xs bs o t l B E) as (n' & N' & _).
    assert (n' = n) by (destruct N' as (N' & _); rewrite (ext_nth g' G t n (ex_intro _ l E) N) in N'; congruence). subst n'. exists n. auto.
  Qed.
  Lemma second_output g g' t sec n y z : nth_tensor g t 1 = Some (g', sec) -> ext g' G -> op_node G t n ->
    value (@a_shape R) mc debug G feeds env t (inl [y; z]) -> TV sec (inl z).
  Proof.
    intros B (l & E) N V. revert N V. pose proof Hvp as Hv. rewrite E in Hv |- *. intros N V.
    apply (proj1 (C81_nth_tensor _ _ (scompute (trcompute other bad uninit) bad uninit) bad uninit at_empty debug feeds env g g' l t 1 sec n Hv B N) z).
    exists [y; z]. split; [exact V|reflexivity].
  Qed.
  Lemma stop_value g g' w sw wv : stop_gradient g w = Some (g', sw) -> ext g' G -> TV w (inl wv) -> TV sw (inl wv).
  Proof.
    intros B E T. unfold stop_gradient in B.
    apply (step (trcompute other bad uninit) bad uninit at_empty debug feeds env G Hvp g g' [w] [] (MOther (SOther TStop)) sw [wv]); [exact B|exact E|reads2|].
    intros bs Eb. destruct bs as [|b1 [|? ?]]; try discriminate. cbn in Eb |- *. injection Eb as ->. reflexivity.
  Qed.

  (** The rule gives tensors with roles again, whose values are the gradients. *)
  Lemma rule_stands t r a b av bv h h' gz gv ta tb : stands t r a b av bv ->
    conv_rule h t gz checked p s d = Some (h', ta, tb) -> ext h' G -> TV gz (inl gv) -> has_shape (shr r) gv ->
    (exists ra a1 b1 av1 bv1, stands ta ra a1 b1 av1 bv1 /\ M ra av1 bv1 = first_gradient batch xch ych xh xw kh kw p s d yh yw r av bv gv) /\
    (exists rb a2 b2 av2 bv2, stands tb rb a2 b2 av2 bv2 /\ M rb av2 bv2 = second_gradient batch xch ych xh xw kh kw p s d yh yw r av bv gv).
  Proof.
    intros (Ta & Tb & Ha & Hb & n & N & B) Ru E Tg Hg. unfold conv_rule in Ru.
    destruct (nth_error h t) as [m|] eqn:Eh; [|discriminate].
    assert (Q : ext h G -> m = n). { intros X. pose proof (ext_nth h G t m X Eh) as Y. destruct N as (N & _). congruence. }
    assert (I0 : forall i, input_of h t i = option_map in_id (nth_error (n_inputs m) i)) by (intros i; unfold input_of; rewrite Eh; reflexivity).
    assert (J0 : forall i, backprop_input_of h t i = option_map in_id (nth_error (get_backprop_inputs m) i)) by (intros i; unfold backprop_input_of; rewrite Eh; reflexivity).
    assert (X : ext h G).
    { clear - Ru E. unfold filter_grad_rule, transposed_filter_rule in Ru.
      repeat match type of Ru with match ?e with _ => _ end = _ => destruct e; try discriminate end;
      unfold conv_grads, with_cols_grads, transposed_grads, filter_grads, stop_gradient in Ru; unroll Ru; injection Ru as -> -> ->;
      unfold conv_rule_w in *; repeat match goal with H : match nth_tensor ?g ?o ?k with _ => _ end = Some _ |- _ => destruct (nth_tensor g o k) as [[? ?]|] eqn:?; [|discriminate] end;
      repeat match goal with H : node_of ?g _ _ _ = Some (?g', _), Y : ext ?g' G |- _ => lazymatch goal with _ : ext g G |- _ => fail | _ => pose proof (ext_node _ _ _ _ _ _ _ H Y) end
                        | H : nth_tensor ?g _ _ = Some (?g', _), Y : ext ?g' G |- _ => lazymatch goal with _ : ext g G |- _ => fail | _ => pose proof (ext_nth_tensor _ _ _ _ _ _ H Y) end end; assumption. }
    specialize (Q X). subst m. rewrite !I0, J0 in Ru.
    destruct B as [a b av O I J|a b av c O I J Tc|a b av O I J|a b av c w wv O I J Tc Tw Hw|a b av w wv O I J Tw Hw];
      cbn [first_shape second_shape result_shape] in Ha, Hb, Hg; rewrite O in Ru; try rewrite I in Ru; cbn [map nth_error option_map in_id] in Ru.
    - unfold conv_grads in Ru. unroll Ru. injection Ru as -> -> ->. unfold conv_rule_w in B0.
      destruct (nth_tensor g t 1) as [[g1 sec]|] eqn:B1; [|discriminate].
      pose proof (ext_node _ _ _ _ _ _ _ B0 E) as X1. pose proof (ext_nth_tensor _ _ _ _ _ _ B1 X1) as X0.
      destruct (new_node _ _ _ _ _ _ B X0) as (n1 & N1 & O1 & I1 & J1). destruct (new_node _ _ _ _ _ _ B0 E) as (n2 & N2 & O2 & I2 & J2).
      pose proof (second_output _ _ _ _ _ _ _ B1 X1 N (conv_outputs n t a b av bv N O I Ta Tb Ha Hb)) as Ts.
      split.
      + exists Spread, gz, b, gv, bv. split; [|reflexivity]. repeat (split; [assumption|]). exists n1. split; [exact N1|]. apply by_transposed; assumption.
      + exists Matched, a, gz, av, gv. split; [|reflexivity]. repeat (split; [assumption|]). exists n2. split; [exact N2|]. apply (by_filter n2 a gz av sec b bv); assumption.
    - rewrite J in Ru. cbn [map nth_error option_map in_id] in Ru. unfold with_cols_grads in Ru. unroll Ru. injection Ru as -> -> ->.
      pose proof (ext_node _ _ _ _ _ _ _ B0 E) as X0.
      destruct (new_node _ _ _ _ _ _ B X0) as (n1 & N1 & O1 & I1 & J1). destruct (new_node _ _ _ _ _ _ B0 E) as (n2 & N2 & O2 & I2 & J2).
      split.
      + exists Spread, gz, b, gv, bv. split; [|reflexivity]. repeat (split; [assumption|]). exists n1. split; [exact N1|]. apply by_transposed; assumption.
      + exists Matched, a, gz, av, gv. split; [|reflexivity]. repeat (split; [assumption|]). exists n2. split; [exact N2|]. apply (by_filter n2 a gz av c b bv); assumption.
    - unfold transposed_grads in Ru. unroll Ru. injection Ru as -> -> ->.
      pose proof (ext_node _ _ _ _ _ _ _ B1 E) as X1. unfold stop_gradient in B0. pose proof (ext_node _ _ _ _ _ _ _ B0 X1) as X0.
      destruct (new_node _ _ _ _ _ _ B X0) as (n1 & N1 & O1 & I1 & J1). destruct (new_node _ _ _ _ _ _ B1 E) as (n2 & N2 & O2 & I2 & J2).
      pose proof (stop_value _ _ _ _ _ B0 X1 Tb) as Ts.
      split.
      + exists Convolved, gz, b, gv, bv. split; [|reflexivity]. repeat (split; [assumption|]). exists n1. split; [exact N1|]. apply by_conv; assumption.
      + exists Matched, gz, a, gv, av. split; [|reflexivity]. repeat (split; [assumption|]). exists n2. split; [exact N2|]. apply (by_transposed_filter n2 gz a gv _ bv O2 I2 J2 Ts Hb).
    - unfold filter_grad_rule in Ru. rewrite !I0, J0, I, J in Ru. cbn [map nth_error option_map in_id] in Ru. unfold filter_grads in Ru. unroll Ru. injection Ru as -> -> ->.
      pose proof (ext_node _ _ _ _ _ _ _ B0 E) as X0.
      destruct (new_node _ _ _ _ _ _ B X0) as (n1 & N1 & O1 & I1 & J1). destruct (new_node _ _ _ _ _ _ B0 E) as (n2 & N2 & O2 & I2 & J2).
      split.
      + exists Spread, b, gz, bv, gv. split; [|reflexivity]. repeat (split; [assumption|]). exists n1. split; [exact N1|]. apply by_transposed; assumption.
      + exists Convolved, a, gz, av, gv. split; [|reflexivity]. repeat (split; [assumption|]). exists n2. split; [exact N2|]. apply (by_cols n2 a gz av c); assumption.
    - unfold transposed_filter_rule in Ru. rewrite !I0, I in Ru. cbn [map nth_error option_map in_id] in Ru. unroll Ru. injection Ru as -> -> ->.
      pose proof (ext_node _ _ _ _ _ _ _ B0 E) as X0.
      destruct (new_node _ _ _ _ _ _ B X0) as (n1 & N1 & O1 & I1 & J1). destruct (new_node _ _ _ _ _ _ B0 E) as (n2 & N2 & O2 & I2 & J2).
      split.
      + exists Spread, b, gz, bv, gv. split; [|reflexivity]. repeat (split; [assumption|]). exists n1. split; [exact N1|]. apply by_transposed; assumption.
      + exists Convolved, a, gz, av, gv. split; [|reflexivity]. repeat (split; [assumption|]). exists n2. split; [exact N2|]. apply by_conv; assumption.
  Qed.
  Lemma stands_inputs t r a b av bv : stands t r a b av bv -> backprop_input_of G t 0 = Some a /\ backprop_input_of G t 1 = Some b.
  Proof.
    intros (_ & _ & _ & _ & n & (N & _) & B). unfold backprop_input_of. rewrite N.
    destruct B as [? ? ? _ _ J|? ? ? ? _ _ J _|? ? ? _ _ J|? ? ? ? ? ? _ _ J _ _ _|? ? ? ? ? _ _ J _ _]; rewrite J; split; reflexivity.
  Qed.
  Lemma order_stands root n t : (exists r a b av bv, stands root r a b av bv) ->
    gradient_of_order root n t -> exists r a b av bv, stands t r a b av bv.
  Proof.
    intros R0 O. induction O as [|n t h h' gz gv ta tb u O IH Ru E Tg Hg U]; [exact R0|].
    destruct IH as (r & a & b & av & bv & St). specialize (Hg _ (stands_value _ _ _ _ _ _ St)). rewrite (proj1 (meaning_shape batch xch ych xh xw kh kw p s d yh yw r av bv)) in Hg.
    destruct (rule_stands t r a b av bv h h' gz gv ta tb St Ru E Tg Hg) as ((r1 & a1 & b1 & av1 & bv1 & S1 & _) & (r2 & a2 & b2 & av2 & bv2 & S2 & _)).
    destruct U as [-> | ->]; [exists r1, a1, b1, av1, bv1; exact S1|exists r2, a2, b2, av2, bv2; exact S2].
  Qed.
  Lemma conv_stands g g1 x w out xv wv : node_of g [x; w] [] (MConv p s d) = Some (g1, out) -> ext g1 G ->
    TV x (inl xv) -> TV w (inl wv) -> has_shape [batch; xch; xh; xw] xv -> has_shape [ych; xch; kh; kw] wv -> stands out Convolved x w xv wv.
  Proof.
    intros B E Tx Tw Hx Hw. destruct (new_node _ _ _ _ _ _ B E) as (n1 & N1 & O1 & I1 & J1). repeat (split; [assumption|]). exists n1. split; [exact N1|]. apply by_conv; assumption.
  Qed.
  Lemma transposed_stands g g1 x w out xv wv : dilated_conv2d_transpose g x w checked p s d = Some (g1, out) -> ext g1 G ->
    TV x (inl xv) -> TV w (inl wv) -> has_shape [batch; ych; yh; yw] xv -> has_shape [ych; xch; kh; kw] wv -> stands out Spread x w xv wv.
  Proof.
    intros B E Tx Tw Hx Hw. destruct (new_node _ _ _ _ _ _ B E) as (n1 & N1 & O1 & I1 & J1). repeat (split; [assumption|]). exists n1. split; [exact N1|]. apply by_transposed; assumption.
  Qed.
End High.

(** A gradient of any order of a convolution or transposed convolution evaluates to one of
    the three functions of the two tensors its gradients are credited to, and the two tensors the rule makes for
    it evaluate to the gradients of that function. *)
Theorem C87_every_order :
  forall (Op Err : Type) (other : Op -> list (opin (arr R)) -> cout (arr R) Err) (bad : Err) (uninit : nat -> R)
    (at_empty : arr R -> option R) (debug checked : bool) (feeds : list (ph_key * arr R)) (env : list (arr R))
    (g g1 G : graph (mop (sop (trop Op)))) (x w out n t : nat) (xv wv : arr R) (batch xch ych xh xw kh kw p s d yh yw : nat),
  (forall i n, nth_error G i = Some n -> n_var n <> None -> n_ph n = None) ->
  Conv_Spec.conv_sizes xch ych xh xw kh kw p s d yh yw -> Conv_Spec.covers xh p s d kh yh -> Conv_Spec.covers xw p s d kw yw ->
  (checked = true -> (2 * p <= s * (yh - 1) /\ 2 * p <= s * (yw - 1))%nat) -> (0 < batch)%nat -> (yh = yw \/ batch = 1%nat) ->
  let tensor_value := tensor_value (@a_shape R) (mcompute (scompute (trcompute other bad uninit) bad uninit) bad uninit at_empty) debug G feeds env in
  tensor_value x (inl xv) -> tensor_value w (inl wv) -> has_shape [ych; xch; kh; kw] wv -> ext g1 G ->
  node_of g [x; w] [] (MConv p s d) = Some (g1, out) /\ has_shape [batch; xch; xh; xw] xv \/
  dilated_conv2d_transpose g x w checked p s d = Some (g1, out) /\ has_shape [batch; ych; yh; yw] xv ->
  gradient_of_order other bad uninit at_empty debug checked feeds env p s d G out n t ->
  let meaning := meaning batch xch ych xh xw kh kw p s d yh yw in
  exists (r : role) (a b : nat) (av bv : arr R),
    backprop_input_of G t 0 = Some a /\ backprop_input_of G t 1 = Some b /\
    tensor_value a (inl av) /\ tensor_value b (inl bv) /\
    has_shape (first_shape batch xch ych xh xw yh yw r) av /\ has_shape (second_shape batch xch ych kh kw yh yw r) bv /\
    tensor_value t (inl (meaning r av bv)) /\
    forall h h' gz gv ta tb, conv_rule h t gz checked p s d = Some (h', ta, tb) -> ext h' G ->
      tensor_value gz (inl gv) -> has_shape (a_shape (meaning r av bv)) gv ->
      exists gav gbv, tensor_value ta (inl gav) /\ tensor_value tb (inl gbv) /\
        vjp (fun a => Some (meaning r a bv)) av gv gav /\ vjp (fun b => Some (meaning r av b)) bv gv gbv.
Proof.
  intros Op Err other bad uninit at_empty debug checked feeds env g g1 G x w out n t xv wv batch xch ych xh xw kh kw p s d yh yw Hvp S Ch Cw Ck Pb Sq TV Tx Tw Hw X Root O M. subst TV M. cbv beta.
  assert (R0 : exists r a b av bv, stands other bad uninit at_empty debug checked feeds env batch xch ych xh xw kh kw p s d yh yw G out r a b av bv).
  { destruct Root as [(B & Hx)|(B & Hx)].
    - exists Convolved, x, w, xv, wv. exact (conv_stands other bad uninit at_empty debug checked feeds env batch xch ych xh xw kh kw p s d yh yw G g g1 x w out xv wv B X Tx Tw Hx Hw).
    - exists Spread, x, w, xv, wv. exact (transposed_stands other bad uninit at_empty debug checked feeds env batch xch ych xh xw kh kw p s d yh yw G g g1 x w out xv wv B X Tx Tw Hx Hw). }
  destruct (order_stands other bad uninit at_empty debug checked feeds env batch xch ych xh xw kh kw p s d yh yw G Hvp S Ch Cw Ck Pb Sq out n t R0 O) as (r & a & b & av & bv & St).
  exists r, a, b, av, bv. pose proof St as (Ta & Tb & Ha & Hb & _). 
  destruct (stands_inputs other bad uninit at_empty debug checked feeds env batch xch ych xh xw kh kw p s d yh yw G t r a b av bv St) as (Ia & Ib). do 6 (split; [assumption|]).
  split; [exact (stands_value other bad uninit at_empty debug checked feeds env batch xch ych xh xw kh kw p s d yh yw G Hvp S Ch Cw Ck Pb Sq t r a b av bv St)|].
  intros h h' gz gv ta tb Ru E Tg Hg. rewrite (proj1 (meaning_shape batch xch ych xh xw kh kw p s d yh yw r av bv)) in Hg.
  destruct (rule_stands other bad uninit at_empty debug checked feeds env batch xch ych xh xw kh kw p s d yh yw G Hvp S t r a b av bv h h' gz gv ta tb St Ru E Tg Hg)
    as ((r1 & a1 & b1 & av1 & bv1 & S1 & E1) & (r2 & a2 & b2 & av2 & bv2 & S2 & E2)).
  apply (stands_value other bad uninit at_empty debug checked feeds env batch xch ych xh xw kh kw p s d yh yw G Hvp S Ch Cw Ck Pb Sq) in S1, S2. rewrite E1 in S1. rewrite E2 in S2.
  exists (first_gradient batch xch ych xh xw kh kw p s d yh yw r av bv gv), (second_gradient batch xch ych xh xw kh kw p s d yh yw r av bv gv).
  split; [exact S1|]. split; [exact S2|]. split; [apply first_vjp; assumption|apply second_vjp; assumption].
Qed.
Print Assumptions C87_every_order.

(** C87's hypotheses hold for two images of 5 x 4 entries (and two channels): the
    convolution, its gradients, the gradients of its filter's gradient, and those of the
    columns' convolution, a gradient of order three. *)
Definition h_image : arr R := Arr [2; 2; 5; 4]%nat (map INR (seq 0 80)).
Definition h_map : arr R := Arr [2; 3; 3; 3]%nat (map INR (seq 0 54)).
Definition h_base : graph (mop (sop (trop unit))) := map tnode [h_image; t_filter; h_map].
Definition h_conv := first_graph (node_of h_base [0; 1]%nat [] (MConv 0 1 1)).
Definition h_first := first_graph3 (conv_rule h_conv 3 2 true 0 1 1).
Definition h_second := first_graph3 (conv_rule h_first 6 1 true 0 1 1).
Definition h_third := first_graph3 (conv_rule h_second 8 2 true 0 1 1).
Example C87_hypotheses_met : forall u ae,
  let value i v := tensor_value (@a_shape R) (mcompute (scompute (trcompute t_other tt u) tt u) tt u ae) true h_third [] [] i (inl v) in
  (forall i (n : node (mop (sop (trop unit)))), nth_error h_third i = Some n -> n_var n <> None -> n_ph n = None) /\
  Conv_Spec.conv_sizes 2 3 5 4 3 2 0 1 1 3 3 /\ Conv_Spec.covers 5 0 1 1 3 3 /\ Conv_Spec.covers 4 0 1 1 2 3 /\
  value 0%nat h_image /\ value 1%nat t_filter /\ has_shape [2; 2; 5; 4]%nat h_image /\ has_shape [3; 2; 3; 2]%nat t_filter /\
  ext h_conv h_third /\ node_of h_base [0; 1]%nat [] (MConv 0 1 1) = Some (h_conv, 3%nat) /\
  gradient_of_order t_other tt u ae true true [] [] 0 1 1 h_third 3 2 8 /\
  gradient_of_order t_other tt u ae true true [] [] 0 1 1 h_third 3 3 9 /\
  gradient_of_order t_other tt u ae true true [] [] 0 1 1 h_third 3 3 10.
Proof.
  intros u ae value.
  assert (Hvp : forall i (n : node (mop (sop (trop unit)))), nth_error h_third i = Some n -> n_var n <> None -> n_ph n = None) by (apply (plain_graph h_third []); reflexivity).
  assert (S : Conv_Spec.conv_sizes 2 3 5 4 3 2 0 1 1 3 3) by (split; [lia|]; split; [intros i; lia|]; split; [intros i; lia|]; repeat constructor).
  assert (V0 : value 0%nat h_image) by (apply t_value; reflexivity). assert (V1 : value 1%nat t_filter) by (apply t_value; reflexivity). assert (V2 : value 2%nat h_map) by (apply t_value; reflexivity).
  assert (H0 : has_shape [2; 2; 5; 4]%nat h_image) by (split; reflexivity). assert (H1 : has_shape [3; 2; 3; 2]%nat t_filter) by (split; reflexivity). assert (H2 : has_shape [2; 3; 3; 3]%nat h_map) by (split; reflexivity).
  assert (B0 : node_of h_base [0; 1]%nat [] (MConv 0 1 1) = Some (h_conv, 3%nat)) by reflexivity.
  assert (B1 : conv_rule h_conv 3 2 true 0 1 1 = Some (h_first, 4%nat, 6%nat)) by reflexivity.
  assert (B2 : conv_rule h_first 6 1 true 0 1 1 = Some (h_second, 7%nat, 8%nat)) by reflexivity.
  assert (B3 : conv_rule h_second 8 2 true 0 1 1 = Some (h_third, 9%nat, 10%nat)) by reflexivity.
  assert (X2 : ext h_second h_third) by (exists (skipn 9 h_third); reflexivity).
  assert (X1 : ext h_first h_third) by (exists (skipn 7 h_third); reflexivity).
  assert (X0 : ext h_conv h_third) by (exists (skipn 4 h_third); reflexivity).
  assert (St0 : stands t_other tt u ae true true [] [] 2 2 3 5 4 3 2 0 1 1 3 3 h_third 3 Convolved 0 1 h_image t_filter).
  { repeat (split; [assumption|]). destruct (new_node h_third h_base h_conv _ _ _ _ B0 X0) as (n & N & O & I & J). exists n. split; [exact N|]. apply by_conv; assumption. }
  pose proof (stands_value t_other tt u ae true true [] [] 2 2 3 5 4 3 2 0 1 1 3 3 h_third Hvp S eq_refl eq_refl ltac:(lia) ltac:(lia) (or_introl eq_refl)) as SV.
  assert (G0 : gradient_of_order t_other tt u ae true true [] [] 0 1 1 h_third 3 0 3) by apply the_tensor.
  destruct (rule_stands t_other tt u ae true true [] [] 2 2 3 5 4 3 2 0 1 1 3 3 h_third Hvp S 3 Convolved 0 1 h_image t_filter h_conv h_first 2 h_map 4 6 St0 B1 X1 V2 H2) as (_ & (r6 & a6 & b6 & av6 & bv6 & St6 & E6)).
  assert (G6 : gradient_of_order t_other tt u ae true true [] [] 0 1 1 h_third 3 1 6).
  { apply (gradient_of _ _ _ _ _ _ _ _ _ _ _ _ _ 0%nat 3%nat h_conv h_first 2%nat h_map 4%nat 6%nat 6%nat G0 B1 X1 V2); [|right; reflexivity].
    intros v Tv. pose proof (tensor_value_fun _ _ _ _ _ _ _ _ _ Tv (SV _ _ _ _ _ _ St0)) as Q. injection Q as ->. exact H2. }
  assert (R6 : r6 = Matched).
  { pose proof (meaning_shape 2 2 3 5 4 3 2 0 1 1 3 3 r6 av6 bv6) as (Q & _). rewrite E6 in Q. destruct r6; [discriminate Q|discriminate Q|reflexivity]. }
  subst r6.
  destruct (rule_stands t_other tt u ae true true [] [] 2 2 3 5 4 3 2 0 1 1 3 3 h_third Hvp S 6 Matched a6 b6 av6 bv6 h_first h_second 1 t_filter 7 8 St6 B2 X2 V1 H1) as (_ & (r8 & a8 & b8 & av8 & bv8 & St8 & E8)).
  assert (G8 : gradient_of_order t_other tt u ae true true [] [] 0 1 1 h_third 3 2 8).
  { apply (gradient_of _ _ _ _ _ _ _ _ _ _ _ _ _ 1%nat 6%nat h_first h_second 1%nat t_filter 7%nat 8%nat 8%nat G6 B2 X2 V1); [|right; reflexivity].
    intros v Tv. pose proof (tensor_value_fun _ _ _ _ _ _ _ _ _ Tv (SV _ _ _ _ _ _ St6)) as Q. injection Q as ->. exact H1. }
  assert (H8 : forall v, value 8%nat v -> has_shape (a_shape v) h_map).
  { intros v Tv. pose proof (tensor_value_fun _ _ _ _ _ _ _ _ _ Tv (SV _ _ _ _ _ _ St8)) as Q. injection Q as ->. rewrite E8. exact H2. }
  do 2 (split; [assumption|]). do 2 (split; [reflexivity|]). do 6 (split; [assumption|]). split; [exact G8|].
  split; apply (gradient_of _ _ _ _ _ _ _ _ _ _ _ _ _ 2%nat 8%nat h_second h_third 2%nat h_map 9%nat 10%nat _ G8 B3 (ext_refl _) V2 H8); [left|right]; reflexivity.
Qed.
