(** Property C62: shapes, axes and indices travel as floats. *)
From Coq Require Import String List Arith ZArith NArith Bool Reals Lra Lia.
Import ListNotations.
From Verif Require Import Array_Model Arith_Model Array_Proofs Graph_Model Eval_Model Eval_Spec Eval_Proofs Grad_Model Grad_Examples Reduce_Spec Vjp_Spec
  Shape_Model Pool_Model Scalar_Model Tens_Model Tens_Spec Tens_Build Tens_Grad Tens_Final Tens_Examples Opt_Model Num_Model Num_Spec Num_Proofs.
Local Open Scope R_scope.
Local Set Bullet Behavior "Strict Subproofs".

(** ** C62: shapes as floats *)

(** Evaluation with shapes stored as floats computes the values of C54, and
    every shape tensor holds its integers, as long as those are exact in the
    float type. *)
Theorem C62_float_shapes_agree :
  forall (rnd : Z -> Z) (powf : R -> R -> R) (debug : bool) (ls : nat -> list nat) (g : tgraph)
    (feeds : list (ph_key * arr R)) (env : list (arr R)) (rho : nat -> arr R) (i : nat),
  twf ls g -> exact_in rnd ls g -> conform ls rho -> leaf_arrays g feeds env rho ->
  (forall sh, shaped ls g i sh ->
     tensor_value a_shape (num_compute rnd powf) debug (num_graph g) feeds env i (inl (aval rho g i)) /\ has_shape sh (aval rho g i)) /\
  (forall l, nth_error (ttypes ls g) i = Some (Some (TyI l)) ->
     tensor_value a_shape (num_compute rnd powf) debug (num_graph g) feeds env i (inl (Arr [length l] (map IZR l)))).
Proof.
  intros rnd powf debug ls g feeds env rho i W X C HL.
  pose proof (num_tensor_value rnd powf ls g (twf_loose ls g W) X debug feeds env rho C HL i) as H. split.
  - intros sh Hs. split; [|apply (typed_aval ls rho g i sh C Hs)]. specialize (H _ Hs).
    rewrite (tval_aval ls rho g i sh C Hs) in H. exact H.
  - intros l Hl. specialize (H _ Hl). pose proof (exact_val rnd ls g X rho C i _ Hl) as Hx.
    destruct (tval_typed ls rho g i _ C Hl) as [_ Hv]. destruct (tval rho g i) as [a|l']; [contradiction|]. cbn in Hv. subst l'.
    rewrite encode_exact in H by exact Hx. exact H.
Qed.
Print Assumptions C62_float_shapes_agree.

(** Integers up to 2^24 are exact in f32, up to 2^53 in f64. *)
Theorem C62_exact_range :
  forall (bits : N) (z : Z), (0 < bits)%N -> (Z.abs z <= 2 ^ Z.of_N bits)%Z -> float_int bits z = z.
Proof.
  intros bits z Hb Hz. unfold float_int.
  assert (Hn : (Z.abs_N z <= 2 ^ bits)%N) by (apply N2Z.inj_le; rewrite N2Z.inj_abs_N, N2Z.inj_pow; exact Hz).
  assert (Q : round_bits bits (Z.abs_N z) = Z.abs_N z).
  { unfold round_bits. destruct (N.ltb_spec (Z.abs_N z) (2 ^ bits)) as [_|Hge]; [reflexivity|].
    assert (E : Z.abs_N z = (2 ^ bits)%N) by lia. rewrite E, N.log2_pow2 by lia.
    replace (bits + 1 - bits)%N with 1%N by lia. cbn zeta. change (2 ^ 1)%N with 2%N. change (2 ^ (1 - 1))%N with 1%N.
    assert (P : (2 ^ bits = 2 * 2 ^ (bits - 1))%N) by (rewrite <- N.pow_succ_r'; f_equal; lia).
    rewrite P at 1. rewrite (N.mul_comm 2), N.mod_mul by lia. rewrite P, (N.mul_comm 2), N.div_mul by lia. reflexivity. }
  rewrite Q, N2Z.inj_abs_N, Z.mul_comm. apply Z.abs_sgn.
Qed.
Print Assumptions C62_exact_range.

(** Beyond, it is wrong: a vector [x] of 2^24 + 1 elements in f32 has the shape
    tensor [16777216].  So [zeros(shape(x))] (what [grad] returns for a variable
    that does not occur) and the gradient of [sum_all(x)] have one element less
    than [x], without an error, and [reshape(x, shape(x))] panics. *)
Definition sum_graph : tgraph := [t_var 0].
Definition sum_result := t_grad (@max_pop top) true 50 [0%nat] [0%nat] sum_graph.
Lemma float_int_big : float_int 24 (2 ^ 24 + 1) = (2 ^ 24)%Z.
Proof. vm_compute. reflexivity. Qed.
Lemma big_shape a n : a_shape a = [n] -> Z.of_nat n = (2 ^ 24 + 1)%Z ->
  num_value (float_int 24) TShape [a] = Some (vecR [(2 ^ 24)%Z]).
Proof.
  intros H Hn. cbn [num_value num_op int_operands operands hd tl tcompute option_map encode]. rewrite H. cbn [shape_vec map].
  rewrite Hn, float_int_big. reflexivity.
Qed.
Lemma one_dim z : (0 <= z)%Z -> dims [z] = Some [Z.to_nat z].
Proof. intros H. unfold dims. cbn [forallb map]. apply Z.leb_le in H. rewrite H. reflexivity. Qed.
Lemma zeros_dim rnd z : (0 <= z)%Z -> num_value rnd TZeros [vecR [z]] = Some (full [Z.to_nat z] 0).
Proof.
  intros H. change (num_value rnd TZeros [vecR [z]]) with
    (match operands [true] [vecR [z]] with Some l => option_map (encode rnd) (tcompute TZeros l) | None => None end).
  cbn [operands hd tl]. rewrite ints_vec. cbn [tcompute]. rewrite one_dim by exact H. reflexivity.
Qed.
Lemma sumgrad_dim rnd z r : (0 <= z)%Z -> num_value rnd TSumAllGrad [Arr [] [r]; vecR [z]] = Some (full [Z.to_nat z] r).
Proof.
  intros H. change (num_value rnd TSumAllGrad [Arr [] [r]; vecR [z]]) with
    (match operands [false; true] [Arr [] [r]; vecR [z]] with Some l => option_map (encode rnd) (tcompute TSumAllGrad l) | None => None end).
  cbn [operands hd tl]. rewrite ints_vec. cbn [tcompute]. rewrite one_dim by exact H. reflexivity.
Qed.
Lemma one_reshape z (x : arr R) : (0 <= z)%Z -> reshape [z] x = into_shape x [Z.to_nat z].
Proof.
  intros H. unfold reshape. cbn [reshape_dims]. unfold reshape_dim. replace (z =? -1)%Z with false by (symmetry; apply Z.eqb_neq; lia).
  replace (z <? 0)%Z with false by (symmetry; apply Z.ltb_ge; lia). reflexivity.
Qed.
Theorem C62_large_dimensions_refuted :
  forall (powf : R -> R -> R) (debug : bool) (x : arr R) (n : nat),
  Z.of_nat n = (2 ^ 24 + 1)%Z -> has_shape [n] x ->
  (exists z m, num_value (float_int 24) TShape [x] = Some z /\
     num_value (float_int 24) TZeros [z] = Some (full [m] 0) /\ Z.of_nat m = (2 ^ 24)%Z /\
     num_value (float_int 24) TReshape [x; z] = None) /\
  (exists t g' log gx m, t_grad (@max_pop top) true 50 [0%nat] [0%nat] sum_graph = Ok ([(t, true)], g', log) /\
     tensor_value a_shape (num_compute (float_int 24) powf) debug (num_graph g') [] [x] t (inl gx) /\
     a_shape gx = [m] /\ m <> n).
Proof.
  intros powf debug x n Hn [Hs Hl]. split.
  - exists (vecR [(2 ^ 24)%Z]), (Z.to_nat (2 ^ 24)). split; [apply (big_shape x n Hs Hn)|].
    split; [apply zeros_dim; lia|]. split; [apply Z2Nat.id; lia|].
    change (num_value (float_int 24) TReshape [x; vecR [(2 ^ 24)%Z]]) with
      (match operands [false; true] [x; vecR [(2 ^ 24)%Z]] with Some l => option_map (encode (float_int 24)) (tcompute TReshape l) | None => None end).
    cbn [operands hd tl]. rewrite ints_vec. cbn [tcompute]. rewrite one_reshape by lia. unfold into_shape. rewrite Hs.
    cbn [prod fold_right]. rewrite !Nat.mul_1_r. destruct (Nat.eqb_spec n (Z.to_nat (2 ^ 24))) as [E|_]; [|reflexivity].
    rewrite E, Z2Nat.id in Hn by lia. lia.
  - exists 6%nat, (res_graph sum_result). eexists. exists (full [Z.to_nat (2 ^ 24)] 1), (Z.to_nat (2 ^ 24)).
    split; [vm_compute; reflexivity|].
    assert (V5 : value a_shape (num_compute (float_int 24) powf) debug (num_graph (res_graph sum_result)) [] [x] 5 (inl [vecR [(2 ^ 24)%Z]])).
    { eapply (value_run _ _ _ _ _ _ 5 _ [RdOnly x] [] [vecR [(2 ^ 24)%Z]] None).
      - split; [reflexivity|split; reflexivity].
      - constructor; [|constructor]. eapply (arg_var _ _ _ _ _ _ (Incoming 0 false 0)); reflexivity.
      - cbn [num_compute num_node n_op map opin_val]. rewrite (big_shape x n Hs Hn). reflexivity.
      - discriminate. }
    assert (V4 : value a_shape (num_compute (float_int 24) powf) debug (num_graph (res_graph sum_result)) [] [x] 4 (inl [Arr [] [1]])).
    { eapply (value_run _ _ _ _ _ _ 4 _ [] [] [Arr [] [1]] None).
      - split; [reflexivity|split; reflexivity].
      - constructor.
      - reflexivity.
      - discriminate. }
    split; [|split].
    + apply (tv_ok _ _ _ _ _ _ 6 _ []).
      eapply (value_run _ _ _ _ _ _ 6 _ [NonVar (Arr [] [1]); NonVar (vecR [(2 ^ 24)%Z])] [] [full [Z.to_nat (2 ^ 24)] 1] None).
      * split; [reflexivity|split; reflexivity].
      * constructor; [|constructor; [|constructor]].
        -- eapply (arg_op _ _ _ _ _ _ (Incoming 4 false 0)); [split; [reflexivity|split; reflexivity]|exact V4|reflexivity].
        -- eapply (arg_op _ _ _ _ _ _ (Incoming 5 false 0)); [split; [reflexivity|split; reflexivity]|exact V5|reflexivity].
      * cbn [num_compute num_node n_op map opin_val]. rewrite (sumgrad_dim (float_int 24) (2 ^ 24) 1) by lia. reflexivity.
      * discriminate.
    + reflexivity.
    + intros E. rewrite <- E, Z2Nat.id in Hn by lia. lia.
Qed.
Print Assumptions C62_large_dimensions_refuted.

(** The gradient graph of a layer (see C54_hypotheses_met), in f32. *)
Definition exact_b (rnd : Z -> Z) (ls : nat -> list nat) (g : tgraph) : bool :=
  forallb (fun t => match t with Some (TyI l) => forallb (fun z => (rnd z =? z)%Z) l | _ => true end) (ttypes ls g) &&
  forallb (fun n => match n_op n with TSize => false | _ => true end) g.
Lemma exact_b_sound rnd ls g : exact_b rnd ls g = true -> exact_in rnd ls g.
Proof.
  unfold exact_b. rewrite andb_true_iff, !forallb_forall. intros [A B]. split.
  - intros i l Hl z Hz. specialize (A _ (nth_error_In _ _ Hl)). cbn in A. rewrite forallb_forall in A.
    apply Z.eqb_eq. apply A. exact Hz.
  - intros i n inc sh Hn Ho. specialize (B n (nth_error_In _ _ Hn)). rewrite Ho in B. discriminate.
Qed.
Lemma arrays_of_leaves g env rho : t_leaf_values g [] (map (fun a => TA a) env) rho -> leaf_arrays g [] env rho.
Proof.
  intros H i n Hn Ho. destruct (H i n Hn Ho) as [(vid & A & B & D)|(A & (nm & pre & k & post & d & _ & Q & _))].
  - left. exists vid. split; [exact A|]. split; [exact B|]. rewrite nth_error_map in D. destruct (nth_error env vid); [|discriminate].
    injection D as ->. reflexivity.
  - destruct pre; discriminate.
Qed.
Example C62_hypotheses_met :
  twf net_ls (res_graph net_result) /\ exact_in (float_int 24) net_ls (res_graph net_result) /\
  (forall rho, leaf_arrays (res_graph net_result) [] (map rho (seq 0 3)) rho) /\
  (exists t, nth_error (res_tensors net_result) 0 = Some (t, true) /\ shaped net_ls (res_graph net_result) t [3%nat; 2%nat]) /\
  (exists i l, nth_error (ttypes net_ls (res_graph net_result)) i = Some (Some (TyI l)) /\ length l = 2%nat) /\
  float_int 24 (- 2 ^ 24) = (- 2 ^ 24)%Z /\ float_int 24 (2 ^ 24 + 3) = (2 ^ 24 + 4)%Z.
Proof.
  split; [apply twf_b_sound; vm_compute; reflexivity|]. split; [apply exact_b_sound; vm_compute; reflexivity|].
  split.
  { intros rho. apply arrays_of_leaves. rewrite map_map. apply net_leaves. }
  split; [eexists; split; vm_compute; reflexivity|].
  split; [exists 4%nat, [2%Z; 2%Z]; split; vm_compute; reflexivity|].
  split; vm_compute; reflexivity.
Qed.
