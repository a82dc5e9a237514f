(** Array graphs: typing, values, and the tensors built by gradient rules. *)
From Coq Require Import String List Arith ZArith Bool Lia Reals Lra Permutation.
Import ListNotations.
From Verif Require Import Graph_Model Eval_Model Eval_Spec Eval_Proofs Graph_Proofs Grad_Model Grad_Spec
  Scalar_Model Scalar_Spec Scalar_Rules Scalar_Proofs.
From Verif Require Import Array_Model Array_Proofs Arith_Model Arith_Proofs Vjp_Spec Vjp_Proofs
  Reduce_Model Reduce_Spec Reduce_Proofs Mean_Model Shape_Model Shape_Spec Shape_Proofs3
  Dot_Model Dot_Proofs Softmax_Model Softmax_Proofs Softmax_Proofs2 Softmax_Proofs3 Softmax_Xent Tens_Model Tens_Spec Tens_Fwd Tens_Fwd2 Tens_Fwd3 Tens_Fwd4 Tens_Fwd5.
Local Set Bullet Behavior "Strict Subproofs".
Local Open Scope R_scope.

(** ** Types determine shapes *)
Lemma has_tyA v sh : has_ty v (TyA sh) -> exists a, v = TA a /\ has_shape sh a.
Proof. destruct v as [a|l]; simpl; [eauto|tauto]. Qed.
Lemma has_tyI v l : has_ty v (TyI l) -> v = TI l.
Proof. destruct v as [a|l']; simpl; [tauto|congruence]. Qed.
Lemma push_shape p sh out x : has_shape out (push p sh out x).
Proof. apply tab_has_shape. Qed.
Lemma pullr_shape p out x : has_shape out (pullr p out x).
Proof. apply tab_has_shape. Qed.
Lemma zip_tab_shape b r s0 s1 x y : has_shape r (zip_tab b r s0 s1 x y).
Proof. apply tab_has_shape. Qed.
Lemma full_shape sh (v : R) : has_shape sh (full sh v).
Proof. apply tab_has_shape. Qed.
Lemma scalar_shape r : has_shape [] (Arr [] [r]).
Proof. split; reflexivity. Qed.
#[export] Hint Resolve push_shape pullr_shape zip_tab_shape full_shape scalar_shape : core.

Ltac inv_tys := repeat match goal with
  | H : Forall2 _ _ (_ :: _) |- _ => inversion H; subst; clear H
  | H : Forall2 _ _ [] |- _ => inversion H; subst; clear H
  | H : has_ty _ (TyA _) |- _ => apply has_tyA in H; destruct H as (? & -> & H)
  | H : has_ty _ (TyI _) |- _ => apply has_tyI in H; subst
  end.

Lemma addn_typed sh ts vs : forallb (fun t => match t with TyA s => shape_eqb s sh | _ => false end) ts = true ->
  Forall2 has_ty vs ts -> exists l, vs = map TA l /\ List.Forall (has_shape sh) l.
Proof.
  intros E HF. rewrite forallb_forall in E. induction HF as [|v t vs ts Hv _ IH].
  - exists []. split; [reflexivity|constructor].
  - destruct IH as (l & -> & HL); [intros; apply E; simpl; auto|].
    assert (Et := E t (or_introl eq_refl)). destruct t as [s|]; [|discriminate]. apply shape_eqb_ok in Et. subst s.
    apply has_tyA in Hv. destruct Hv as (a & -> & Ha). exists (a :: l). split; [reflexivity|constructor; auto].
Qed.
Lemma addn_ok sh l : l <> [] -> List.Forall (has_shape sh) l -> tcompute TAddN (map TA l) = Some (TA (tab sh (total l))).
Proof.
  intros N F. unfold tcompute. rewrite arrays_map. unfold otA. rewrite (add_n_ok sh); [reflexivity|exact N|].
  eapply Forall_impl; [|exact F]. intros a Ha. split; eauto.
Qed.

Lemma op_ty_sound o ts t vs : op_ty o ts = Some t -> o <> TLeaf -> Forall2 has_ty vs ts ->
  exists v, tcompute o vs = Some v /\ has_ty v t.
Proof.
  intros H Ho HF. destruct o; try congruence.
  - destruct ts; [|discriminate]. inv H. inv_tys. eexists. split; [reflexivity|]. simpl. auto.
  - destruct ts; [|discriminate]. simpl in H. destruct (Nat.eqb_spec (length (a_data a)) (prod (a_shape a))); inv H. inv_tys.
    eexists. split; [reflexivity|]. split; auto.
  - destruct ts; [|discriminate]. inv H. inv_tys. eexists. split; reflexivity.
  - destruct ts as [|[sh|] [|]]; try discriminate. inv H. inv_tys. eexists. split; [reflexivity|]. simpl. f_equal. eauto.
  - destruct ts as [|[sh|] [|]]; try discriminate. inv H. inv_tys. eexists. split; [reflexivity|]. simpl. auto.
  - destruct ts as [|[|a] [|[|b] [|]]]; try discriminate. inv_tys. simpl in H |- *.
    destruct (dims a) as [a'|]; [|discriminate]. destruct (dims b) as [b'|]; [|discriminate].
    destruct (infer_shape a' b') as [r|]; [|discriminate]. inv H. eexists. split; reflexivity.
  - destruct ts as [|[|l] [|]]; try discriminate. inv_tys. simpl in H |- *. destruct (dims l) as [sh|]; [|discriminate]. inv H.
    eexists. split; [reflexivity|]. simpl. auto.
  - destruct ts as [|[|l] [|]]; try discriminate. inv_tys. simpl in H |- *. destruct (dims l) as [sh|]; [|discriminate]. inv H.
    eexists. split; [reflexivity|]. simpl. auto.
  - destruct ts as [|[g|] [|[|l] [|]]]; try discriminate. inv_tys. simpl in H |- *. destruct (dims l) as [sh|]; [|discriminate].
    destruct (reduces_to sh g) eqn:E; [|discriminate]. inv H. rewrite (maybe_reduce_push sh g) by auto. eexists. split; [reflexivity|]. simpl. auto.
  - destruct ts as [|[g|] [|[|l] [|]]]; try discriminate. inv_tys. simpl in H |- *. destruct (dims l) as [sh|]; [|discriminate].
    destruct (reduces_to g sh) eqn:E; [|discriminate]. inv H. rewrite (maybe_broadcast_pull g sh) by auto. eexists. split; [reflexivity|]. simpl. auto.
  - destruct ts as [|[sh|] [|]]; try discriminate. inv H. inv_tys. eexists. split; [reflexivity|]. simpl. split; reflexivity.
  - destruct ts as [|[[|]|] [|[|l] [|]]]; try discriminate. inv_tys. simpl in H |- *. destruct (dims l) as [sh|]; [|discriminate]. inv H.
    eexists. split; [reflexivity|]. simpl. auto.
  - destruct ts as [|[sh|] ts]; try discriminate. unfold op_ty in H. destruct (forallb _ ts) eqn:E; inv H.
    destruct (addn_typed sh (TyA sh :: ts) vs) as (l & -> & HL); [simpl; rewrite (proj2 (shape_eqb_ok sh sh) eq_refl); exact E|exact HF|].
    rewrite (addn_ok sh); auto.
    + eexists. split; [reflexivity|]. simpl. auto.
    + intros ->. inversion HF.
  - destruct ts as [|[sh|] [|]]; try discriminate. inv H. inv_tys. eexists. split; [reflexivity|]. simpl. auto.
  - destruct ts as [|[sh|] [|]]; try discriminate. inv H. inv_tys. eexists. split; [reflexivity|]. simpl. rewrite (amap_tab _ sh) by auto. auto.
  - destruct ts as [|[s0|] [|[s1|] [|]]]; try discriminate. inv_tys. simpl in H. destruct (bin_ty b s0 s1) as [r|] eqn:E; [|discriminate]. inv H.
    simpl. rewrite (bin_arr_ok b _ _ s0 s1 r) by auto. eexists. split; [reflexivity|]. simpl. auto.
  - destruct ts as [|[[|a0 [|a1 [|]]]|] [|[[|b0 [|b1 [|]]]|] [|]]]; try discriminate. inv_tys. simpl in H |- *.
    destruct (Nat.eqb_spec (if ta then a0 else a1) (if tb then b1 else b0)) as [E|]; [|discriminate]. inv H.
    unfold matmul. repeat match goal with Q : has_shape _ _ |- _ => rewrite (hs_sh _ _ Q); clear Q end. rewrite E, Nat.eqb_refl. eexists. split; [reflexivity|]. simpl. auto.
  - destruct ts as [|[sh|] [|[|l] [|]]]; try discriminate. inv_tys. simpl in H |- *. destruct (shape_eqb sh [0%nat]) eqn:E; [discriminate|].
    destruct (axes_of (length sh) l) as [ax|] eqn:A; [|discriminate]. inv H.
    rewrite (reduce_push keep l ax sh); auto; [|intros ->; discriminate]. eexists. split; [reflexivity|]. simpl. auto.
  - destruct ts as [|[g|] [|[|l] [|[|axes] [|]]]]; try discriminate. inv_tys. simpl in H |- *. destruct (dims l) as [sh|]; [|discriminate].
    destruct (shape_eqb sh [0%nat]) eqn:E; [discriminate|]. destruct (axes_of (length sh) axes) as [ax|] eqn:A; [|discriminate].
    destruct (shape_eqb g (reduced_shape (negb make_dims) ax sh)) eqn:E2; [|discriminate]. inv H. apply shape_eqb_ok in E2. subst g.
    replace (reduce_grad 0 make_dims) with (reduce_grad 0 (negb (negb make_dims))) by (rewrite negb_involutive; reflexivity).
    rewrite (reduce_grad_pull (negb make_dims) axes ax sh); auto; [|intros ->; discriminate].
    eexists. split; [reflexivity|]. simpl. auto.
  - destruct ts as [|[sh|] [|[|l] [|]]]; try discriminate. inv_tys. simpl in H |- *.
    destruct (reshape_dims (prod sh) l l) as [out|] eqn:E; [|discriminate]. destruct (Nat.eqb_spec (prod sh) (prod out)) as [P|]; [|discriminate]. inv H.
    rewrite (reshape_pull l sh out); auto. eexists. split; [reflexivity|]. simpl. auto.
  - destruct ts as [|[sh|] [|[|l] [|]]]; try discriminate. inv_tys. simpl in H |- *.
    destruct (perm_of (length sh) invert l) as [q|] eqn:E; [|discriminate]. inv H.
    match goal with |- context [transpose 0 invert l ?z] => destruct (transpose_pull invert l q sh z) as (r & IV & _ & T); auto end. rewrite T. eexists. split; [reflexivity|]. simpl. unfold pull. auto.
  - destruct ts as [|[sh|] [|]]; try discriminate. inv_tys. simpl in H |- *.
    destruct (axis_of (length sh) axis) as [k|] eqn:E; [|discriminate]. inv H. apply axis_of_ok in E.
    rewrite (softmax_smax minv axis _ k); eauto; [|match goal with Q : has_shape _ _ |- _ => rewrite (hs_sh _ _ Q) end; exact E]. eexists. split; [reflexivity|].
    simpl. unfold smax. match goal with Q : has_shape _ _ |- _ => rewrite (hs_sh _ _ Q) end. auto.
  - (* TReduceMean *) destruct ts as [|[sh|] [|[|l] [|]]]; try discriminate. inv_tys. cbn [op_ty tcompute] in H |- *.
    destruct (axes_of (length sh) l) as [ax|] eqn:A; [|discriminate]. destruct (nonempty sh) eqn:NE; [|discriminate].
    destruct (N.leb_spec (N.of_nat (group_size ax sh)) (2 ^ 24)%N) as [L|L]; [|discriminate]. inv H.
    match goal with Q : has_shape _ ?z |- _ => destruct (reduce_mean_typed keep l ax sh z Q NE A L) as (y & -> & Hy) end. eexists. split; [reflexivity|]. exact Hy.
  - (* TReduceProd *) destruct ts as [|[sh|] [|[|l] [|]]]; try discriminate. inv_tys. simpl in H |- *. destruct (shape_eqb sh [0%nat]) eqn:E; [discriminate|].
    destruct (axes_of (length sh) l) as [ax|] eqn:A; [|discriminate]. inv H. assert (NZ : sh <> [0%nat]) by (intros ->; discriminate).
    match goal with Q : has_shape _ ?z |- _ => destruct (reduce_typed Rmult 1 mul_assoc mul_comm mul_one keep l ax sh z Q NZ A) as (y & -> & Hy) end. eexists. split; [reflexivity|]. exact Hy.
  - (* TReduceExt *) destruct ts as [|[sh|] [|[|l] [|]]]; try discriminate. inv_tys. simpl in H |- *. destruct (shape_eqb sh [0%nat]) eqn:E; [discriminate|].
    destruct (axes_of (length sh) l) as [ax|] eqn:A; [|discriminate]. inv H. assert (NZ : sh <> [0%nat]) by (intros ->; discriminate).
    match goal with Q : has_shape _ ?z |- _ => destruct (reduce_typed _ init (ext_assoc mx) (ext_comm mx) (ext_idem mx init) keep l ax sh z Q NZ A) as (y & -> & Hy) end. eexists. split; [reflexivity|]. exact Hy.
  - (* TGatherI *) destruct ts as [|[|idx] [|[|l] [|]]]; try discriminate. inv_tys. cbn [op_ty tcompute] in H |- *.
    destruct (gather 0%Z true 0 (vecZ idx) (vecZ l)) as [a|]; [|discriminate]. inv H. eexists. split; reflexivity.
  - (* TProdI *) destruct ts as [|[|[|d l]] [|[|[|[| |] [|]]] [|]]]; try discriminate. inv H. inv_tys. cbn [tcompute].
    assert (P : d :: l <> []) by discriminate. pose proof (prod_ints (d :: l) P) as Q.
    destruct (reduce 0%Z Z.mul 1%Z [0%Z] false false (vecZ (d :: l))) as [a|]; [|discriminate]. assert (Q' : amap IZR a = Arr [] [IZR (fold_left Z.mul (d :: l) 1%Z)]) by (cbn [option_map] in Q; congruence). cbn [option_map]. eexists. split; [reflexivity|].
    cbn [has_ty]. rewrite Q'. apply scalar_shape.
  - (* TIndex *) destruct ts as [|[sh|] [|]]; try discriminate. inv_tys. cbn [op_ty tcompute] in H |- *.
    destruct (elem_pos (prod sh) i) as [k|] eqn:E; [|discriminate]. inv H. erewrite access_pull by eauto. eexists. split; [reflexivity|]. simpl. auto.
  - (* TIndexGrad *) destruct ts as [|[sh|] [|[[|]|] [|]]]; try discriminate. inv_tys. cbn [op_ty tcompute] in H |- *.
    destruct (elem_pos (prod sh) i) as [k|] eqn:E; [|discriminate]. inv H.
    match goal with Q : has_shape [] ?g |- context [empty_elem ?g] => destruct g as [gs [|v [|]]]; destruct Q as [Q1 Q2]; simpl in Q1, Q2; try discriminate; subst gs end.
    cbn. erewrite access_grad_push by eauto. eexists. split; [reflexivity|]. simpl. auto.
  - (* TExpandDims *) destruct ts as [|[sh|] [|[|l] [|]]]; try discriminate. inv_tys. cbn [op_ty tcompute] in H |- *.
    destruct (plain_indices l) as [ax|] eqn:EP; [|discriminate]. destruct (expand_shape (length sh) (sortZ l) sh) as [out|]; [|discriminate].
    destruct (unit_axesb ax sh out) eqn:EU; [|discriminate]. inv H.
    match goal with Q : has_shape _ ?z |- _ => rewrite (proj2 (expand_pull l ax sh out z Q EP EU)) end. eexists. split; [reflexivity|]. simpl. auto.
  - (* TSqueeze *) destruct ts as [|[sh|] [|[|l] [|]]]; try discriminate. inv_tys. cbn [op_ty tcompute] in H |- *.
    destruct (plain_indices l) as [ax|] eqn:EP; [|discriminate]. destruct (unit_axesb ax (drop_axes ax sh) sh) eqn:EU; [|discriminate]. inv H.
    match goal with Q : has_shape _ ?z |- _ => rewrite (proj2 (squeeze_pull l ax (drop_axes ax sh) sh z Q EP EU)) end. eexists. split; [reflexivity|]. simpl. auto.
  - (* TLogSoftmax *) destruct ts as [|[sh|] [|]]; try discriminate. inv_tys. cbn [op_ty tcompute] in H |- *.
    destruct (axis_of (length sh) axis) as [k|] eqn:E; [|discriminate]. destruct (nonempty sh) eqn:NE; [|discriminate]. inv H. apply axis_of_ok in E.
    match goal with Q : has_shape sh ?z |- _ => rename z into x; rename Q into Hx end. pose proof (hs_sh _ _ Hx) as Sx.
    rewrite (log_softmax_run minv axis x k); [|eapply hs_wf; eauto|rewrite Sx; apply nonempty_prod; exact NE|rewrite Sx; exact E].
    eexists. split; [reflexivity|]. simpl. unfold lsmax. rewrite Sx. auto.
  - (* TLogSumExp *) destruct keep; [|destruct ts as [|[sh|] [|]]; discriminate]. destruct ts as [|[sh|] [|]]; try discriminate. inv_tys. cbn [op_ty tcompute] in H |- *.
    destruct (axis_of (length sh) axis) as [k|] eqn:E; [|discriminate]. destruct (nonempty sh) eqn:NE; [|discriminate]. inv H. apply axis_of_ok in E.
    match goal with Q : has_shape sh ?z |- _ => rename z into x; rename Q into Hx end. pose proof (hs_sh _ _ Hx) as Sx.
    rewrite (logsumexp_run minv axis x k); [|eapply hs_wf; eauto|rewrite Sx; apply nonempty_prod; exact NE|rewrite Sx; exact E].
    eexists. split; [reflexivity|]. simpl. rewrite Sx. auto.
  - (* TSigmoidXent *) destruct ts as [|[s0|] [|[s1|] [|]]]; try discriminate. inv_tys. cbn [op_ty tcompute] in H |- *.
    unfold same_ty in H. destruct (shape_eqb s0 s1) eqn:E; [|discriminate]. inv H. apply shape_eqb_ok in E. subst s1.
    match goal with Q : has_shape _ ?x, Q' : has_shape _ ?t |- context [sigmoid_xent exp ?x ?t] =>
      pose proof (hs_sh _ _ Q) as Sx; pose proof (hs_sh _ _ Q') as St; rewrite (sigmoid_xent_run x t); [|eapply hs_wf; exact Q|eapply hs_wf; exact Q'|congruence] end.
    eexists. split; [reflexivity|]. simpl. unfold sxent. rewrite Sx. auto.
  - (* TSparseXent *) destruct ts as [|[[|n [|c [|]]]|] [|[|t'] [|]]]; try discriminate. inv_tys. cbn [op_ty tcompute] in H |- *.
    destruct (nonempty [n; c]) eqn:NE; [|discriminate]. destruct (labels_ok n c t') eqn:EL; [|discriminate]. inv H.
    destruct (labels_ok_spec _ _ _ EL) as [Ht L].
    match goal with Q : has_shape [n; c] ?x |- _ => rewrite (sparse_xent_run minv n c x (vecR t') (lab_of t') Q Ht (proj1 (nonempty_prod _) NE) L) end.
    eexists. split; [reflexivity|]. simpl. apply tab_has_shape.
  - (* TXentLog *) destruct ts as [|[[|n [|c [|]]]|] [|[|t'] [|]]]; try discriminate. inv_tys. cbn [op_ty tcompute] in H |- *.
    destruct (nonempty [n; c]) eqn:NE; [|discriminate]. destruct (labels_ok n c t') eqn:EL; [|discriminate]. inv H.
    destruct (labels_ok_spec _ _ _ EL) as [Ht L].
    match goal with Q : has_shape [n; c] ?x |- _ => rewrite (sparse_xent_run minv n c x (vecR t') (lab_of t') Q Ht (proj1 (nonempty_prod _) NE) L); pose proof (hs_sh _ _ Q) as Sx end.
    eexists. split; [reflexivity|]. simpl. unfold lsmax. rewrite Sx. auto.
  - (* TSparseXentGrad *) destruct ts as [|[[|n [|c [|]]]|] [|[|t'] [|[[|m [|[|[|]] [|]]]|] [|]]]]; try discriminate. inv_tys. cbn [op_ty tcompute] in H |- *.
    destruct (nonempty [n; c]) eqn:NE; [|discriminate]. destruct (labels_ok n c t') eqn:EL; [|discriminate].
    destruct (Nat.eqb_spec n m) as [->|]; [|discriminate]. inv H.
    erewrite sparse_grad_ok by eauto. eexists. split; [reflexivity|]. simpl. auto.
  - (* TSlice *) destruct ts as [|[sh|] [|]]; try discriminate. inv_tys. cbn [op_ty tcompute] in H |- *.
    destruct (ranges sh sl) as [rs|] eqn:E; [|discriminate]. inv H. erewrite slice_pull by eauto. eexists. split; [reflexivity|]. simpl. auto.
  - (* TSliceGrad *) destruct ts as [|[sh|] [|[g|] [|]]]; try discriminate. inv_tys. cbn [op_ty tcompute] in H |- *.
    destruct (ranges sh sl) as [rs|] eqn:E; [|discriminate]. destruct (shape_eqb g (range_lens rs)) eqn:EG; [|discriminate]. inv H. apply shape_eqb_ok in EG. subst g.
    erewrite slice_grad_push by eauto. eexists. split; [reflexivity|]. simpl. auto.
  - (* TSplit *) destruct ts as [|[sh|] [|]]; try discriminate. inv_tys. cbn [op_ty tcompute] in H |- *.
    destruct (split_ranges sh axis lo hi) as [rs|] eqn:E; [|discriminate]. inv H. destruct (split_as_slice _ _ _ _ _ E) as (sl & ER & E1 & _).
    erewrite E1, slice_pull by eauto. eexists. split; [reflexivity|]. simpl. auto.
  - (* TSplitGrad *) destruct ts as [|[sh|] [|[g|] [|]]]; try discriminate. inv_tys. cbn [op_ty tcompute] in H |- *.
    destruct (split_ranges sh axis lo hi) as [rs|] eqn:E; [|discriminate]. destruct (shape_eqb g (range_lens rs)) eqn:EG; [|discriminate]. inv H. apply shape_eqb_ok in EG. subst g.
    destruct (split_as_slice _ _ _ _ _ E) as (sl & ER & _ & E2). erewrite E2, slice_grad_push by eauto. eexists. split; [reflexivity|]. simpl. auto.
  - (* TTile *) destruct ts as [|[sh|] [|]]; try discriminate. inv_tys. cbn [op_ty tcompute] in H |- *.
    destruct (axis_of (length sh) axis) as [k|] eqn:E; [|discriminate]. destruct (Nat.ltb_spec 0 num) as [L|]; [|discriminate]. inv H.
    match goal with Q : has_shape _ ?z |- _ => destruct (tile_shape axis k num sh z Q E L) as (y & -> & Hy) end. eexists. split; [reflexivity|]. exact Hy.
  - (* TConcat *) destruct ts as [|[sh|] ts]; try discriminate. cbn [op_ty tcompute] in H |- *.
    destruct (all_shapes ts) as [l|] eqn:E; [|discriminate]. destruct (axis <? 0)%Z eqn:EA; [discriminate|].
    destruct (all_shapes_typed (TyA sh :: ts) (sh :: l) vs) as (xs & -> & F); [unfold all_shapes in *; simpl; rewrite E; reflexivity|exact HF|].
    destruct (concat_typed axis sh l t xs EA H F) as (y & -> & Hy). eexists. split; [reflexivity|]. exact Hy.
  - discriminate.
  - (* TGather *) destruct ts as [|[|idx] [|[sh|] [|]]]; try discriminate. inv_tys. cbn [op_ty tcompute] in H |- *.
    destruct (gather_ty norm axis idx sh) as [out|] eqn:E; [|discriminate]. inv H. destruct (gather_ty_ok _ _ _ _ _ E) as (k & EA & _).
    erewrite gather_pull by eauto. eexists. split; [reflexivity|]. simpl. auto.
  - discriminate.
  - (* TConv *) destruct ts as [|[sx|] [|[sw|] [|]]]; try discriminate. inv_tys. cbn [op_ty] in H.
    destruct (conv_ty p s d sx sw) as [sy|] eqn:E; [|discriminate]. inv H. apply conv_ty_ok in E.
    destruct E as (b & xch & ych & xh & xw & kh & kw & yh & yw & -> & -> & -> & S).
    eexists. split; [eapply conv_value; eassumption|]. apply conv_shape.
  - (* TConvCols *) destruct ts as [|[sx|] [|[sw|] [|]]]; try discriminate. inv_tys. cbn [op_ty] in H.
    destruct (conv_ty p s d sx sw) as [sy|] eqn:E; [|discriminate]. apply conv_ty_ok in E.
    destruct E as (b & xch & ych & xh & xw & kh & kw & yh & yw & -> & -> & -> & S). inv H.
    eexists. split; [eapply (conv_value false); eassumption|]. apply cols_shape.
  - (* TConvGradW *) destruct ts as [|[[|b [|xch [|kw [|kh [|yh [|yw [|]]]]]]]|] [|[g|] [|[w|] [|]]]]; try discriminate. inv_tys. cbn [op_ty] in H.
    destruct g as [|b' [|ych [|yh' [|yw' [|]]]]]; try discriminate. destruct w as [|ych' [|xch' [|kh' [|kw' [|]]]]]; try discriminate.
    destruct (Nat.ltb_spec 0 b); [|discriminate]. destruct (shape_eqb [b'; ych; yh'; yw'] _) eqn:E1; [|discriminate].
    destruct (shape_eqb [ych'; xch'; kh'; kw'] _) eqn:E2; [|discriminate]. inv H. apply shape_eqb_ok in E1. apply shape_eqb_ok in E2. inv E1. inv E2.
    match goal with Q1 : has_shape _ ?c, Q2 : has_shape _ ?gy, Q3 : has_shape _ ?w |- context [[TA ?c; TA ?gy; TA ?w]] =>
      destruct (filter_grad_typed _ _ _ _ _ _ _ blank c gy w ltac:(eassumption) Q1 Q2 (proj1 Q3)) as (g & E & Hg) end.
    cbn [tcompute]. rewrite E. eexists. split; [reflexivity|]. exact Hg.
  - (* TConvT *) destruct ts as [|[sx|] [|[sw|] [|]]]; try discriminate. inv_tys. cbn [op_ty] in H.
    destruct (deconv_ty checked p s d sx sw) as [sy|] eqn:E; [|discriminate]. inv H. apply deconv_ty_ok in E.
    destruct E as (b & xch & ych & xh & xw & kh & kw & yh & yw & -> & -> & -> & S & C1 & C2 & K & PB & _).
    eexists. split; [eapply deconv_value; eassumption|]. apply deconv_shape.
  - (* TConvTGradW *) destruct ts as [|[sg|] [|[sx|] [|[sw|] [|]]]]; try discriminate. inv_tys. cbn [op_ty] in H.
    destruct (conv_ty p s d sg sw) as [sy|] eqn:E; [|discriminate]. apply conv_ty_ok in E.
    destruct E as (b & xch & ych & xh & xw & kh & kw & yh & yw & -> & -> & -> & S).
    destruct (shape_eqb _ sx) eqn:E1; [|discriminate]. apply shape_eqb_ok in E1. subst sx. destruct (square _) eqn:E2; [|discriminate]. apply square_ok in E2.
    cbn [hd] in H. destruct (Nat.eqb_spec b 0); [discriminate|]. inv H.
    eexists. split; [eapply deconv_filter_value; try eassumption; lia|]. apply tab_has_shape.
  - (* TPool *) destruct ts as [|[sx|] [|]]; try discriminate. inv_tys. cbn [op_ty] in H.
    destruct (pool_ty p s size sx) as [sy|] eqn:E; [|discriminate]. inv H. apply pool_ty_ok in E.
    destruct E as (b & ch & xh & xw & yh & yw & -> & -> & -> & S & _).
    eexists. split; [eapply pool_value; eassumption|]. apply tab_has_shape.
  - (* TPoolGrad *) destruct ts as [|[sx|] [|[sg|] [|]]]; try discriminate. inv_tys. cbn [op_ty] in H.
    destruct (pool_ty p s size sx) as [sy|] eqn:E; [|discriminate]. apply pool_ty_ok in E.
    destruct E as (b & ch & xh & xw & yh & yw & -> & -> & -> & S & Eh & Ew).
    destruct (shape_eqb _ sg) eqn:E1; [|discriminate]. apply shape_eqb_ok in E1. subst sg. destruct (pool_exact _ _ _ _) eqn:E2; [|discriminate]. inv H.
    destruct (pool_exact_ok _ _ _ _ _ _ _ _ _ E2 eq_refl eq_refl) as (C1 & C2 & L).
    eexists. split; [eapply pool_grad_value; eassumption|]. apply tab_has_shape.
Qed.

(** ** Values of typed tensors *)
Section Build.
Variable ls : nat -> list nat.
Definition typed (s : tgraph) (i : nat) (t : ty) : Prop := nth_error (ttypes ls s) i = Some (Some t).
Definition holds (rho : nat -> arr R) (s : tgraph) (i : nat) (v : tv) : Prop := nth_error (tvalues rho s) i = Some (Some v).

Lemma typed_values rho g : conform ls rho -> forall i t, typed g i t -> exists v, holds rho g i v /\ has_ty v t.
Proof.
  intros HC. unfold typed, holds. induction g as [|n g IH] using rev_ind; intros i t H.
  - destruct i; discriminate.
  - unfold ttypes, tvalues in *. rewrite scan_snoc in H. rewrite scan_snoc.
    apply nth_snoc_cases in H. destruct H as [[H Hl]|[-> H]].
    + destruct (IH _ _ H) as (v & Hv & Hh). exists v. split; auto. rewrite nth_error_app1; auto.
      rewrite scan_length in Hl. rewrite scan_length. exact Hl.
    + rewrite nth_error_app2, !scan_length, Nat.sub_diag by (rewrite !scan_length; lia). cbn [nth_error].
      unfold tnode_ty in H at 1. unfold tnode_val at 1.
      assert (HG : forall o, o <> TLeaf ->
        match lookups (scan (tnode_ty ls) g) (n_inputs n) with Some ts => op_ty o ts | None => None end = Some t ->
        exists v, Some (match lookups (scan (tnode_val rho) g) (n_inputs n) with
                        | Some vs => tcompute o vs | None => None end) = Some (Some v) /\ has_ty v t).
      { intros o Ho Hty. destruct (lookups (scan (tnode_ty ls) g) (n_inputs n)) as [ts|] eqn:El; [|discriminate].
        apply lookups_spec in El.
        assert (HV : exists vs, lookups (scan (tnode_val rho) g) (n_inputs n) = Some vs /\ Forall2 has_ty vs ts).
        { clear -IH El. induction El as [|inc u ins us [Hs Hu] _ IH2].
          - exists []. split; [reflexivity|constructor].
          - destruct IH2 as (vs & Hvs & HF). destruct (IH _ _ Hu) as (v & Hv & Hh).
            exists (v :: vs). split; [simpl; rewrite Hs, Hv, Hvs; reflexivity | constructor; auto]. }
        destruct HV as (vs & -> & HF). destruct (op_ty_sound o ts t vs) as (v & Hv & Hh); auto.
        exists v. rewrite Hv. auto. }
      destruct (n_op n); try (apply HG; [discriminate|auto]).
      inv H. eexists. split; [reflexivity|]. simpl. apply HC.
Qed.
Lemma typed_lt g i t : typed g i t -> (i < length g)%nat.
Proof. unfold typed, ttypes. intros H. rewrite <- (scan_length (tnode_ty ls) g). apply nth_error_Some. congruence. Qed.
Lemma typed_fun g i t t' : typed g i t -> typed g i t' -> t = t'.
Proof. unfold typed. congruence. Qed.
Lemma holds_fun rho g i v v' : holds rho g i v -> holds rho g i v' -> v = v'.
Proof. unfold holds. congruence. Qed.
Lemma holds_lt rho g i v : holds rho g i v -> (i < length g)%nat.
Proof. unfold holds, tvalues. intros H. rewrite <- (scan_length (tnode_val rho) g). apply nth_error_Some. congruence. Qed.
Lemma shaped_typed g i sh : shaped ls g i sh <-> typed g i (TyA sh).
Proof. unfold shaped, typed. tauto. Qed.
Lemma typed_aval rho g i sh : conform ls rho -> typed g i (TyA sh) -> holds rho g i (TA (aval rho g i)) /\ has_shape sh (aval rho g i).
Proof.
  intros HC H. destruct (typed_values rho g HC i _ H) as (v & Hv & Ht). apply has_tyA in Ht. destruct Ht as (a & -> & Ha).
  unfold aval, holds in *. rewrite Hv. auto.
Qed.
Lemma holds_aval rho g i a : holds rho g i (TA a) -> aval rho g i = a.
Proof. unfold holds, aval. intros ->. reflexivity. Qed.
Lemma typed_ints rho g i l : conform ls rho -> typed g i (TyI l) -> holds rho g i (TI l).
Proof. intros HC H. destruct (typed_values rho g HC i _ H) as (v & Hv & Ht). apply has_tyI in Ht. subst. exact Hv. Qed.

Definition grows (s s' : tgraph) : Prop := exists new, s' = s ++ new.
Lemma grows_refl s : grows s s.
Proof. exists []. rewrite app_nil_r. reflexivity. Qed.
Lemma grows_trans a b c : grows a b -> grows b c -> grows a c.
Proof. intros [x ->] [y ->]. exists (x ++ y). rewrite app_assoc. reflexivity. Qed.
Lemma grows_typed s s' i t : grows s s' -> typed s i t -> typed s' i t.
Proof. intros [new ->] H. pose proof (typed_lt _ _ _ H). unfold typed, ttypes in *. rewrite scan_prefix; auto. Qed.
Lemma grows_typed_back s s' i t : grows s s' -> (i < length s)%nat -> typed s' i t -> typed s i t.
Proof. intros [new ->] H T. unfold typed, ttypes in *. rewrite scan_prefix in T; auto. Qed.
Lemma grows_holds rho s s' i v : grows s s' -> holds rho s i v -> holds rho s' i v.
Proof. intros [new ->] H. pose proof (holds_lt _ _ _ _ H). unfold holds, tvalues in *. rewrite scan_prefix; auto. Qed.
Lemma grows_aval rho s s' i : grows s s' -> (i < length s)%nat -> aval rho s' i = aval rho s i.
Proof. intros [new ->] H. unfold aval, tvalues. rewrite scan_prefix; auto. Qed.
Lemma grows_nth s s' i n : grows s s' -> nth_error s i = Some n -> nth_error s' i = Some n.
Proof. intros [new ->] H. rewrite nth_error_app1; auto. apply nth_error_Some. congruence. Qed.
Lemma grows_length s s' : grows s s' -> (length s <= length s')%nat.
Proof. intros [new ->]. rewrite app_length. lia. Qed.

Lemma typed_inputs g i n t : nth_error g i = Some n -> typed g i t ->
  (n_op n = TLeaf /\ t = TyA (ls i)) \/
  (n_op n <> TLeaf /\ exists ts,
     Forall2 (fun inc ty => in_sel inc = 0%nat /\ (in_id inc < i)%nat /\ typed g (in_id inc) ty) (n_inputs n) ts /\
     op_ty (n_op n) ts = Some t).
Proof.
  intros Hi Ht. assert (Hl : (i < length g)%nat) by (apply nth_error_Some; congruence).
  unfold typed, ttypes in Ht. rewrite (scan_nth _ _ _ _ Hi) in Ht. injection Ht as Ht.
  assert (HG : n_op n <> TLeaf -> match lookups (scan (tnode_ty ls) (firstn i g)) (n_inputs n) with
                              | Some ts => op_ty (n_op n) ts | None => None end = Some t ->
    exists ts,
     Forall2 (fun inc ty => in_sel inc = 0%nat /\ (in_id inc < i)%nat /\ typed g (in_id inc) ty) (n_inputs n) ts /\
     op_ty (n_op n) ts = Some t).
  { intros Ho H. destruct (lookups _ (n_inputs n)) as [ts|] eqn:El; [|discriminate]. exists ts. split; auto.
    apply lookups_spec in El. eapply Forall2_imp; [|exact El]. simpl. intros inc ty [Hs Hn]. split; auto.
    assert (Hlt : (in_id inc < i)%nat).
    { assert (Q : (in_id inc < length (scan (tnode_ty ls) (firstn i g)))%nat) by (apply nth_error_Some; congruence).
      rewrite scan_length, firstn_length in Q. lia. }
    split; auto. unfold typed, ttypes. rewrite <- (firstn_skipn i g). rewrite scan_prefix; auto. rewrite firstn_length. lia. }
  unfold tnode_ty at 1 in Ht. destruct (n_op n) eqn:Eo; try (right; split; [discriminate|apply HG; [discriminate|auto]]).
  left. inv Ht. auto.
Qed.
Lemma tnode_val_op rho i n acc : n_op n <> TLeaf ->
  tnode_val rho i n acc = match lookups acc (n_inputs n) with Some vs => tcompute (n_op n) vs | None => None end.
Proof. intros H. unfold tnode_val. destruct (n_op n); auto. congruence. Qed.
Lemma tnode_ty_op i n acc : n_op n <> TLeaf ->
  tnode_ty ls i n acc = match lookups acc (n_inputs n) with Some vs => op_ty (n_op n) vs | None => None end.
Proof. intros H. unfold tnode_ty. destruct (n_op n); auto. congruence. Qed.

(** The value of a node from the values of its inputs. *)
Lemma node_holds rho g i n vs v : nth_error g i = Some n -> n_op n <> TLeaf ->
  Forall2 (fun inc v => in_sel inc = 0%nat /\ (in_id inc < i)%nat /\ holds rho g (in_id inc) v) (n_inputs n) vs ->
  tcompute (n_op n) vs = Some v -> holds rho g i v.
Proof.
  intros Hi Ho HF Hv. unfold holds, tvalues. rewrite (scan_nth _ _ _ _ Hi). f_equal. rewrite tnode_val_op by exact Ho.
  assert (Hl : (i < length g)%nat) by (apply nth_error_Some; congruence).
  assert (El : lookups (scan (tnode_val rho) (firstn i g)) (n_inputs n) = Some vs).
  { apply lookups_spec. eapply Forall2_imp; [|exact HF]. simpl. intros inc v' (A & B & C). split; [exact A|].
    unfold holds, tvalues in C. rewrite <- (firstn_skipn i g) in C. rewrite scan_prefix in C; auto. rewrite firstn_length. lia. }
  rewrite El. exact Hv.
Qed.
Lemma leaf_holds rho g i n : nth_error g i = Some n -> n_op n = TLeaf -> holds rho g i (TA (rho i)).
Proof. intros Hi Ho. unfold holds, tvalues. rewrite (scan_nth _ _ _ _ Hi). f_equal. unfold tnode_val. rewrite Ho. reflexivity. Qed.

(** ** Building one tensor *)
Definition typedl (s : tgraph) (ins : list nat) (ts : list ty) : Prop := Forall2 (typed s) ins ts.
Definition holdsl (rho : nat -> arr R) (s : tgraph) (ins : list nat) (vs : list tv) : Prop := Forall2 (holds rho s) ins vs.
Lemma grows_typedl s s' l ts : grows s s' -> typedl s l ts -> typedl s' l ts.
Proof. intros G. apply Forall2_imp. intros. eapply grows_typed; eauto. Qed.
Lemma grows_holdsl rho s s' l ts : grows s s' -> holdsl rho s l ts -> holdsl rho s' l ts.
Proof. intros G. apply Forall2_imp. intros. eapply grows_holds; eauto. Qed.

(** The tensor [t] of [s'] is new (or not), has type [ty] and holds [v rho]. *)
Definition makes (s : tgraph) (t : nat) (s' : tgraph) (ty : ty) (r : (nat -> arr R) -> tv -> Prop) : Prop :=
  twf ls s' /\ grows s s' /\ typed s' t ty /\ forall rho v, r rho v -> holds rho s' t v.

Lemma tmk_spec ins sh diff o ts ty s t s' :
  twf ls s -> o <> TLeaf -> tmk ins sh diff o s = Some (t, s') -> typedl s ins ts -> op_ty o ts = Some ty ->
  (forall sh', ty = TyA sh' -> forall x, sh = Some x -> typed s x (TyI (shape_vec sh'))) ->
  makes s t s' ty (fun rho v => exists vs, holdsl rho s ins vs /\ tcompute o vs = Some v).
Proof.
  intros Hwf Ho Hmk HF Hty Hsh. unfold tmk in Hmk.
  destruct (build s _ o) as [[s1 id]|] eqn:Hb; inv Hmk.
  apply build_spec in Hb. destruct Hb as (Hid & _ & Hs). subst t.
  set (n := Node o _ _ _ _ _ _ _ _) in Hs. subst s'.
  assert (Hln : lookups (ttypes ls s) (n_inputs n) = Some ts).
  { apply lookups_spec. simpl. clear -HF. induction HF; simpl; constructor; auto. }
  assert (Hnt : tnode_ty ls (length s) n (ttypes ls s) = Some ty).
  { rewrite tnode_ty_op by exact Ho. rewrite Hln. exact Hty. }
  assert (G : grows s (s ++ [n])) by (exists [n]; reflexivity).
  assert (Ht : typed (s ++ [n]) (length s) ty).
  { unfold typed, ttypes. rewrite scan_snoc, nth_error_app2; rewrite scan_length; auto. rewrite Nat.sub_diag. simpl.
    fold (ttypes ls s). rewrite Hnt. reflexivity. }
  split; [|split; [exact G|split; [exact Ht|]]].
  - destruct Hwf as [W1 W2 W3 W4 W5 W6 W7].
    assert (Hin : forall inc, In inc (n_inputs n) -> (in_id inc < length s)%nat).
    { intros inc Hinc. apply lookups_spec in Hln. apply In_nth_error in Hinc. destruct Hinc as (k & Hk).
      destruct (Forall2_nth _ _ _ _ _ Hln Hk) as (bb & _ & _ & Hb2). eapply typed_lt. exact Hb2. }
    constructor.
    + intros i m inc Hi Hinc. apply nth_snoc_cases in Hi. destruct Hi as [[Hi _]|[-> ->]]; [eauto|auto].
    + intros i m sh' x Hi Hn Hx. apply nth_snoc_cases in Hi. destruct Hi as [[Hi Hl]|[-> ->]].
      * apply (grows_typed s); auto. eapply W2; eauto. apply shaped_typed. apply (grows_typed_back s (s ++ [n])); auto.
      * apply (grows_typed s); auto. eapply Hsh; eauto. apply shaped_typed in Hn. eapply typed_fun; eauto.
    + intros i m Hi Hop. apply nth_snoc_cases in Hi. destruct Hi as [[Hi Hl]|[-> ->]]; [eauto|]. simpl in Hop. congruence.
    + intros i m Hi Hop. apply nth_snoc_cases in Hi. destruct Hi as [[Hi Hl]|[-> ->]]; [eauto|]. simpl. auto.
    + intros i m Hi. apply nth_snoc_cases in Hi. destruct Hi as [[Hi Hl]|[-> ->]]; [eauto|]. reflexivity.
    + intros i m inc Hi Hinc. apply nth_snoc_cases in Hi. destruct Hi as [[Hi Hl]|[-> ->]].
      * rewrite rank_of_app; [eauto|]. pose proof (W1 _ _ _ Hi Hinc). lia.
      * rewrite rank_of_app by auto. simpl. apply new_rank_gt. exact Hinc.
    + intros i m inc Hi Hinc. apply nth_snoc_cases in Hi. destruct Hi as [[Hi Hl]|[-> ->]]; [eauto|].
      simpl in Hinc. apply in_map_iff in Hinc. destruct Hinc as (k & <- & _). reflexivity.
  - intros rho v (vs & HV & Hv). unfold holds, tvalues. rewrite scan_snoc, nth_error_app2; rewrite scan_length; auto.
    rewrite Nat.sub_diag. cbn [nth_error]. f_equal. fold (tvalues rho s).
    rewrite tnode_val_op by exact Ho.
    assert (Hlv : lookups (tvalues rho s) (n_inputs n) = Some vs).
    { apply lookups_spec. simpl. clear -HV. induction HV; simpl; constructor; auto. }
    rewrite Hlv. exact Hv.
Qed.

Lemma makes_weaken s s1 t s' ty (r r' : (nat -> arr R) -> tv -> Prop) : grows s s1 -> makes s1 t s' ty r -> (forall rho v, r' rho v -> r rho v) -> makes s t s' ty r'.
Proof. intros G (A & B & C & D) E. repeat (split; auto). eapply grows_trans; eauto. Qed.
Lemma makes_id s t ty : twf ls s -> typed s t ty -> makes s t s ty (fun rho v => holds rho s t v).
Proof. intros W T. repeat (split; auto). apply grows_refl. Qed.

Ltac bindH H := unfold tbind in H;
  match type of H with match ?m with _ => _ end = _ =>
    let t := fresh "t" in let s := fresh "s" in let E := fresh "E" in
    destruct m as [[t s]|] eqn:E; [|discriminate] end.

(** The shape of an array. *)
Lemma a_shape_of_spec x sh s t s' : twf ls s -> typed s x (TyA sh) -> a_shape_of x s = Some (t, s') ->
  makes s t s' (TyI (shape_vec sh)) (fun rho v => v = TI (shape_vec sh) /\ conform ls rho).
Proof.
  intros W Hx H. unfold a_shape_of in H. destruct (nth_error s x) as [n|] eqn:En; [|discriminate].
  destruct (n_shape n) as [id|] eqn:Es.
  - inv H. assert (T : typed s' t (TyI (shape_vec sh))) by (eapply (twf_shape ls s'); eauto).
    split; [auto|]. split; [apply grows_refl|]. split; [exact T|]. intros rho v [-> HC]. apply typed_ints; auto.
  - apply (tmk_spec _ _ _ _ [TyA sh] (TyI (shape_vec sh))) in H; auto; try discriminate.
    + eapply makes_weaken; [apply grows_refl|exact H|]. simpl. intros rho v [-> HC].
      destruct (typed_aval rho s x sh HC Hx) as [Hv Hs]. exists [TA (aval rho s x)]. split; [constructor; [auto|constructor]|].
      simpl. rewrite (hs_sh _ _ Hs). reflexivity.
    + constructor; [auto|constructor].
Qed.
Lemma a_ints_spec l s t s' : twf ls s -> a_ints l s = Some (t, s') -> makes s t s' (TyI l) (fun rho v => v = TI l).
Proof.
  intros W H. unfold a_ints in H. bindH H.
  apply (tmk_spec _ _ _ _ [] (TyI [Z.of_nat (length l)])) in E; auto; try discriminate; [|constructor]. destruct E as (W1 & G1 & T1 & _).
  apply (tmk_spec _ _ _ _ [] (TyI l)) in H; auto; try discriminate; [|constructor].
  eapply makes_weaken; [exact G1|exact H|]. simpl. intros rho v ->. exists []. split; [constructor|reflexivity].
Qed.
Lemma a_scalar_spec r s t s' : twf ls s -> a_scalar r s = Some (t, s') -> makes s t s' (TyA []) (fun rho v => v = TA (Arr [] [r])).
Proof.
  intros W H. unfold a_scalar in H. bindH H. apply a_ints_spec in E; auto. destruct E as (W1 & G1 & T1 & _).
  apply (tmk_spec _ _ _ _ [] (TyA [])) in H; auto; try discriminate.
  - eapply makes_weaken; [exact G1|exact H|]. simpl. intros rho v ->. exists []. split; [constructor|reflexivity].
  - constructor.
  - intros sh' E x Hx. inv E. inv Hx. exact T1.
Qed.
Lemma a_zeros_like_spec x sh s t s' : twf ls s -> typed s x (TyA sh) -> a_zeros_like x s = Some (t, s') ->
  makes s t s' (TyA sh) (fun rho v => v = TA (full sh 0) /\ conform ls rho).
Proof.
  intros W Hx H. unfold a_zeros_like in H. bindH H. apply (a_shape_of_spec x sh) in E; auto. destruct E as (W1 & G1 & T1 & V1).
  apply (tmk_spec _ _ _ _ [TyI (shape_vec sh)] (TyA sh)) in H; auto; try discriminate.
  - eapply makes_weaken; [exact G1|exact H|]. simpl. intros rho v [-> HC]. exists [TI (shape_vec sh)].
    split; [constructor; [apply V1; auto|constructor]|]. simpl. rewrite dims_shape_vec. reflexivity.
  - constructor; [auto|constructor].
  - simpl. rewrite dims_shape_vec. reflexivity.
Qed.
Lemma a_sum_all_spec x sh s t s' : twf ls s -> typed s x (TyA sh) -> a_sum_all x s = Some (t, s') ->
  makes s t s' (TyA []) (fun rho v => exists a, holds rho s x (TA a) /\ v = TA (sum_all 0 Rplus a)).
Proof.
  intros W Hx H. unfold a_sum_all in H. apply (tmk_spec _ _ _ _ [TyA sh] (TyA [])) in H; auto; try discriminate.
  - eapply makes_weaken; [apply grows_refl|exact H|]. simpl. intros rho v (a & Ha & ->). exists [TA a]. split; [constructor; [auto|constructor]|reflexivity].
  - constructor; [auto|constructor].
Qed.
Lemma a_un_spec u x sh s t s' : twf ls s -> typed s x (TyA sh) -> a_un u x s = Some (t, s') ->
  makes s t s' (TyA sh) (fun rho v => exists w, holds rho s x w /\ tcompute (TUn u) [w] = Some v).
Proof.
  intros W Hx H. unfold a_un in H. destruct (un_sets_shape u).
  - bindH H. apply (a_shape_of_spec x sh) in E; auto. destruct E as (W1 & G1 & T1 & V1).
    apply (tmk_spec _ _ _ _ [TyA sh] (TyA sh)) in H; auto; try discriminate.
    + eapply makes_weaken; [exact G1|exact H|]. simpl. intros rho v (w & Hw & E). exists [w]. split; [constructor; [eapply grows_holds; eauto|constructor]|auto].
    + constructor; [eapply grows_typed; eauto|constructor].
    + intros sh' E y Hy. inv E. inv Hy. exact T1.
  - apply (tmk_spec _ _ _ _ [TyA sh] (TyA sh)) in H; auto; try discriminate.
    + eapply makes_weaken; [apply grows_refl|exact H|]. simpl. intros rho v (w & Hw & E). exists [w]. split; [constructor; [auto|constructor]|auto].
    + constructor; [auto|constructor].
Qed.
Lemma a_bin_spec b x y s0 s1 r s t s' : twf ls s -> typed s x (TyA s0) -> typed s y (TyA s1) -> bin_ty b s0 s1 = Some r ->
  a_bin b x y s = Some (t, s') ->
  makes s t s' (TyA r) (fun rho v => exists w0 w1, holds rho s x w0 /\ holds rho s y w1 /\ tcompute (TBin b) [w0; w1] = Some v).
Proof.
  intros W Hx Hy HB H.
  assert (HT : op_ty (TBin b) [TyA s0; TyA s1] = Some (TyA r)) by (simpl; rewrite HB; reflexivity).
  assert (Hfin : forall sa sh, grows s sa -> twf ls sa -> (forall z, sh = Some z -> typed sa z (TyI (shape_vec r))) ->
    tmk [x; y] sh true (TBin b) sa = Some (t, s') ->
    makes s t s' (TyA r) (fun rho v => exists w0 w1, holds rho s x w0 /\ holds rho s y w1 /\ tcompute (TBin b) [w0; w1] = Some v)).
  { intros sa sh G Wa Hsh Hm. apply (tmk_spec _ _ _ _ [TyA s0; TyA s1] (TyA r)) in Hm; auto; try discriminate.
    - eapply makes_weaken; [exact G|exact Hm|]. simpl. intros rho v (w0 & w1 & A & B & C). exists [w0; w1].
      split; [|exact C]. constructor; [eapply grows_holds; eauto|constructor; [eapply grows_holds; eauto|constructor]].
    - constructor; [eapply grows_typed; eauto|constructor; [eapply grows_typed; eauto|constructor]].
    - intros sh' E z Hz. inv E. auto. }
  assert (HA : arith_ty s0 s1 = Some r ->
    tbind (a_shape_of x) (fun sx => tbind (a_shape_of y) (fun sy =>
      tbind (tmk [sx; sy] None true TInferShape) (fun sh => tmk [x; y] (Some sh) true (TBin b)))) s = Some (t, s') ->
    makes s t s' (TyA r) (fun rho v => exists w0 w1, holds rho s x w0 /\ holds rho s y w1 /\ tcompute (TBin b) [w0; w1] = Some v)).
  { intros HR Hm. apply arith_ty_ok in HR. destruct HR as (_ & HI & _).
    bindH Hm. apply (a_shape_of_spec x s0) in E; auto. destruct E as (W1 & G1 & T1 & _).
    bindH Hm. apply (a_shape_of_spec y s1) in E; auto; [|eapply grows_typed; eauto]. destruct E as (W2 & G2 & T2 & _).
    bindH Hm. apply (tmk_spec _ _ _ _ [TyI (shape_vec s0); TyI (shape_vec s1)] (TyI (shape_vec r))) in E; auto; try discriminate.
    - destruct E as (W3 & G3 & T3 & _). eapply Hfin; [|exact W3| |exact Hm].
      + eapply grows_trans; [exact G1|]. eapply grows_trans; eauto.
      + intros z Hz. inv Hz. exact T3.
    - constructor; [eapply grows_typed; eauto|constructor; [auto|constructor]].
    - unfold op_ty. rewrite !dims_shape_vec, HI. reflexivity. }
  assert (HS : same_ty s0 s1 = Some r ->
    tbind (a_shape_of y) (fun sh => tmk [x; y] (Some sh) true (TBin b)) s = Some (t, s') ->
    makes s t s' (TyA r) (fun rho v => exists w0 w1, holds rho s x w0 /\ holds rho s y w1 /\ tcompute (TBin b) [w0; w1] = Some v)).
  { intros HR Hm. unfold same_ty in HR. destruct (shape_eqb s0 s1) eqn:ES; [|discriminate]. apply shape_eqb_ok in ES. inv HR.
    bindH Hm. apply (a_shape_of_spec y r) in E; auto. destruct E as (W1 & G1 & T1 & _).
    eapply Hfin; [exact G1|exact W1| |exact Hm]. intros z Hz. inv Hz. exact T1. }
  destruct b; simpl in HB; unfold a_bin in H; try (apply HA; auto; fail); try (apply HS; auto; fail);
    try (apply (Hfin s None); [apply grows_refl|exact W|discriminate|exact H]).
  destruct (shape_eqb s1 [1%nat]); [discriminate|]. apply HA; auto.
Qed.
Lemma a_add_n_spec l sh s t s' : twf ls s -> List.Forall (fun x => typed s x (TyA sh)) l -> a_add_n l s = Some (t, s') ->
  makes s t s' (TyA sh) (fun rho v => exists w, holdsl rho s l (map TA w) /\ tcompute TAddN (map TA w) = Some v).
Proof.
  intros W HF H. unfold a_add_n in H. destruct l as [|x l]; [discriminate|]. bindH H.
  pose proof (Forall_inv HF) as Hx. apply (a_shape_of_spec x sh) in E; auto. destruct E as (W1 & G1 & T1 & V1).
  apply (tmk_spec _ _ _ _ (map (fun _ => TyA sh) (x :: l)) (TyA sh)) in H; auto; try discriminate.
  - eapply makes_weaken; [exact G1|exact H|]. simpl. intros rho v (w & Hw & E). exists (map TA w). split; [eapply grows_holdsl; eauto|auto].
  - eapply grows_typedl; eauto. clear -HF. induction HF; simpl; constructor; auto.
  - unfold op_ty. simpl map. cbv iota. replace (forallb _ (map (fun _ : nat => TyA sh) l)) with true; [reflexivity|]. symmetry.
    clear. induction l; simpl; auto. rewrite (proj2 (shape_eqb_ok sh sh) eq_refl). exact IHl.
  - intros sh' E y Hy. inv E. inv Hy. exact T1.
Qed.

(** ** Rule expressions *)
Definition stored_ok (ts : list ty) (m : smode) (tlast t : ty) : bool :=
  match m, t with
  | SNone, _ | _, TyI _ => true
  | SOfIn i, TyA sh => match nth_error ts i with Some (TyA sh') => shape_eqb sh' sh | _ => false end
  | SLast, TyA sh => match tlast with TyI l => if list_eq_dec Z.eq_dec l (shape_vec sh) then true else false | _ => false end
  end.
(** [SOfIn i] needs input [i] to be an array. *)
Definition stored_in (ts : list ty) (m : smode) : bool :=
  match m with SOfIn i => match nth_error ts i with Some (TyA _) => true | _ => false end | _ => true end.
Definition is_leaf (o : top) : bool := match o with TLeaf => true | _ => false end.
Definition ety_op (ts : list ty) (o : top) (m : smode) (args : list ty) (tlast : ty) : option ty :=
  match op_ty o args with
  | Some t => if negb (is_leaf o) && stored_in ts m && stored_ok ts m tlast t then Some t else None
  | None => None
  end.
Fixpoint ety (ts : list ty) (tout tgy : ty) (env : list ty) (e : expr) : option ty :=
  match e with
  | EGy => Some tgy
  | EIn i => nth_error ts i
  | EOut => Some tout
  | EVar k => nth_error env k
  | EShape i => match nth_error ts i with Some (TyA sh) => Some (TyI (shape_vec sh)) | _ => None end
  | EScalar _ => Some (TyA [])
  | EInts l => Some (TyI l)
  | EUn u e => match ety ts tout tgy env e with Some t => op_ty (TUn u) [t] | None => None end
  | EBin b e1 e2 => match ety ts tout tgy env e1, ety ts tout tgy env e2 with
                    | Some t1, Some t2 => op_ty (TBin b) [t1; t2] | _, _ => None end
  | EOp1 o m e => match ety ts tout tgy env e with Some t => ety_op ts o m [t] t | None => None end
  | EOp2 o m e1 e2 => match ety ts tout tgy env e1, ety ts tout tgy env e2 with
                      | Some t1, Some t2 => ety_op ts o m [t1; t2] t2 | _, _ => None end
  | EOp3 o m e1 e2 e3 => match ety ts tout tgy env e1, ety ts tout tgy env e2, ety ts tout tgy env e3 with
                         | Some t1, Some t2, Some t3 => ety_op ts o m [t1; t2; t3] t3 | _, _, _ => None end
  | ELet e body => match ety ts tout tgy env e with Some t => ety ts tout tgy (t :: env) body | None => None end
  end.
Fixpoint eeval (vs : list tv) (vo vg : tv) (env : list tv) (e : expr) : option tv :=
  match e with
  | EGy => Some vg
  | EIn i => nth_error vs i
  | EOut => Some vo
  | EVar k => nth_error env k
  | EShape i => match nth_error vs i with Some (TA a) => Some (TI (shape_vec (a_shape a))) | _ => None end
  | EScalar r => Some (TA (Arr [] [r]))
  | EInts l => Some (TI l)
  | EUn u e => match eeval vs vo vg env e with Some v => tcompute (TUn u) [v] | None => None end
  | EBin b e1 e2 => match eeval vs vo vg env e1, eeval vs vo vg env e2 with
                    | Some v1, Some v2 => tcompute (TBin b) [v1; v2] | _, _ => None end
  | EOp1 o m e => match eeval vs vo vg env e with Some v => tcompute o [v] | None => None end
  | EOp2 o m e1 e2 => match eeval vs vo vg env e1, eeval vs vo vg env e2 with
                      | Some v1, Some v2 => tcompute o [v1; v2] | _, _ => None end
  | EOp3 o m e1 e2 e3 => match eeval vs vo vg env e1, eeval vs vo vg env e2, eeval vs vo vg env e3 with
                         | Some v1, Some v2, Some v3 => tcompute o [v1; v2; v3] | _, _, _ => None end
  | ELet e body => match eeval vs vo vg env e with Some v => eeval vs vo vg (v :: env) body | None => None end
  end.

Lemma ety_op_inv ts o m args tl t : ety_op ts o m args tl = Some t ->
  op_ty o args = Some t /\ o <> TLeaf /\ stored_in ts m = true /\ stored_ok ts m tl t = true.
Proof.
  unfold ety_op. destruct (op_ty o args) as [t'|]; [|discriminate].
  destruct (negb (is_leaf o)) eqn:A; [|discriminate]. destruct (stored_in ts m) eqn:B; [|discriminate].
  destruct (stored_ok ts m tl t') eqn:C; [|discriminate]. intros H. inv H. repeat split; auto. intros ->. discriminate.
Qed.

Lemma ety_sound ts vs tout vo tgy vg : Forall2 has_ty vs ts -> has_ty vo tout -> has_ty vg tgy ->
  forall e env ve t, Forall2 has_ty ve env -> ety ts tout tgy env e = Some t ->
    exists v, eeval vs vo vg ve e = Some v /\ has_ty v t.
Proof.
  intros HI HO HG. induction e; intros env ve t HE H; cbn [ety eeval] in H |- *.
  - inv H. eauto.
  - destruct (Forall2_nth2 _ _ _ _ _ HI H) as (v & Hv & Ht). eauto.
  - inv H. eauto.
  - destruct (Forall2_nth2 _ _ _ _ _ HE H) as (v & Hv & Ht). eauto.
  - destruct (nth_error ts i) as [[sh|]|] eqn:E; try discriminate. inv H.
    destruct (Forall2_nth2 _ _ _ _ _ HI E) as (v & Hv & Ht). rewrite Hv. apply has_tyA in Ht. destruct Ht as (a & -> & Ha).
    eexists. split; [reflexivity|]. simpl. rewrite (hs_sh _ _ Ha). reflexivity.
  - inv H. eexists. split; [reflexivity|]. simpl. auto.
  - inv H. eexists. split; reflexivity.
  - destruct (ety ts tout tgy env e) as [t1|] eqn:E; [|discriminate]. destruct (IHe _ _ _ HE E) as (v & Hv & Ht). rewrite Hv.
    apply (op_ty_sound (TUn u) [t1]); auto; discriminate.
  - destruct (ety ts tout tgy env e1) as [t1|] eqn:E1; [|discriminate]. destruct (ety ts tout tgy env e2) as [t2|] eqn:E2; [|discriminate].
    destruct (IHe1 _ _ _ HE E1) as (v1 & Hv1 & Ht1). destruct (IHe2 _ _ _ HE E2) as (v2 & Hv2 & Ht2). rewrite Hv1, Hv2.
    apply (op_ty_sound (TBin b) [t1; t2]); auto; discriminate.
  - destruct (ety ts tout tgy env e) as [t1|] eqn:E; [|discriminate]. destruct (IHe _ _ _ HE E) as (v & Hv & Ht). rewrite Hv.
    apply ety_op_inv in H. destruct H as (H & Ho & _). apply (op_ty_sound o [t1]); auto.
  - destruct (ety ts tout tgy env e1) as [t1|] eqn:E1; [|discriminate]. destruct (ety ts tout tgy env e2) as [t2|] eqn:E2; [|discriminate].
    destruct (IHe1 _ _ _ HE E1) as (v1 & Hv1 & Ht1). destruct (IHe2 _ _ _ HE E2) as (v2 & Hv2 & Ht2). rewrite Hv1, Hv2.
    apply ety_op_inv in H. destruct H as (H & Ho & _). apply (op_ty_sound o [t1; t2]); auto.
  - destruct (ety ts tout tgy env e1) as [t1|] eqn:E1; [|discriminate]. destruct (ety ts tout tgy env e2) as [t2|] eqn:E2; [|discriminate].
    destruct (ety ts tout tgy env e3) as [t3|] eqn:E3; [|discriminate].
    destruct (IHe1 _ _ _ HE E1) as (v1 & Hv1 & Ht1). destruct (IHe2 _ _ _ HE E2) as (v2 & Hv2 & Ht2). destruct (IHe3 _ _ _ HE E3) as (v3 & Hv3 & Ht3).
    rewrite Hv1, Hv2, Hv3. apply ety_op_inv in H. destruct H as (H & Ho & _). apply (op_ty_sound o [t1; t2; t3]); auto.
  - destruct (ety ts tout tgy env e1) as [t1|] eqn:E1; [|discriminate]. destruct (IHe1 _ _ _ HE E1) as (v1 & Hv1 & Ht1). rewrite Hv1.
    apply (IHe2 (t1 :: env) (v1 :: ve)); auto.
Qed.

(** The stored shape of a tensor created by a rule. *)
Lemma stored_spec ins ts m last tlast t s sh s' : twf ls s -> typedl s ins ts -> typed s last tlast ->
  stored_in ts m = true -> stored_ok ts m tlast t = true -> stored ins m last s = Some (sh, s') ->
  twf ls s' /\ grows s s' /\ (forall sh', t = TyA sh' -> forall x, sh = Some x -> typed s' x (TyI (shape_vec sh'))).
Proof.
  intros W HI HL Hin Hok H. destruct m as [|i|]; simpl in H.
  - inv H. split; [auto|]. split; [apply grows_refl|]. discriminate.
  - simpl in Hin. destruct (nth_error ins i) as [x|] eqn:Ei; [|discriminate]. bindH H. inv H.
    destruct (Forall2_nth _ _ _ _ _ HI Ei) as (ty & Hty & Hx). rewrite Hty in Hin. destruct ty as [s0|]; [|discriminate].
    apply (a_shape_of_spec x s0) in E; auto. destruct E as (W1 & G1 & T1 & _). split; [auto|]. split; [auto|].
    intros sh' -> y Hy. inv Hy. simpl in Hok. rewrite Hty in Hok. apply shape_eqb_ok in Hok. subst s0. exact T1.
  - inv H. split; [auto|]. split; [apply grows_refl|]. intros sh' -> y Hy. inv Hy. simpl in Hok. destruct tlast as [|l]; [discriminate|].
    destruct (list_eq_dec Z.eq_dec l (shape_vec sh')) as [->|]; [|discriminate]. exact HL.
Qed.

Definition evals (ins : list nat) (out gy : nat) (env : list nat) (s : tgraph) (e : expr) (rho : nat -> arr R) (v : tv) : Prop :=
  conform ls rho /\ exists vs vo vg ve, holdsl rho s ins vs /\ holds rho s out vo /\ holds rho s gy vg /\ holdsl rho s env ve /\
    eeval vs vo vg ve e = Some v.

Lemma build_expr_spec ins ts out gy tout tgy : forall e env tenv s t s' ty,
  twf ls s -> typedl s ins ts -> typed s out tout -> typed s gy tgy -> typedl s env tenv ->
  ety ts tout tgy tenv e = Some ty -> build_expr ins out gy env e s = Some (t, s') ->
  makes s t s' ty (evals ins out gy env s e).
Proof.
  assert (HEV : forall s s1 env e rho v, grows s s1 -> evals ins out gy env s e rho v -> evals ins out gy env s1 e rho v).
  { intros s s1 env e rho v G (HC & vs & vo & vg & ve & A & B & C & D & E). split; [exact HC|]. exists vs, vo, vg, ve.
    repeat split; eauto using grows_holds, grows_holdsl. }
  induction e; intros env tenv s t s' ty W HI HO HG HE Hty H; cbn [build_expr ety] in *.
  - inv H. inv Hty. eapply makes_weaken; [apply grows_refl|apply makes_id; eauto|].
    intros rho v (HC & vs & vo & vg & ve & A & B & C & D & E). simpl in E. inv E. exact C.
  - destruct (nth_error ins i) as [x|] eqn:Ei; [|discriminate]. inv H.
    destruct (Forall2_nth _ _ _ _ _ HI Ei) as (ty' & Hty' & Hx). assert (ty' = ty) by congruence. subst ty'.
    eapply makes_weaken; [apply grows_refl|apply makes_id; eauto|].
    intros rho v (HC & vs & vo & vg & ve & A & B & C & D & E). simpl in E.
    destruct (Forall2_nth _ _ _ _ _ A Ei) as (v' & Hv' & Hh). assert (v' = v) by congruence. subst. exact Hh.
  - inv H. inv Hty. eapply makes_weaken; [apply grows_refl|apply makes_id; eauto|].
    intros rho v (HC & vs & vo & vg & ve & A & B & C & D & E). simpl in E. inv E. exact B.
  - destruct (nth_error env k) as [x|] eqn:Ei; [|discriminate]. inv H.
    destruct (Forall2_nth _ _ _ _ _ HE Ei) as (ty' & Hty' & Hx). assert (ty' = ty) by congruence. subst ty'.
    eapply makes_weaken; [apply grows_refl|apply makes_id; eauto|].
    intros rho v (HC & vs & vo & vg & ve & A & B & C & D & E). simpl in E.
    destruct (Forall2_nth _ _ _ _ _ D Ei) as (v' & Hv' & Hh). assert (v' = v) by congruence. subst. exact Hh.
  - destruct (nth_error ins i) as [x|] eqn:Ei; [|discriminate].
    destruct (Forall2_nth _ _ _ _ _ HI Ei) as (ty' & Hty' & Hx). rewrite Hty' in Hty. destruct ty' as [sh|]; [|discriminate]. inv Hty.
    apply (a_shape_of_spec x sh) in H; auto. eapply makes_weaken; [apply grows_refl|exact H|].
    intros rho v (HC & vs & vo & vg & ve & A & B & C & D & E). simpl in E.
    destruct (Forall2_nth _ _ _ _ _ A Ei) as (v' & Hv' & Hh). rewrite Hv' in E.
    destruct (typed_aval rho s x sh HC Hx) as [Hv Hs]. pose proof (holds_fun _ _ _ _ _ Hh Hv). subst v'. inv E.
    rewrite (hs_sh _ _ Hs). auto.
  - inv Hty. apply a_scalar_spec in H; auto. eapply makes_weaken; [apply grows_refl|exact H|].
    intros rho v (HC & vs & vo & vg & ve & A & B & C & D & E). simpl in E. inv E. reflexivity.
  - inv Hty. apply a_ints_spec in H; auto. eapply makes_weaken; [apply grows_refl|exact H|].
    intros rho v (HC & vs & vo & vg & ve & A & B & C & D & E). simpl in E. inv E. reflexivity.
  - destruct (ety ts tout tgy tenv e) as [t1|] eqn:Et; [|discriminate].
    bindH H. apply (IHe env tenv _ _ _ t1) in E; auto. destruct E as (W1 & G1 & T1 & V1).
    destruct t1 as [sh|]; [|discriminate]. simpl in Hty. inv Hty.
    apply (a_un_spec u _ sh) in H; auto. eapply makes_weaken; [exact G1|exact H|].
    intros rho v (HC & vs & vo & vg & ve & A & B & C & D & E). simpl in E.
    destruct (eeval vs vo vg ve e) as [w|] eqn:Ew; [|discriminate]. exists w. split; [|exact E].
    apply V1. split; [exact HC|]. exists vs, vo, vg, ve. auto.
  - destruct (ety ts tout tgy tenv e1) as [t1|] eqn:Et1; [|discriminate]. destruct (ety ts tout tgy tenv e2) as [t2|] eqn:Et2; [|discriminate].
    bindH H. apply (IHe1 env tenv _ _ _ t1) in E; auto. destruct E as (W1 & G1 & T1 & V1).
    bindH H. apply (IHe2 env tenv _ _ _ t2) in E; eauto using grows_typed, grows_typedl. destruct E as (W2 & G2 & T2 & V2).
    simpl in Hty. destruct t1 as [sh1|]; [|discriminate]. destruct t2 as [sh2|]; [|discriminate].
    destruct (bin_ty b sh1 sh2) as [r|] eqn:EB; [|discriminate]. inv Hty.
    apply (a_bin_spec b _ _ sh1 sh2 r) in H; eauto using grows_typed. eapply makes_weaken; [eapply grows_trans; eauto|exact H|].
    intros rho v HEv. destruct HEv as (HC & vs & vo & vg & ve & A & B & C & D & E). simpl in E.
    destruct (eeval vs vo vg ve e1) as [w1|] eqn:Ew1; [|discriminate]. destruct (eeval vs vo vg ve e2) as [w2|] eqn:Ew2; [|discriminate].
    exists w1, w2. split; [|split; [|exact E]].
    + eapply grows_holds; [exact G2|]. apply V1. split; [exact HC|]. exists vs, vo, vg, ve. auto.
    + apply V2. apply (HEV s); auto. split; [exact HC|]. exists vs, vo, vg, ve. auto.
  - destruct (ety ts tout tgy tenv e) as [t1|] eqn:Et; [|discriminate]. apply ety_op_inv in Hty. destruct Hty as (Hty & Ho & Si & So).
    bindH H. apply (IHe env tenv _ _ _ t1) in E; auto. destruct E as (W1 & G1 & T1 & V1).
    bindH H. apply (stored_spec ins ts m _ t1 ty) in E; eauto using grows_typedl. destruct E as (W2 & G2 & S2).
    apply (tmk_spec _ _ _ _ [t1] ty) in H; auto.
    + eapply makes_weaken; [eapply grows_trans; eauto|exact H|]. intros rho v HEv. destruct HEv as (HC & vs & vo & vg & ve & A & B & C & D & E). simpl in E.
      destruct (eeval vs vo vg ve e) as [w|] eqn:Ew; [|discriminate]. exists [w]. split; [|exact E].
      constructor; [|constructor]. eapply grows_holds; [exact G2|]. apply V1. split; [exact HC|]. exists vs, vo, vg, ve. auto.
    + constructor; [eauto using grows_typed|constructor].
  - destruct (ety ts tout tgy tenv e1) as [t1|] eqn:Et1; [|discriminate]. destruct (ety ts tout tgy tenv e2) as [t2|] eqn:Et2; [|discriminate].
    apply ety_op_inv in Hty. destruct Hty as (Hty & Ho & Si & So).
    bindH H. apply (IHe1 env tenv _ _ _ t1) in E; auto. destruct E as (W1 & G1 & T1 & V1).
    bindH H. apply (IHe2 env tenv _ _ _ t2) in E; eauto using grows_typed, grows_typedl. destruct E as (W2 & G2 & T2 & V2).
    bindH H. apply (stored_spec ins ts m _ t2 ty) in E; eauto using grows_typedl. destruct E as (W3 & G3 & S3).
    apply (tmk_spec _ _ _ _ [t1; t2] ty) in H; auto.
    + eapply makes_weaken; [eapply grows_trans; [exact G1|]; eapply grows_trans; eauto|exact H|].
      intros rho v HEv. destruct HEv as (HC & vs & vo & vg & ve & A & B & C & D & E). simpl in E.
      destruct (eeval vs vo vg ve e1) as [w1|] eqn:Ew1; [|discriminate]. destruct (eeval vs vo vg ve e2) as [w2|] eqn:Ew2; [|discriminate].
      exists [w1; w2]. split; [|exact E]. constructor; [|constructor; [|constructor]].
      * eapply grows_holds; [eapply grows_trans; [exact G2|exact G3]|]. apply V1. split; [exact HC|]. exists vs, vo, vg, ve. auto.
      * eapply grows_holds; [exact G3|]. apply V2. apply (HEV s); auto. split; [exact HC|]. exists vs, vo, vg, ve. auto.
    + constructor; [|constructor; [|constructor]]; eauto using grows_typed, grows_trans.
  - destruct (ety ts tout tgy tenv e1) as [t1|] eqn:Et1; [|discriminate]. destruct (ety ts tout tgy tenv e2) as [t2|] eqn:Et2; [|discriminate].
    destruct (ety ts tout tgy tenv e3) as [t3|] eqn:Et3; [|discriminate].
    apply ety_op_inv in Hty. destruct Hty as (Hty & Ho & Si & So).
    bindH H. apply (IHe1 env tenv _ _ _ t1) in E; auto. destruct E as (W1 & G1 & T1 & V1).
    bindH H. apply (IHe2 env tenv _ _ _ t2) in E; eauto using grows_typed, grows_typedl. destruct E as (W2 & G2 & T2 & V2).
    assert (G12 : grows s s1) by (eapply grows_trans; eauto).
    bindH H. apply (IHe3 env tenv _ _ _ t3) in E; eauto using grows_typed, grows_typedl. destruct E as (W3 & G3 & T3 & V3).
    assert (G13 : grows s s2) by (eapply grows_trans; eauto).
    bindH H. apply (stored_spec ins ts m _ t3 ty) in E; eauto using grows_typedl. destruct E as (W4 & G4 & S4).
    apply (tmk_spec _ _ _ _ [t1; t2; t3] ty) in H; auto.
    + eapply makes_weaken; [eapply grows_trans; eauto|exact H|].
      intros rho v HEv. destruct HEv as (HC & vs & vo & vg & ve & A & B & C & D & E). simpl in E.
      destruct (eeval vs vo vg ve e1) as [w1|] eqn:Ew1; [|discriminate]. destruct (eeval vs vo vg ve e2) as [w2|] eqn:Ew2; [|discriminate].
      destruct (eeval vs vo vg ve e3) as [w3|] eqn:Ew3; [|discriminate].
      exists [w1; w2; w3]. split; [|exact E]. constructor; [|constructor; [|constructor; [|constructor]]].
      * eapply grows_holds; [eapply grows_trans; [exact G2|]; eapply grows_trans; [exact G3|exact G4]|]. apply V1. split; [exact HC|]. exists vs, vo, vg, ve. auto.
      * eapply grows_holds; [eapply grows_trans; [exact G3|exact G4]|]. apply V2. apply (HEV s); auto. split; [exact HC|]. exists vs, vo, vg, ve. auto.
      * eapply grows_holds; [exact G4|]. apply V3. apply (HEV s); auto. split; [exact HC|]. exists vs, vo, vg, ve. auto.
    + constructor; [|constructor; [|constructor; [|constructor]]]; eauto using grows_typed.
  - destruct (ety ts tout tgy tenv e1) as [t1|] eqn:Et1; [|discriminate].
    bindH H. apply (IHe1 env tenv _ _ _ t1) in E; auto. destruct E as (W1 & G1 & T1 & V1).
    apply (IHe2 _ (t1 :: tenv) _ _ _ ty) in H; eauto using grows_typed, grows_typedl.
    + eapply makes_weaken; [exact G1|exact H|]. intros rho v HEv. destruct HEv as (HC & vs & vo & vg & ve & A & B & C & D & E). simpl in E.
      destruct (eeval vs vo vg ve e1) as [w1|] eqn:Ew1; [|discriminate]. split; [exact HC|]. exists vs, vo, vg, (w1 :: ve).
      repeat split; eauto using grows_holds, grows_holdsl. constructor; [|eapply grows_holdsl; eauto].
      apply V1. split; [exact HC|]. exists vs, vo, vg, ve. auto.
    + constructor; [auto|apply (grows_typedl s); auto].
Qed.

Lemma build_exprs_spec ins ts out gy tout tgy : forall rs s l s',
  twf ls s -> typedl s ins ts -> typed s out tout -> typed s gy tgy ->
  (forall p e, nth_error rs p = Some (Some e) -> exists ty, ety ts tout tgy [] e = Some ty) ->
  build_exprs ins out gy rs s = Some (l, s') ->
  twf ls s' /\ grows s s' /\ length l = length rs /\
  forall p, match nth_error rs p with
            | Some (Some e) => exists t ty, nth_error l p = Some (Some t) /\ ety ts tout tgy [] e = Some ty /\ typed s' t ty /\
                forall rho v, evals ins out gy [] s e rho v -> holds rho s' t v
            | Some None => nth_error l p = Some None
            | None => nth_error l p = None
            end.
Proof.
  induction rs as [|[e|] rs IH]; intros s l s' W HI HO HG HR H; cbn [build_exprs] in H.
  - inv H. split; auto. split; [apply grows_refl|]. split; auto. intros [|p]; reflexivity.
  - bindH H. destruct (HR 0%nat e eq_refl) as (ty & Hty).
    apply (build_expr_spec ins ts out gy tout tgy e [] [] _ _ _ ty) in E; auto; [|constructor]. destruct E as (W1 & G1 & T1 & V1).
    bindH H. inv H. apply IH in E; eauto using grows_typed, grows_typedl.
    + destruct E as (W2 & G2 & L2 & P2). split; auto. split; [eauto using grows_trans|]. split; [simpl; auto|].
      intros [|p]; simpl.
      * exists t, ty. split; auto. split; auto. split; [eauto using grows_typed|]. intros rho v Hv. eapply grows_holds; eauto.
      * specialize (P2 p). destruct (nth_error rs p) as [[e'|]|] eqn:Er; auto.
        destruct P2 as (t' & ty' & A & B & C & D). exists t', ty'. split; auto. split; auto. split; auto. intros rho v HEv. apply D.
        destruct HEv as (HC & vs & vo & vg & ve & A1 & B1 & C1 & D1 & E1). split; [exact HC|]. exists vs, vo, vg, ve.
        repeat split; eauto using grows_holds, grows_holdsl.
    + intros p e' Hp. apply (HR (S p) e' Hp).
  - bindH H. inv H. apply IH in E; auto.
    + destruct E as (W2 & G2 & L2 & P2). split; auto. split; auto. split; [simpl; auto|].
      intros [|p]; simpl; auto. apply P2.
    + intros p e' Hp. apply (HR (S p) e' Hp).
Qed.
End Build.
