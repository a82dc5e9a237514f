(** Reading outputs of operations with several, in graphs of any operations. *)
From Coq Require Import List Arith Bool Lia.
Import ListNotations.
From Verif Require Import Graph_Model Graph_Proofs Eval_Model Eval_Spec Eval_Proofs Eval_Proofs2 Scalar_Model.

Section Reads.
  Context {Op V Err : Type}.
  Variable shape : V -> list nat.
  Variable compute : Op -> list (opin V) -> cout V Err.
  Variable debug : bool.
  Variable g : graph Op.
  Variable feeds : list (ph_key * V).
  Variable env : list V.
  Notation arg := (arg shape compute debug g feeds env).
  Notation value := (value shape compute debug g feeds env).
  Notation tensor_value := (tensor_value shape compute debug g feeds env).
  Hypothesis Hvp : forall i n, nth_error g i = Some n -> n_var n <> None -> n_ph n = None.

  (** Input [inc] reads [v]. *)
  Definition reads (inc : incoming) (v : V) : Prop := exists b, arg inc b /\ opin_val b = v.

  Lemma reads_first x v : tensor_value x (inl v) -> reads (Incoming x false 0) v.
  Proof.
    intros T. inversion T as [n vid v' H1 H2 H3|n v' H1 H2 H3|y ys H1|]; subst.
    - exists (RdOnly v). split; [|reflexivity].
      apply (arg_var shape compute debug g feeds env (Incoming x false 0) n vid v); auto. apply (Hvp x); congruence.
    - exists (NonVar v). split; [|reflexivity]. eapply arg_ph; eauto.
    - exists (NonVar v). split; [|reflexivity]. assert (exists m, op_node g x m) as (m & Hm) by (inversion H1; subst; eauto).
      apply (arg_op shape compute debug g feeds env (Incoming x false 0) m (v :: ys) v); auto.
  Qed.
  Lemma reads_all incs vs : Forall2 reads incs vs -> exists bs, Forall2 arg incs bs /\ map opin_val bs = vs.
  Proof.
    intros F. induction F as [|inc v incs vs (b & A & E) F (bs & As & Es)]; [exists []; split; [constructor|reflexivity]|].
    exists (b :: bs). split; [constructor; assumption|]. cbn. congruence.
  Qed.
  Lemma runs t n vs ys : op_node g t n -> Forall2 reads (n_inputs n) vs ->
    (forall bs, map opin_val bs = vs -> compute (n_op n) bs = CRet [] ys None) -> ys <> [] -> value t (inl ys).
  Proof.
    intros Hn F C N. apply reads_all in F. destruct F as (bs & A & B).
    apply (value_run shape compute debug g feeds env t n bs [] ys None); [exact Hn|exact A|apply C; exact B|auto].
  Qed.
  Lemma first_of t y ys : value t (inl (y :: ys)) -> tensor_value t (inl y).
  Proof. apply tv_ok. Qed.
  Lemma node_op t n m : op_node g t n -> nth_error g t = Some m -> n = m.
  Proof. intros (A & _) B. congruence. Qed.
  Lemma reads_output x m inc v : op_node g x m -> in_id inc = x ->
    reads inc v <-> exists ys, value x (inl ys) /\ nth_error ys (in_sel inc) = Some v.
  Proof.
    intros Hm E. split.
    - intros (b & A & <-). inversion A as [i n w H1 H2|i n vid w H1 H2 H3 H4|i n ys w H1 H2 H3]; subst.
      + exfalso. destruct Hm as (X1 & X2 & X3). destruct H2 as (nm & pre & k & post & dec & Q & _). congruence.
      + exfalso. destruct Hm as (X1 & X2 & X3). congruence.
      + exists ys. split; assumption.
    - intros (ys & H & N). exists (NonVar v). split; [|reflexivity]. subst x. eapply arg_op; eauto.
  Qed.
  (** Two ways of reading an input agree. *)
  Lemma reads_fun inc v b : reads inc v -> arg inc b -> opin_val b = v.
  Proof.
    intros (c & A & <-) B.
    assert (S : forall b, arg inc b -> (exists n, nth_error g (in_id inc) = Some n /\
        ((exists m, op_node g (in_id inc) m /\ exists ys, value (in_id inc) (inl ys) /\ nth_error ys (in_sel inc) = Some (opin_val b)) \/
         (~ op_node g (in_id inc) n /\ tensor_value (in_id inc) (inl (opin_val b)))))).
    { clear b B. intros b B. inversion B as [i n w H1 H2|i n vid w H1 H2 H3 H4|i n ys w H1 H2 H3]; subst.
      - exists n. split; [exact H1|]. right. split.
        + intros (X1 & X2 & X3). destruct H2 as (nm & pre & k & post & dec & Q & _). congruence.
        + eapply tv_ph; eauto. destruct (n_var n) eqn:Ev; [|reflexivity]. exfalso.
          assert (n_ph n = None) by (apply (Hvp (in_id inc)); [exact H1|congruence]).
          destruct H2 as (nm & pre & k & post & dec & Q & _). congruence.
      - exists n. split; [exact H1|]. right. split.
        + intros (X1 & X2 & X3). congruence.
        + destruct (in_mut inc); eapply tv_var; eauto.
      - destruct H1 as (X1 & X2 & X3). exists n. split; [exact X1|]. left. exists n. split; [split; auto|]. exists ys. split; assumption. }
    destruct (S b B) as (n & Hn & P). destruct (S c A) as (n' & Hn' & P'). assert (n' = n) by congruence. subst n'.
    destruct P as [(m & Hm & ys & Hy & E)|(Nm & T)]; destruct P' as [(m' & Hm' & ys' & Hy' & E')|(Nm' & T')].
    - assert (Q : inl ys = inl ys' :> list V + Err) by (eapply value_fun; eauto). injection Q as <-. congruence.
    - destruct Nm'. rewrite <- (node_op _ _ _ Hm Hn). exact Hm.
    - destruct Nm. rewrite <- (node_op _ _ _ Hm' Hn). exact Hm'.
    - pose proof (tensor_value_fun _ _ _ _ _ _ _ _ _ T T') as Q. congruence.
  Qed.
  Lemma reads_all_fun incs vs bs : Forall2 reads incs vs -> Forall2 arg incs bs -> map opin_val bs = vs.
  Proof.
    intros F. revert bs. induction F as [|inc v incs vs R F IH]; intros bs B; inversion B; subst; [reflexivity|].
    cbn. erewrite reads_fun, IH; eauto.
  Qed.
  Lemma reads_no_failure inc m v e : op_node g (in_id inc) m -> reads inc v -> ~ value (in_id inc) (inr e).
  Proof.
    intros Hm R W. apply (reads_output (in_id inc) m inc v Hm eq_refl) in R. destruct R as (ys & H & _).
    assert (Q : inl ys = inr e :> list V + Err) by (eapply value_fun; eauto). discriminate.
  Qed.
  (** An operation that panics on what its inputs read has no value. *)
  Lemma stuck t n vs r : op_node g t n -> Forall2 reads (n_inputs n) vs ->
    (forall bs, map opin_val bs = vs -> compute (n_op n) bs = CPanic) -> ~ value t r.
  Proof.
    intros Hn F C W. inversion W as [i n' bs ws ys st Hn' A Hc Hd E1 E2|i n' pre inc post m e Hn' Hin Hp Hm He E1 E2]; subst.
    - assert (n' = n) by (destruct Hn', Hn; congruence). subst n'.
      rewrite (C bs (reads_all_fun _ _ _ F A)) in Hc. discriminate.
    - assert (n' = n) by (destruct Hn', Hn; congruence). subst n'. rewrite Hin in F.
      apply Forall2_app_inv_l in F. destruct F as (u & w & _ & F & _). inversion F; subst.
      eapply reads_no_failure; eauto.
  Qed.
  Lemma op_tensor_value t n r : op_node g t n -> tensor_value t r ->
    match r with inl v => exists ys, value t (inl (v :: ys)) | inr e => value t (inr e) end.
  Proof.
    intros (A & B & C) T. inversion T as [n' vid v' H1 H2 H3|n' v' H1 H2 H3|y ys H1|]; subst; try congruence.
    - destruct H3 as (nm & pre & k & post & dec & Q & _). congruence.
    - exists ys. exact H1.
  Qed.
End Reads.

Lemma built_node {Op} (g g' : graph Op) b t o : b_ph b = None -> b_var b = None -> build g b o = Some (g', t) ->
  t = length g /\ exists n, g' = g ++ [n] /\ op_node g' t n /\ n_op n = o /\ n_inputs n = b_inputs b.
Proof.
  intros P V B. apply build_spec in B. destruct B as (-> & _ & ->). split; [reflexivity|].
  eexists. split; [reflexivity|]. repeat split; try reflexivity; try assumption. rewrite nth_error_app2, Nat.sub_diag by lia. reflexivity.
Qed.
Lemma op_node_app {O} (g h : graph O) i n : op_node g i n -> op_node (g ++ h) i n.
Proof. intros (A & B & C). split; [|split; assumption]. rewrite nth_error_app1; [exact A|]. apply nth_error_Some. congruence. Qed.
