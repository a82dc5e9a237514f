(** C80: the accuracy of a classifier. *)
From Coq Require Import String List Arith ZArith NArith Bool Reals Lia Lra.
Import ListNotations.
From Verif Require Import Graph_Model Eval_Model Eval_Spec Eval_Proofs Eval_Proofs2 Graph_Proofs Scalar_Model.
From Verif Require Import Array_Model Array_Proofs Array_Sum Arith_Model Arith_Proofs Vjp_Spec Vjp_Proofs
  Reduce_Model Reduce_Spec Reduce_Proofs Mean_Model Shape_Spec Softmax_Model Softmax_Spec Softmax_Proofs Softmax_Xent P_Softmax
  Tens_Model Tens_Spec Tens_Fwd Tens_Fwd2 Comp_Spec Comp_Proofs Num_Model Num_Proofs.
From Verif Require Argx_Model Argx_Proofs P_Argx.
From Verif Require Import Acc_Model.
Local Set Bullet Behavior "Strict Subproofs".
Local Open Scope R_scope.

(** ** What the accuracy is *)
(** Row [i] of the scores [z] is classified as the label [y] says: the label is the
    position of the first largest score. *)
Definition classified (c : nat) (z y : arr R) (i : nat) : Prop :=
  exists k, Argx_Proofs.first_max (fun k => rget z [i; k]) c k /\ rget y [i; 0%nat] = INR k.

Lemma Forall2_in_l {A B} (P : A -> B -> Prop) l l' x : Forall2 P l l' -> In x l -> exists y, In y l' /\ P x y.
Proof.
  intros F. induction F as [|a b l l' H F IH]; intros I; [destruct I|].
  destruct I as [<-|I]; [exists b; split; [left; reflexivity|exact H]|]. destruct (IH I) as (y & J & Q). exists y. split; [right; exact J|exact Q].
Qed.
Section AccGraph.
  Context {Op Err : Type}.
  Variable other : Op -> list (opin (arr R)) -> cout (arr R) Err.
  Variable debug : bool.
  Variable g : graph (aop Op).
  Variable feeds : list (ph_key * arr R).
  Notation ac := (acc_compute other).
  Notation arg := (arg (@a_shape R) ac debug g feeds).
  Notation tensor_value := (tensor_value (@a_shape R) ac debug g feeds).
  Hypothesis Hvp : forall i n, nth_error g i = Some n -> n_var n <> None -> n_ph n = None.

  Lemma acc_read env x v : tensor_value env x (inl v) -> exists b, arg env (Incoming x false 0) b /\ opin_val b = v.
  Proof.
    intros T. inversion T as [n vid v' H1 H2 H3|n v' H1 H2 H3|y ys H1|]; subst.
    - exists (RdOnly v). split; [|reflexivity].
      apply (arg_var (@a_shape R) ac debug g feeds env (Incoming x false 0) n vid v); auto. apply (Hvp x); congruence.
    - exists (NonVar v). split; [|reflexivity]. eapply arg_ph; eauto.
    - exists (NonVar v). split; [|reflexivity]. assert (exists m, op_node g x m) as (m & Hm) by (inversion H1; subst; eauto).
      apply (arg_op (@a_shape R) ac debug g feeds env (Incoming x false 0) m (v :: ys) v); auto.
  Qed.
  Lemma acc_runs env t n xs vs r : op_node g t n -> n_inputs n = map (fun x => Incoming x false 0) xs ->
    Forall2 (fun x v => tensor_value env x (inl v)) xs vs ->
    (forall bs, map opin_val bs = vs -> ac (n_op n) bs = CRet [] [r] None) -> tensor_value env t (inl r).
  Proof.
    intros Hn Hi F C.
    assert (exists bs, Forall2 (arg env) (map (fun x => Incoming x false 0) xs) bs /\ map opin_val bs = vs) as (bs & A & B).
    { clear - F Hvp. induction F as [|x v xs vs T F (bs & A & B)]; [exists []; split; [constructor|reflexivity]|].
      destruct (acc_read env x v T) as (b & Hb & E). exists (b :: bs). split; [constructor; assumption|]. cbn. rewrite E, B. reflexivity. }
    apply (tv_ok (@a_shape R) ac debug g feeds env t r []).
    apply (value_run (@a_shape R) ac debug g feeds env t n bs [] [r] None); [exact Hn|rewrite Hi; exact A|apply C; exact B|discriminate].
  Qed.
  Notation value := (value (@a_shape R) ac debug g feeds).
  Lemma acc_arg env x v b : tensor_value env x (inl v) -> arg env (Incoming x false 0) b -> opin_val b = v.
  Proof.
    intros T A. assert (T' : tensor_value env x (inl (opin_val b))).
    { inversion A as [i n w H1 H2|i n vid w H1 H2 H3 H4|i n ys w H1 H2 H3]; subst; cbn [in_id in_mut in_sel] in *.
      - eapply tv_ph; eauto. destruct (n_var n) eqn:Ev; [|reflexivity]. exfalso.
        assert (n_ph n = None) by (apply (Hvp x); [exact H1|congruence]).
        destruct H2 as (nm & pre & k & post & dec & Q & _). congruence.
      - eapply tv_var; eauto.
      - destruct ys as [|y ys]; [discriminate|]. cbn in H3. injection H3 as ->. eapply tv_ok; eauto. }
    pose proof (tensor_value_fun _ _ _ _ _ _ _ _ _ T T') as E. congruence.
  Qed.
  Lemma acc_args env xs vs bs : Forall2 (fun x v => tensor_value env x (inl v)) xs vs ->
    Forall2 (arg env) (map (fun x => Incoming x false 0) xs) bs -> map opin_val bs = vs.
  Proof.
    intros F. revert bs. induction F as [|x v xs vs T F IH]; intros bs B; inversion B; subst; [reflexivity|].
    cbn. erewrite acc_arg, IH; eauto.
  Qed.
  Lemma no_failure env x v e : tensor_value env x (inl v) -> ~ value env x (inr e).
  Proof.
    intros T W. assert (T' : tensor_value env x (inr e)) by (apply tv_err; exact W).
    pose proof (tensor_value_fun _ _ _ _ _ _ _ _ _ T T'). discriminate.
  Qed.
  (** An operation that panics on the values of its operands has no value, ... *)
  Lemma stuck_here env t n xs vs r : op_node g t n -> n_inputs n = map (fun x => Incoming x false 0) xs ->
    Forall2 (fun x v => tensor_value env x (inl v)) xs vs ->
    (forall bs, map opin_val bs = vs -> ac (n_op n) bs = CPanic) -> ~ value env t r.
  Proof.
    intros Hn Hi F C W. inversion W as [i n' bs ws ys st Hn' A Hc Hd E1 E2|i n' pre inc post m e Hn' Hin Hp Hm He E1 E2]; subst.
    - assert (n' = n) by (destruct Hn', Hn; congruence). subst n'. rewrite Hi in A.
      rewrite (C bs (acc_args env xs vs bs F A)) in Hc. discriminate.
    - assert (n' = n) by (destruct Hn', Hn; congruence). subst n'. rewrite Hi in Hin.
      assert (I : In inc (map (fun x => Incoming x false 0) xs)) by (rewrite Hin; apply in_elt).
      apply in_map_iff in I. destruct I as (x & <- & Ix). destruct (Forall2_in_l _ _ _ _ F Ix) as (v & _ & T).
      exact (no_failure env x v e T He).
  Qed.
  (** ... nor has one that reads it. *)
  Lemma stuck_above env t n x a v m r : op_node g t n -> n_inputs n = [Incoming x false 0; Incoming a false 0] ->
    op_node g x m -> (forall r, ~ value env x r) -> tensor_value env a (inl v) -> ~ value env t r.
  Proof.
    intros Hn Hi Hx S T W. inversion W as [i n' bs ws ys st Hn' A Hc Hd E1 E2|i n' pre inc post m' e Hn' Hin Hp Hm He E1 E2]; subst.
    - assert (n' = n) by (destruct Hn', Hn; congruence). subst n'. rewrite Hi in A. inversion A as [|? b ? ? Ab]; subst.
      inversion Ab as [i n' w H1 H2|i n' vid w H1 H2 H3 H4|i n' ys' w H1 H2 H3]; subst; cbn [in_id] in *.
      + destruct Hx as (X1 & X2 & X3). destruct H2 as (nm & pre & k & post & dec & Q & _). congruence.
      + destruct Hx as (X1 & X2 & X3). congruence.
      + exact (S _ H2).
    - assert (n' = n) by (destruct Hn', Hn; congruence). subst n'. rewrite Hi in Hin.
      assert (I : In inc [Incoming x false 0; Incoming a false 0]) by (rewrite Hin; apply in_elt).
      destruct I as [<-|[<-|[]]]; [exact (S _ He)|exact (no_failure env a v e T He)].
  Qed.
End AccGraph.

Lemma built {Op} (g g' : graph (aop Op)) b t o : b_ph b = None -> b_var b = None -> build g b o = Some (g', t) ->
  t = length g /\ exists n, g' = g ++ [n] /\ op_node g' t n /\ n_op n = o /\ n_inputs n = b_inputs b.
Proof.
  intros P V B. apply build_spec in B. destruct B as (-> & _ & ->). split; [reflexivity|].
  eexists. split; [reflexivity|]. repeat split; try reflexivity; try assumption. rewrite nth_error_app2, Nat.sub_diag by lia. reflexivity.
Qed.
Lemma op_node_more {O} (g h : graph O) i n : op_node g i n -> op_node (g ++ h) i n.
Proof. intros (A & B & C). split; [|split; assumption]. rewrite nth_error_app1; [exact A|]. apply nth_error_Some. congruence. Qed.

(** ** The arrays *)
Lemma rsum_map' {I J} (h : I -> J) l f : rsum (map h l) f = rsum l (fun i => f (h i)).
Proof. unfold sumf in *. induction l as [|x l IH]; simpl; [reflexivity|]. rewrite IH. reflexivity. Qed.
Lemma mean_column n x : (0 < n)%nat -> (N.of_nat n <= 2 ^ 24)%N -> has_shape [n; 1%nat] x ->
  reduce_mean [0; 1]%Z false false x = Some (Arr [] [rsum (seq 0 n) (fun i => rget x [i; 0%nat]) / INR n]).
Proof.
  intros Hn L Hx. assert (G : group_size [0; 1]%nat [n; 1%nat] = n) by (cbn; lia).
  assert (NE : nonempty [n; 1%nat] = true) by (cbn; destruct n; [lia|reflexivity]).
  assert (HA : axes_of 2 [0; 1]%Z = Some [0; 1]%nat) by reflexivity.
  rewrite (reduce_mean_ok false [0; 1]%Z [0; 1]%nat [n; 1%nat]); auto; [|rewrite G; exact L|discriminate].
  f_equal. unfold mean_of. change (reduced_shape false [0; 1]%nat [n; 1%nat]) with (@nil nat). match goal with |- tab [] ?f = _ => change (tab [] f) with (Arr (@nil nat) [f []]) end.
  f_equal. f_equal. cbv beta. rewrite indices_col, rsum_map'. unfold Rdiv at 2. rewrite <- rsum_scale_r. apply rsum_ext. intros i _.
  change (reduced_index false [0; 1]%nat [i; 0%nat]) with (@nil nat). rewrite G. unfold delta. cbn. field. apply not_0_INR. lia.
Qed.
Lemma count_ones (l : list nat) (p : nat -> bool) : rsum l (fun i => b2r (p i)) = INR (length (filter p l)).
Proof.
  induction l as [|a l IH]; [reflexivity|]. change (rsum (a :: l) (fun i => b2r (p i))) with (b2r (p a) + rsum l (fun i => b2r (p i))).
  rewrite IH. cbn [filter]. destruct (p a); cbn [length]; [rewrite S_INR|]; unfold b2r; ring.
Qed.
Lemma first_max_unique f n k k' : Argx_Proofs.first_max f n k -> Argx_Proofs.first_max f n k' -> k = k'.
Proof.
  intros (A & B & C) (A' & B' & C'). destruct (Nat.lt_trichotomy k k') as [L|[E|L]]; auto; exfalso.
  - pose proof (C' k L). pose proof (B k' A'). lra.
  - pose proof (C k' L). pose proof (B' k A). lra.
Qed.

Lemma shape_refl s : shape_eqb s s = true.
Proof. apply shape_eqb_ok. reflexivity. Qed.
Lemma cmp_same s : nonempty s = true -> cmp_ty s s = Some s.
Proof.
  intros H. unfold cmp_ty. rewrite H, shape_refl. cbn. destruct (shape_eqb s []) eqn:E; [|reflexivity].
  reflexivity.
Qed.

(** ** C80: the accuracy is the fraction of the rows whose label is the position of the
    first largest score. *)
Theorem C80_accuracy :
  forall (Op Err : Type) (other : Op -> list (opin (arr R)) -> cout (arr R) Err) (debug : bool)
    (feeds : list (ph_key * arr R)) (env : list (arr R)) (lowest : R)
    (g g' more : graph (aop Op)) (z y t : nat) (zv yv : arr R) (n c : nat),
  (forall i n, nth_error (g' ++ more) i = Some n -> n_var n <> None -> n_ph n = None) ->
  accuracy g lowest z y = Some (g', t) ->
  tensor_value (@a_shape R) (acc_compute other) debug (g' ++ more) feeds env z (inl zv) ->
  tensor_value (@a_shape R) (acc_compute other) debug (g' ++ more) feeds env y (inl yv) ->
  has_shape [n; c] zv -> has_shape [n; 1%nat] yv -> (0 < n)%nat -> (N.of_nat n <= 2 ^ 24)%N -> (0 < c)%nat ->
  (forall i, in_bounds [n; c] i -> lowest <= rget zv i) ->
  exists correct : list nat,
    NoDup correct /\ (forall i, In i correct <-> (i < n)%nat /\ classified c zv yv i) /\
    tensor_value (@a_shape R) (acc_compute other) debug (g' ++ more) feeds env t (inl (Arr [] [INR (length correct) / INR n])).
Proof.
  intros Op Err other debug feeds env lowest g g' more z y t zv yv n c Hvp B Tz Ty Sz Sy Hn L Hc Low.
  unfold accuracy in B. destruct (argmax g lowest z (-1)%Z true) as [[g1 p]|] eqn:B1; [|discriminate].
  destruct (equal g1 p y) as [[g2 e]|] eqn:B2; [|discriminate].
  unfold mean in B. destruct (build g2 new_builder _) as [[g3 a]|] eqn:B3; [|discriminate].
  apply built in B1; [|reflexivity|reflexivity]. destruct B1 as (_ & n1 & E1 & N1 & O1 & I1).
  apply built in B2; [|reflexivity|reflexivity]. destruct B2 as (_ & n2 & E2 & N2 & O2 & I2).
  apply built in B3; [|reflexivity|reflexivity]. destruct B3 as (_ & n3 & E3 & N3 & O3 & I3).
  apply built in B; [|reflexivity|reflexivity]. destruct B as (_ & n4 & E4 & N4 & O4 & I4).
  cbn in I1, I2, I3, I4.
  assert (M4 : op_node (g' ++ more) t n4) by (apply op_node_more; exact N4).
  assert (M3 : op_node (g' ++ more) a n3) by (rewrite E4; do 2 apply op_node_more; exact N3).
  assert (M2 : op_node (g' ++ more) e n2) by (rewrite E4, E3; do 3 apply op_node_more; exact N2).
  assert (M1 : op_node (g' ++ more) p n1) by (rewrite E4, E3, E2; do 4 apply op_node_more; exact N1).
  destruct (P_Argx.C43_argmax_rows lowest true (-1)%Z zv n c Sz Hc (or_intror eq_refl) Low) as (pv & P1 & P2 & P3).
  assert (Tp : tensor_value (@a_shape R) (acc_compute other) debug (g' ++ more) feeds env p (inl pv)).
  { apply (acc_runs other debug (g' ++ more) feeds Hvp env p n1 [z] [zv] pv); auto. intros bs Hb.
    destruct bs as [|b [|? ?]]; try discriminate. injection Hb as Hb. rewrite O1. cbn [acc_compute]. rewrite Hb.
    unfold output. change reqb with Argx_Proofs.reqb. rewrite P1. reflexivity. }
  set (ev := zip_tab Equal [n; 1%nat] [n; 1%nat] [n; 1%nat] pv yv).
  assert (CE : cmp_forward (bin Equal) pv yv = Some ev).
  { apply cmp_forward_ok; auto. apply (cmp_same [n; 1%nat]). cbn. destruct n; [lia|reflexivity]. }
  assert (Te : tensor_value (@a_shape R) (acc_compute other) debug (g' ++ more) feeds env e (inl ev)).
  { apply (acc_runs other debug (g' ++ more) feeds Hvp env e n2 [p; y] [pv; yv] ev); auto. intros bs Hb.
    destruct bs as [|b [|b' [|? ?]]]; try discriminate. injection Hb as Hb Hb'. rewrite O2. cbn [acc_compute]. rewrite Hb, Hb', CE. reflexivity. }
  assert (Ta : tensor_value (@a_shape R) (acc_compute other) debug (g' ++ more) feeds env a (inl (Arr [2%nat] [IZR 0; IZR 1]))).
  { apply (acc_runs other debug (g' ++ more) feeds Hvp env a n3 [] []); auto. intros bs Hb. rewrite O3. reflexivity. }
  set (ok i := reqb (rget pv [i; 0%nat]) (rget yv [i; 0%nat])).
  exists (filter ok (seq 0 n)). split; [apply NoDup_filter, seq_NoDup|]. split.
  - intros i. rewrite filter_In, in_seq. split.
    + intros [Hi Hk]. split; [lia|]. destruct (P3 i ltac:(lia)) as (k & K1 & K2). exists k. split; [exact K1|].
      unfold ok in Hk. apply Argx_Proofs.reqb_ok in Hk. rewrite <- Hk. exact K2.
    + intros [Hi (k & K1 & K2)]. split; [lia|]. destruct (P3 i Hi) as (k' & K1' & K2'). unfold ok. apply Argx_Proofs.reqb_ok.
      rewrite K2. rewrite (first_max_unique _ _ _ _ K1 K1'). exact K2'.
  - apply (acc_runs other debug (g' ++ more) feeds Hvp env t n4 [e; a] [ev; Arr [2%nat] [IZR 0; IZR 1]]); auto. intros bs Hb.
    destruct bs as [|b [|b' [|? ?]]]; try discriminate. injection Hb as Hb Hb'. rewrite O4. cbn [acc_compute]. rewrite Hb, Hb'.
    cbn [a_data map]. rewrite !trunc_IZR. rewrite (mean_column n ev Hn L) by apply tab_has_shape. unfold output. do 4 f_equal.
    f_equal. f_equal. rewrite <- count_ones. apply rsum_ext. intros i Hi. apply in_seq in Hi. unfold ev, zip_tab.
    rewrite aget_tab by (repeat constructor; lia). rewrite !bc_idx_self by (repeat constructor; lia). reflexivity.
Qed.
Print Assumptions C80_accuracy.

(** Labels without the axis of length 1 do not broadcast: every evaluation that needs the
    accuracy panics. *)
Theorem C80_flat_labels :
  forall (Op Err : Type) (other : Op -> list (opin (arr R)) -> cout (arr R) Err) (debug : bool)
    (feeds : list (ph_key * arr R)) (env : list (arr R)) (lowest : R)
    (g g' more : graph (aop Op)) (z y t : nat) (zv yv : arr R) (n c fuel : nat) (targets : list nat) (oc : @outcome (arr R) Err),
  (forall i n, nth_error (g' ++ more) i = Some n -> n_var n <> None -> n_ph n = None) ->
  wf_graph (g' ++ more) -> in_range (g' ++ more) targets -> no_inplace (g' ++ more) targets ->
  accuracy g lowest z y = Some (g', t) ->
  tensor_value (@a_shape R) (acc_compute other) debug (g' ++ more) feeds env z (inl zv) ->
  tensor_value (@a_shape R) (acc_compute other) debug (g' ++ more) feeds env y (inl yv) ->
  has_shape [n; c] zv -> has_shape [n] yv -> (0 < n)%nat -> (0 < c)%nat ->
  (forall i, in_bounds [n; c] i -> lowest <= rget zv i) ->
  In t targets ->
  eval (@a_shape R) (acc_compute other) debug (g' ++ more) feeds fuel targets env <> Ok oc.
Proof.
  intros Op Err other debug feeds env lowest g g' more z y t zv yv n c fuel targets oc Hvp W Ir Ni B Tz Ty Sz Sy Hn Hc Low It Ev.
  unfold accuracy in B. destruct (argmax g lowest z (-1)%Z true) as [[g1 p]|] eqn:B1; [|discriminate].
  destruct (equal g1 p y) as [[g2 e]|] eqn:B2; [|discriminate].
  unfold mean in B. destruct (build g2 new_builder _) as [[g3 a]|] eqn:B3; [|discriminate].
  apply built in B1; [|reflexivity|reflexivity]. destruct B1 as (_ & n1 & E1 & N1 & O1 & I1).
  apply built in B2; [|reflexivity|reflexivity]. destruct B2 as (_ & n2 & E2 & N2 & O2 & I2).
  apply built in B3; [|reflexivity|reflexivity]. destruct B3 as (_ & n3 & E3 & N3 & O3 & I3).
  apply built in B; [|reflexivity|reflexivity]. destruct B as (_ & n4 & E4 & N4 & O4 & I4).
  cbn in I1, I2, I3, I4.
  assert (M4 : op_node (g' ++ more) t n4) by (apply op_node_more; exact N4).
  assert (M3 : op_node (g' ++ more) a n3) by (rewrite E4; do 2 apply op_node_more; exact N3).
  assert (M2 : op_node (g' ++ more) e n2) by (rewrite E4, E3; do 3 apply op_node_more; exact N2).
  assert (M1 : op_node (g' ++ more) p n1) by (rewrite E4, E3, E2; do 4 apply op_node_more; exact N1).
  destruct (P_Argx.C43_argmax_rows lowest true (-1)%Z zv n c Sz Hc (or_intror eq_refl) Low) as (pv & P1 & P2 & P3).
  assert (Tp : tensor_value (@a_shape R) (acc_compute other) debug (g' ++ more) feeds env p (inl pv)).
  { apply (acc_runs other debug (g' ++ more) feeds Hvp env p n1 [z] [zv] pv); auto. intros bs Hb.
    destruct bs as [|b [|? ?]]; try discriminate. injection Hb as Hb. rewrite O1. cbn [acc_compute]. rewrite Hb.
    unfold output. change reqb with Argx_Proofs.reqb. rewrite P1. reflexivity. }
  assert (CE : cmp_forward (bin Equal) pv yv = None).
  { unfold cmp_forward. rewrite (proj1 P2), (proj1 Sy). destruct n; [lia|]. reflexivity. }
  assert (Te : forall r, ~ value (@a_shape R) (acc_compute other) debug (g' ++ more) feeds env e r).
  { intros r. apply (stuck_here other debug (g' ++ more) feeds Hvp env e n2 [p; y] [pv; yv]); auto. intros bs Hb.
    destruct bs as [|b [|b' [|? ?]]]; try discriminate. injection Hb as Hb Hb'. rewrite O2. cbn [acc_compute]. rewrite Hb, Hb', CE. reflexivity. }
  assert (Ta : tensor_value (@a_shape R) (acc_compute other) debug (g' ++ more) feeds env a (inl (Arr [2%nat] [IZR 0; IZR 1]))).
  { apply (acc_runs other debug (g' ++ more) feeds Hvp env a n3 [] []); auto. intros bs Hb. destruct bs; [|discriminate]. rewrite O3. reflexivity. }
  destruct (eval_only_values _ _ _ _ _ _ _ _ _ W Ir Ni Ev) as (F & _ & _).
  destruct (Forall2_in_l _ _ _ _ F It) as (r & _ & T).
  assert (S : forall r, ~ value (@a_shape R) (acc_compute other) debug (g' ++ more) feeds env t r)
    by (intros r'; eapply (stuck_above other debug (g' ++ more) feeds env t n4 e a); eauto).
  destruct M4 as (X1 & X2 & X3).
  inversion T as [n' vid v' H1 H2 H3|n' v' H1 H2 H3|y' ys H1|e' H1]; subst.
  - congruence.
  - destruct H3 as (nm & ? & ? & ? & ? & Q & _). congruence.
  - exact (S _ H1).
  - exact (S _ H1).
Qed.
Print Assumptions C80_flat_labels.

Lemma first_max_mono f h n k : (forall a b, (a < n)%nat -> (b < n)%nat -> f a <= f b <-> h a <= h b) ->
  Argx_Proofs.first_max f n k -> Argx_Proofs.first_max h n k.
Proof.
  intros E (A & B & C). split; [exact A|]. split.
  - intros k' Hk. apply E; auto.
  - intros k' Hk. apply Rnot_le_lt. intros L. apply E in L; [|exact A|lia]. specialize (C k' Hk). lra.
Qed.
(** Comparing the labels with the scores, their softmax or their log-softmax makes no
    difference. *)
Theorem C80_probabilities :
  forall (minv : R) (axis : Z) (z y labels : arr R) (n c i : nat),
  has_shape [n; c] z -> (0 < n)%nat -> (0 < c)%nat -> (axis = 1 \/ axis = -1)%Z ->
  softmax minv exp axis z = Some y \/ log_softmax minv exp axis z = Some y -> (i < n)%nat ->
  classified c y labels i <-> classified c z labels i.
Proof.
  intros minv axis z y labels n c i Hz Hn Hc Ha S Hi.
  assert (N : names_axis (length (a_shape z)) axis 1%nat).
  { rewrite (proj1 Hz). split; [cbn; lia|]. destruct Ha as [-> | ->]; [left; lia|right; cbn; lia]. }
  assert (Hz' : has_shape (a_shape z) z) by (rewrite (proj1 Hz); exact Hz).
  assert (B : forall k, (k < c)%nat -> in_bounds (a_shape z) [i; k]).
  { intros k Hk. rewrite (proj1 Hz). repeat constructor; assumption. }
  assert (LS : forall k, line_sum 1 z exp [i; k] = line_sum 1 z exp [i; 0%nat]) by reflexivity.
  assert (P : 0 < line_sum 1 z exp [i; 0%nat]).
  { apply line_pos; [apply B; exact Hc|rewrite (proj1 Hz); cbn; lia]. }
  assert (O : forall a b, (a < c)%nat -> (b < c)%nat -> rget z [i; a] <= rget z [i; b] <-> rget y [i; a] <= rget y [i; b]).
  { intros a b La Lb. destruct S as [S|S].
    - destruct (C36_softmax minv axis 1%nat z Hz' N) as (y' & S' & _ & _ & V). assert (y' = y) by congruence. subst y'.
      rewrite (V [i; a]), (V [i; b]), (LS a), (LS b) by (apply B; assumption). unfold Rdiv.
      pose proof (Rinv_0_lt_compat _ P) as Q. split; intros L.
      + apply Rmult_le_compat_r; [lra|]. destruct L as [L|L]; [left; apply exp_increasing; exact L|right; rewrite L; reflexivity].
      + apply Rmult_le_reg_r in L; [|exact Q]. destruct L as [L|L]; [left; apply exp_lt_inv; exact L|right; apply exp_inv; exact L].
    - destruct (C36_log_softmax minv axis 1%nat z Hz') as (y' & S' & _ & _ & V); [rewrite (proj1 Hz); cbn; lia|exact N|].
      assert (y' = y) by congruence. subst y'.
      rewrite (V [i; a]), (V [i; b]), (LS a), (LS b) by (apply B; assumption). split; intros L; lra. }
  unfold classified. split; intros (k & K & E); exists k; (split; [|exact E]).
  - apply (first_max_mono (fun k => rget y [i; k])); [|exact K]. intros a b La Lb. symmetry. apply O; assumption.
  - apply (first_max_mono (fun k => rget z [i; k])); [|exact K]. exact O.
Qed.
Print Assumptions C80_probabilities.

(** Two of three rows classified as labelled; the largest score of row 1 is not unique. *)
Definition acc_node (a : arr R) : node (aop (arr R)) := Node (AOther a) [] 0 None None true None None None.
Definition acc_const (a : arr R) (ins : list (opin (arr R))) : cout (arr R) unit := CRet [] [a] None.
Definition scores : arr R := Arr [3; 2]%nat [1; 4; 2; 2; 0; 5].
Definition labels : arr R := Arr [3; 1]%nat [1; 0; 0].
Definition acc_graph : graph (aop (arr R)) := [acc_node scores; acc_node labels; acc_node (Arr [3%nat] [1; 0; 0])].
Definition acc_graph1 : graph (aop (arr R)) := match accuracy acc_graph (-10) 0 1 with Some (g, _) => g | None => [] end.
Definition acc_graph2 : graph (aop (arr R)) := match accuracy acc_graph1 (-10) 0 2 with Some (g, _) => g | None => [] end.
Lemma numbered {A} (k : nat) : forall s i (l : list A) x, nth_error l i = Some x -> (i < k)%nat -> In ((s + i)%nat, x) (combine (seq s k) l).
Proof.
  induction k as [|k IH]; intros s i l x H L; [lia|].
  destruct l as [|a l]; [destruct i; discriminate|]. destruct i as [|i]; [injection H as <-; left; f_equal; lia|].
  right. replace (s + S i)%nat with (S s + i)%nat by lia. apply IH; [exact H|lia].
Qed.
Lemma acc_nodes : forall i n, nth_error acc_graph2 i = Some n ->
  n_var n = None /\ n_ph n = None /\ forall inc, In inc (n_inputs n) -> (in_id inc < i)%nat /\ in_mut inc = false.
Proof.
  assert (F : forallb (fun p : nat * node (aop (arr R)) =>
     match n_var (snd p), n_ph (snd p) with
     | None, None => forallb (fun inc => (in_id inc <? fst p)%nat && negb (in_mut inc)) (n_inputs (snd p))
     | _, _ => false
     end) (combine (seq 0 11) acc_graph2) = true) by reflexivity.
  intros i n H. assert (L : (i < 11)%nat) by (apply (proj1 (nth_error_Some acc_graph2 i)); congruence).
  rewrite forallb_forall in F. specialize (F (i, n)). cbn [fst snd] in F.
  assert (I : In (i, n) (combine (seq 0 11) acc_graph2)).
  { exact (numbered 11 0 i acc_graph2 n H L). }
  specialize (F I). destruct (n_var n); [discriminate|]. destruct (n_ph n); [discriminate|].
  repeat split; auto; rewrite forallb_forall in F; specialize (F inc H0); apply andb_true_iff in F; destruct F as [F1 F2].
  - apply Nat.ltb_lt. exact F1.
  - apply negb_true_iff. exact F2.
Qed.
Example C80_hypotheses_met :
  accuracy acc_graph (-10) 0 1 = Some (acc_graph1, 6%nat) /\ accuracy acc_graph1 (-10) 0 2 = Some (acc_graph2, 10%nat) /\
  (forall i n, nth_error acc_graph2 i = Some n -> n_var n <> None -> n_ph n = None) /\
  wf_graph acc_graph2 /\ in_range acc_graph2 [10%nat] /\ no_inplace acc_graph2 [10%nat] /\
  tensor_value (@a_shape R) (acc_compute acc_const) true acc_graph2 [] [] 0 (inl scores) /\
  tensor_value (@a_shape R) (acc_compute acc_const) true acc_graph2 [] [] 1 (inl labels) /\
  tensor_value (@a_shape R) (acc_compute acc_const) true acc_graph2 [] [] 2 (inl (Arr [3%nat] [1; 0; 0])) /\
  has_shape [3; 2]%nat scores /\ has_shape [3; 1]%nat labels /\
  (forall i, in_bounds [3; 2]%nat i -> -10 <= rget scores i) /\
  classified 2 scores labels 0 /\ classified 2 scores labels 1 /\ ~ classified 2 scores labels 2.
Proof.
  split; [reflexivity|]. split; [reflexivity|]. split; [|split; [|split; [|split]]].
  - intros i n H _. apply (acc_nodes i n H).
  - apply wf_graph_intro.
    + intros i n inc H Hin. destruct (acc_nodes i n H) as (_ & _ & C). apply C in Hin.
      assert (i < length acc_graph2)%nat by (apply nth_error_Some; congruence). lia.
    + intros i n H Hv. destruct (acc_nodes i n H) as (A & B & _). unfold is_variable, is_placeholder in Hv. rewrite A, B in Hv. discriminate.
  - intros t [<-|[]]. apply nth_error_Some. discriminate.
  - intros i n p vid _ H (inc & m & Hin & Hm & _). apply nth_error_In in Hin. destruct (acc_nodes i n H) as (_ & _ & C).
    apply C in Hin. destruct Hin as (_ & Hin). congruence.
  - assert (K : forall g i a, nth_error g i = Some (acc_node a) ->
        tensor_value (@a_shape R) (acc_compute acc_const) true g [] [] i (inl a)).
    { intros g i a H. apply (tv_ok _ _ _ _ _ _ i a []). apply (value_run _ _ _ _ _ _ i (acc_node a) [] [] [a] None).
      - split; [exact H|split; reflexivity].
      - constructor.
      - reflexivity.
      - discriminate. }
    split; [apply K; reflexivity|]. split; [apply K; reflexivity|]. split; [apply K; reflexivity|].
    split; [split; reflexivity|]. split; [split; reflexivity|]. split.
    + intros i Hi. apply indices_in in Hi. simpl in Hi. repeat (destruct Hi as [<-|Hi]; [cbn; lra|]). destruct Hi.
    + unfold classified, Argx_Proofs.first_max. split; [|split].
      * exists 1%nat. split; [|cbn; lra]. split; [lia|]. split; intros [|[|k]] H; cbn; try lra; lia.
      * exists 0%nat. split; [|cbn; lra]. split; [lia|]. split; intros [|[|k]] H; cbn; try lra; lia.
      * intros (k & (A & B & C) & D). destruct k as [|[|k]]; [|cbn in D; lra|lia]. specialize (B 1%nat ltac:(lia)). cbn in B. lra.
Qed.
