(** Gradient construction on array graphs creates no leaves, so the leaves' values keep
    determining everything; evaluation of array tensors returns. *)
From Coq Require Import String List Arith ZArith NArith Bool Lia Reals Relations.
Import ListNotations.
From Verif Require Import Graph_Model Eval_Model Eval_Spec Eval_Proofs Graph_Proofs Grad_Model Grad_Spec Grad_Frame Scalar_Model Scalar_Spec Scalar_Proofs.
From Verif Require Import Array_Model Array_Proofs Vjp_Spec Tens_Model Tens_Spec Tens_Fwd Tens_Build Tens_Lax Tens_Grad Tens_Final.
Local Set Bullet Behavior "Strict Subproofs".

Definition adds_ops (s s' : tgraph) : Prop := exists new, s' = s ++ new /\ List.Forall (fun n => n_op n <> TLeaf) new.
Lemma adds_refl s : adds_ops s s.
Proof. exists []. rewrite app_nil_r. split; [reflexivity|constructor]. Qed.
Lemma adds_trans a b c : adds_ops a b -> adds_ops b c -> adds_ops a c.
Proof. intros (n1 & -> & F1) (n2 & -> & F2). exists (n1 ++ n2). rewrite app_assoc. split; [reflexivity|apply Forall_app; auto]. Qed.

Definition only_ops {A} (f : tbld A) : Prop := forall s a s', f s = Some (a, s') -> adds_ops s s'.
Lemma only_ret {A} (a : A) : only_ops (tret a).
Proof. intros s b s' H. injection H as _ <-. apply adds_refl. Qed.
Lemma only_fail {A} : only_ops (fun _ => @None (A * tgraph)).
Proof. intros s b s' H. discriminate. Qed.
Lemma only_bind {A B} (f : tbld A) (h : A -> tbld B) : only_ops f -> (forall a, only_ops (h a)) -> only_ops (tbind f h).
Proof.
  intros F H s b s' E. unfold tbind in E. destruct (f s) as [[a s1]|] eqn:E1; [|discriminate].
  eapply adds_trans; [eapply F; eauto|eapply H; eauto].
Qed.
Lemma only_mk ins sh d o : o <> TLeaf -> only_ops (tmk ins sh d o).
Proof.
  intros Ho s a s' H. unfold tmk in H. destruct (build s _ o) as [[s1 id]|] eqn:E; [|discriminate]. injection H as _ <-.
  apply build_spec in E. destruct E as (_ & _ & ->). eexists. split; [reflexivity|]. constructor; [exact Ho|constructor].
Qed.
Lemma only_shape x : only_ops (a_shape_of x).
Proof.
  intros s a s' H. unfold a_shape_of in H. destruct (nth_error s x) as [n|]; [|discriminate].
  destruct (n_shape n); [injection H as _ <-; apply adds_refl|]. eapply only_mk; [|exact H]. discriminate.
Qed.
Ltac opsonly := repeat first [apply only_ret | apply only_fail | apply only_shape | (apply only_mk; discriminate) | (apply only_bind; [|intros ?])].
Lemma only_ints l : only_ops (a_ints l). Proof. unfold a_ints. opsonly. Qed.
Lemma only_scalar r : only_ops (a_scalar r). Proof. unfold a_scalar. apply only_bind; [apply only_ints|intros]; opsonly. Qed.
Lemma only_un u x : only_ops (a_un u x). Proof. unfold a_un. destruct (un_sets_shape u); opsonly. Qed.
Lemma only_bin b x y : only_ops (a_bin b x y). Proof. destruct b; cbn [a_bin]; opsonly. Qed.
Lemma only_add_n xs : only_ops (a_add_n xs). Proof. destruct xs; cbn [a_add_n]; opsonly. Qed.
Lemma only_zeros x : only_ops (a_zeros_like x). Proof. unfold a_zeros_like. opsonly. Qed.
Lemma only_stored ins m x : only_ops (stored ins m x).
Proof. destruct m as [|i|]; cbn [stored]; try destruct (nth_error ins i); opsonly. Qed.
Lemma only_sums ys : only_ops (t_sum_alls ys).
Proof. induction ys as [|y ys IH]; cbn [t_sum_alls]; [apply only_ret|]. apply only_bind; [apply only_mk; discriminate|intros]. apply only_bind; [exact IH|intros; apply only_ret]. Qed.

Definition is_leaf (o : top) : bool := match o with TLeaf => true | _ => false end.
Fixpoint leafless (e : expr) : bool :=
  match e with
  | EUn _ e => leafless e
  | EBin _ e1 e2 | ELet e1 e2 => leafless e1 && leafless e2
  | EOp1 o _ e => negb (is_leaf o) && leafless e
  | EOp2 o _ e1 e2 => negb (is_leaf o) && leafless e1 && leafless e2
  | EOp3 o _ e1 e2 e3 => negb (is_leaf o) && leafless e1 && leafless e2 && leafless e3
  | _ => true
  end.
Lemma not_leaf o : negb (is_leaf o) = true -> o <> TLeaf.
Proof. intros H ->. discriminate. Qed.
Lemma only_expr ins out gy e : leafless e = true -> forall env, only_ops (build_expr ins out gy env e).
Proof.
  induction e; intros H env; cbn [build_expr leafless] in *; rewrite ?andb_true_iff in H; try apply only_ret.
  - destruct (nth_error ins i); opsonly.
  - destruct (nth_error env k); opsonly.
  - destruct (nth_error ins i); opsonly.
  - apply only_scalar.
  - apply only_ints.
  - apply only_bind; [auto|intros; apply only_un].
  - destruct H. apply only_bind; [auto|intros]. apply only_bind; [auto|intros; apply only_bin].
  - destruct H. apply only_bind; [auto|intros]. apply only_bind; [apply only_stored|intros; apply only_mk; apply not_leaf; auto].
  - destruct H as [[H1 H2] H3]. apply only_bind; [auto|intros]. apply only_bind; [auto|intros].
    apply only_bind; [apply only_stored|intros; apply only_mk; apply not_leaf; auto].
  - destruct H as [[[H1 H2] H3] H4]. apply only_bind; [auto|intros]. apply only_bind; [auto|intros]. apply only_bind; [auto|intros].
    apply only_bind; [apply only_stored|intros; apply only_mk; apply not_leaf; auto].
  - destruct H. apply only_bind; auto.
Qed.
Definition oleafless (r : option expr) : bool := match r with Some e => leafless e | None => true end.
Lemma only_exprs ins out gy rs : forallb oleafless rs = true -> only_ops (build_exprs ins out gy rs).
Proof.
  induction rs as [|[e|] rs IH]; intros H; cbn [build_exprs forallb oleafless] in *.
  - apply only_ret.
  - apply andb_prop in H. destruct H. apply only_bind; [apply only_expr; auto|intros]. apply only_bind; [auto|intros; apply only_ret].
  - apply only_bind; [auto|intros; apply only_ret].
Qed.
Lemma repeat_leafless r k : oleafless r = true -> forallb oleafless (repeat r k) = true.
Proof. intros H. induction k; simpl; auto. rewrite H. auto. Qed.
Lemma rule_leafless o k rs : trule o k = Some rs -> forallb oleafless rs = true.
Proof.
  intros H. destruct o; cbn [trule] in H; try discriminate; try (injection H as <-); try reflexivity; try (apply repeat_leafless; reflexivity).
  all: try (match goal with u : uop |- _ => destruct u | b : bop |- _ => destruct b end; try discriminate; try (injection H as <-); reflexivity).
  all: destruct k as [|[|[|k]]]; try discriminate; injection H as <-; reflexivity.
Qed.
Lemma only_opgrad g y gy : only_ops (t_opgrad g y gy).
Proof.
  unfold t_opgrad. destruct (nth_error g y) as [n|]; [|apply only_fail].
  destruct (trule (n_op n) (length (n_inputs n))) as [rs|] eqn:E; [|apply only_fail]. apply only_exprs. eapply rule_leafless; eauto.
Qed.

Lemma grad_adds_ops pop debug fuel ys xs gys g l g' log :
  t_grad_with_default pop debug fuel ys xs gys g = Ok (l, g', log) -> adds_ops g g'.
Proof.
  unfold t_grad_with_default. apply grad_frame; eauto using adds_refl, adds_trans.
  - intros y gy s r s' H. eapply only_opgrad; eauto.
  - intros k s r s' H. eapply only_add_n; eauto.
  - intros s r s' H. eapply only_scalar; eauto.
  - intros x s r s' H. eapply only_zeros; eauto.
Qed.
Lemma tgrad_adds_ops pop debug fuel ys xs g l g' log : t_grad pop debug fuel ys xs g = Ok (l, g', log) -> adds_ops g g'.
Proof.
  unfold t_grad. destruct (t_sum_alls ys g) as [[ys' g1]|] eqn:E; [|discriminate]. intros H.
  eapply adds_trans; [eapply only_sums; eauto|eapply grad_adds_ops; eauto].
Qed.

Lemma leaf_values_grow g g' feeds env rho : adds_ops g g' -> t_leaf_values g feeds env rho -> t_leaf_values g' feeds env rho.
Proof.
  intros (new & -> & F) HL i n Hn Ho. destruct (lt_dec i (length g)) as [Hi|Hi].
  - rewrite nth_error_app1 in Hn by exact Hi. apply HL; auto.
  - rewrite nth_error_app2 in Hn by lia. apply nth_error_In in Hn. rewrite Forall_forall in F. destruct (F n Hn). exact Ho.
Qed.

(** ** Evaluation returns *)
Section Eval.
  Variable lax : bool.
  Variable ls : nat -> list nat.
  Variable g : tgraph.
  Hypothesis W : loose g.
  Variable debug : bool.
  Variable feeds : list (ph_key * tv).
  Variable env : list tv.
  Variable rho : nat -> arr R.
  Hypothesis C : conform ls rho.
  Hypothesis HL : t_leaf_values g feeds env rho.

  Lemma depends_wtyped t i : depends g t i -> forall ty, wtyped ls lax g t ty -> exists ty', wtyped ls lax g i ty'.
  Proof.
    intros H. apply clos_rt_rt1n in H. induction H as [t|t j i (n & inc & Hn & Hi & <-) _ IH]; intros ty Ht; [eauto|].
    destruct (wtyped_inputs ls lax g t n ty Hn Ht) as [[Eo _]|(_ & ts & HT & _)].
    - destruct (lo_leaf g W t n Hn Eo) as [E _]. rewrite E in Hi. destruct Hi.
    - apply In_nth_error in Hi. destruct Hi as (k & Hk). destruct (Forall2_nth _ _ _ _ _ HT Hk) as (ty' & _ & _ & _ & Ht'). eauto.
  Qed.

  Theorem eval_arrays fuel targets :
    (forall t, In t targets -> exists sh, wtyped ls lax g t (TyA sh)) -> distinct_computed g targets ->
    2 * (length targets + edge_count g) < fuel ->
    exists log, eval tv_shape tens_compute debug g feeds fuel targets env = Ok (Outcome (map (fun t => inl (TA (aval rho g t))) targets) env log).
  Proof.
    intros HT HD Hf. destruct (loose_graph g W) as [Wg Ac].
    apply eval_complete; auto.
    - intros i n p vid _ Hn (inc & m & Hi & Hm & _).
      rewrite (lo_mut g W i n inc Hn (nth_error_In _ _ Hi)) in Hm. discriminate.
    - intros i ((n & Hn & Hp & Hv) & t & Ht & Hd). destruct (HT t Ht) as (sh & Hty).
      destruct (depends_wtyped t i Hd _ Hty) as (ty & Hi). eexists. eapply (loose_value_x lax ls g W debug feeds env rho C HL i n ty); auto.
      intros Eo. destruct (lo_leaf g W i n Hn Eo) as [_ E]. unfold is_variable, is_placeholder in E. rewrite Hp, Hv in E. discriminate.
    - intros t Ht. destruct (HT t Ht) as (sh & Hty). eapply wtyped_lt; exact Hty.
    - clear HD Hf. induction targets as [|t targets IH]; simpl; constructor.
      + destruct (HT t (or_introl eq_refl)) as (sh & Hty). eapply (loose_tensor_value_x lax ls g W debug feeds env rho C HL t sh Hty).
      + apply IH. intros u Hu. apply HT. right. exact Hu.
  Qed.
End Eval.
