(** The tensors gradient construction adds are stored as the differentiated ones. *)
From Coq Require Import String List Arith ZArith NArith Bool Lia Reals Relations.
Import ListNotations.
From Verif Require Import Graph_Model Eval_Model Eval_Spec Eval_Proofs Graph_Proofs Grad_Model Grad_Spec Grad_Path_Proofs Grad_Frame Grad_Room Scalar_Model Scalar_Spec Scalar_Proofs Var_Model Helper_Model.
From Verif Require Import Array_Model Array_Proofs Batch_Model Vjp_Spec Returns_Spec Helper_Tens Tens_Total Tens_Model Tens_Spec Tens_Fwd Tens_Build Tens_Lax Tens_Grad Tens_Final Tens_New Tens_Returns
  Layout_Spec Place_Model Place_Spec Place_Proofs Place_Graph.
Local Set Bullet Behavior "Strict Subproofs".

Section Adds.
  Variable Q : top -> bool.
  Definition adds_q (s s' : tgraph) : Prop := exists new, s' = s ++ new /\ List.Forall (fun n => Q (n_op n) = true) new.
  Lemma addsq_refl s : adds_q s s.
  Proof. exists []. rewrite app_nil_r. split; [reflexivity|constructor]. Qed.
  Lemma addsq_trans a b c : adds_q a b -> adds_q b c -> adds_q a c.
  Proof. intros (n1 & -> & F1) (n2 & -> & F2). exists (n1 ++ n2). rewrite app_assoc. split; [reflexivity|apply Forall_app; auto]. Qed.

  (** Operations every construction uses. *)
  Hypothesis QS : Q TShape = true.
  Hypothesis QI : forall l, Q (TConstI l) = true.
  Hypothesis QC : forall r, Q (TScalar r) = true.
  Hypothesis QU : forall u, Q (TUn u) = true.
  Hypothesis QB : forall b, Q (TBin b) = true.
  Hypothesis QF : Q TInferShape = true.
  Hypothesis QA : Q TAddN = true.
  Hypothesis QZ : Q TZeros = true.
  Hypothesis QT : Q TSumAll = true.

  Definition only_q {A} (f : tbld A) : Prop := forall s a s', f s = Some (a, s') -> adds_q s s'.
  Lemma oq_ret {A} (a : A) : only_q (tret a).
  Proof. intros s b s' H. injection H as _ <-. apply addsq_refl. Qed.
  Lemma oq_fail {A} : only_q (fun _ => @None (A * tgraph)).
  Proof. intros s b s' H. discriminate. Qed.
  Lemma oq_bind {A B} (f : tbld A) (h : A -> tbld B) : only_q f -> (forall a, only_q (h a)) -> only_q (tbind f h).
  Proof.
    intros F H s b s' E. unfold tbind in E. destruct (f s) as [[a s1]|] eqn:E1; [|discriminate].
    eapply addsq_trans; [eapply F; eauto|eapply H; eauto].
  Qed.
  Lemma oq_mk ins sh d o : Q o = true -> only_q (tmk ins sh d o).
  Proof.
    intros Ho s a s' H. unfold tmk in H. destruct (build s _ o) as [[s1 id]|] eqn:E; [|discriminate]. injection H as _ <-.
    apply build_spec in E. destruct E as (_ & _ & ->). eexists. split; [reflexivity|]. constructor; [exact Ho|constructor].
  Qed.
  Lemma oq_shape x : only_q (a_shape_of x).
  Proof.
    intros s a s' H. unfold a_shape_of in H. destruct (nth_error s x) as [n|]; [|discriminate].
    destruct (n_shape n); [injection H as _ <-; apply addsq_refl|]. eapply oq_mk; [|exact H]. exact QS.
  Qed.
  Ltac qonly := repeat first [apply oq_ret | apply oq_fail | apply oq_shape | (apply oq_mk; auto; fail) | (apply oq_bind; [|intros ?])].
  Lemma oq_ints l : only_q (a_ints l). Proof. unfold a_ints. qonly. Qed.
  Lemma oq_scalar r : only_q (a_scalar r). Proof. unfold a_scalar. apply oq_bind; [apply oq_ints|intros]; qonly. Qed.
  Lemma oq_un u x : only_q (a_un u x). Proof. unfold a_un. destruct (un_sets_shape u); qonly. Qed.
  Lemma oq_bin b x y : only_q (a_bin b x y). Proof. destruct b; cbn [a_bin]; qonly. Qed.
  Lemma oq_add_n xs : only_q (a_add_n xs). Proof. destruct xs; cbn [a_add_n]; qonly. Qed.
  Lemma oq_zeros x : only_q (a_zeros_like x). Proof. unfold a_zeros_like. qonly. Qed.
  Lemma oq_stored ins m x : only_q (Tens_Model.stored ins m x).
  Proof. destruct m as [|i|]; cbn [Tens_Model.stored]; try destruct (nth_error ins i); qonly. Qed.
  Lemma oq_sums ys : only_q (t_sum_alls ys).
  Proof. induction ys as [|y ys IH]; cbn [t_sum_alls]; [apply oq_ret|]. apply oq_bind; [apply oq_mk; exact QT|intros]. apply oq_bind; [exact IH|intros; apply oq_ret]. Qed.

  Fixpoint made_of (e : expr) : bool :=
    match e with
    | EUn _ e => made_of e
    | EBin _ e1 e2 | ELet e1 e2 => made_of e1 && made_of e2
    | EOp1 o _ e => Q o && made_of e
    | EOp2 o _ e1 e2 => Q o && made_of e1 && made_of e2
    | EOp3 o _ e1 e2 e3 => Q o && made_of e1 && made_of e2 && made_of e3
    | _ => true
    end.
  Lemma oq_expr ins out gy e : made_of e = true -> forall env, only_q (build_expr ins out gy env e).
  Proof.
    induction e; intros H env; cbn [build_expr made_of] in *; rewrite ?andb_true_iff in H; try apply oq_ret.
    - destruct (nth_error ins i); qonly.
    - destruct (nth_error env k); qonly.
    - destruct (nth_error ins i); qonly.
    - apply oq_scalar.
    - apply oq_ints.
    - apply oq_bind; [auto|intros; apply oq_un].
    - destruct H. apply oq_bind; [auto|intros]. apply oq_bind; [auto|intros; apply oq_bin].
    - destruct H. apply oq_bind; [auto|intros]. apply oq_bind; [apply oq_stored|intros; apply oq_mk; auto].
    - destruct H as [[H1 H2] H3]. apply oq_bind; [auto|intros]. apply oq_bind; [auto|intros].
      apply oq_bind; [apply oq_stored|intros; apply oq_mk; auto].
    - destruct H as [[[H1 H2] H3] H4]. apply oq_bind; [auto|intros]. apply oq_bind; [auto|intros]. apply oq_bind; [auto|intros].
      apply oq_bind; [apply oq_stored|intros; apply oq_mk; auto].
    - destruct H. apply oq_bind; auto.
  Qed.
  Definition omade_of (r : option expr) : bool := match r with Some e => made_of e | None => true end.
  Lemma oq_exprs ins out gy rs : forallb omade_of rs = true -> only_q (build_exprs ins out gy rs).
  Proof.
    induction rs as [|[e|] rs IH]; intros H; cbn [build_exprs forallb omade_of] in *.
    - apply oq_ret.
    - apply andb_prop in H. destruct H. apply oq_bind; [apply oq_expr; auto|intros]. apply oq_bind; [auto|intros; apply oq_ret].
    - apply oq_bind; [auto|intros; apply oq_ret].
  Qed.
  Lemma oq_repeat r k : omade_of r = true -> forallb omade_of (repeat r k) = true.
  Proof. intros H. induction k; simpl; auto. rewrite H. auto. Qed.

  (** All rules of the graph's operations are made of such operations. *)
  Definition rules_ok (g : tgraph) : Prop :=
    forall i n rs, nth_error g i = Some n -> trule (n_op n) (length (n_inputs n)) = Some rs -> forallb omade_of rs = true.
  Lemma oq_opgrad g y gy : rules_ok g -> only_q (t_opgrad g y gy).
  Proof.
    intros HR. unfold t_opgrad. destruct (nth_error g y) as [n|] eqn:Hn; [|apply oq_fail].
    destruct (trule (n_op n) (length (n_inputs n))) as [rs|] eqn:E; [|apply oq_fail]. apply oq_exprs. eapply HR; eauto.
  Qed.
  Lemma grad_adds_q pop debug fuel ys xs gys g l g' log : rules_ok g ->
    t_grad_with_default pop debug fuel ys xs gys g = Ok (l, g', log) -> adds_q g g'.
  Proof.
    intros HR. unfold t_grad_with_default. apply grad_frame; eauto using addsq_refl, addsq_trans.
    - intros y gy s r s' H. eapply oq_opgrad; eauto.
    - intros k s r s' H. eapply oq_add_n; eauto.
    - intros s r s' H. eapply oq_scalar; eauto.
    - intros x s r s' H. eapply oq_zeros; eauto.
  Qed.
End Adds.

Lemma safe_basics k : safe k TShape = true /\ (forall l, safe k (TConstI l) = true) /\ (forall r, safe k (TScalar r) = true) /\ (forall u, safe k (TUn u) = true) /\
  (forall b, safe k (TBin b) = true) /\ safe k TInferShape = true /\ safe k TAddN = true /\ safe k TZeros = true /\ safe k TSumAll = true.
Proof. destruct k; repeat split. Qed.

Lemma steady_rule k o m rs : steady k o = true -> trule o m = Some rs -> forallb (omade_of (safe k)) rs = true.
Proof.
  intros S H. destruct o; cbn [trule] in H; try discriminate; try (injection H as <-); try (destruct k; first [discriminate|reflexivity]); try (destruct k; apply oq_repeat; reflexivity).
  all: try (match goal with u : uop |- _ => destruct u | b : bop |- _ => destruct b end; destruct k; try discriminate; try (injection H as <-); reflexivity).
  all: destruct m as [|[|[|m]]]; try discriminate; injection H as <-; destruct k; first [discriminate|reflexivity].
Qed.

Lemma worse_le a b k : order_leb a k = true -> order_leb b k = true -> order_leb (worse a b) k = true.
Proof. destruct a, b, k; auto. Qed.
Lemma result_order_le o a b : order_leb a b = true -> order_leb (result_order o a) (result_order o b) = true.
Proof. intros H. destruct o; cbn [result_order]; first [exact H|apply order_refl]. Qed.

Lemma tgrad_safe k pop debug fuel ys xs g l g' log : all_ops (steady k) g -> t_grad pop debug fuel ys xs g = Ok (l, g', log) -> all_ops (safe k) g'.
Proof.
  destruct (safe_basics k) as (QS & QI & QC & QU & QB & QF & QA & QZ & QT). intros HA H.
  assert (AD : adds_q (safe k) g g').
  { unfold t_grad in H. destruct (t_sum_alls ys g) as [[ys' g1]|] eqn:E; [|discriminate].
    pose proof (oq_sums (safe k) QT ys g ys' g1 E) as A1. eapply addsq_trans; [exact A1|]. eapply grad_adds_q; try exact H; auto.
    intros i n rs Hn Hr. destruct A1 as (new & -> & F).
    destruct (lt_dec i (length g)) as [Hi|Hi].
    - rewrite nth_error_app1 in Hn by exact Hi. destruct (HA i n Hn) as [Eo|Hs]; [rewrite Eo in Hr; discriminate|]. eapply steady_rule; eauto.
    - assert (B : adds_q (fun o => match o with TSumAll => true | _ => false end) g (g ++ new)) by (eapply oq_sums; [|exact E]; reflexivity).
      destruct B as (new' & En & F'). apply app_inv_head in En. subst new'. rewrite nth_error_app2 in Hn by lia. apply nth_error_In in Hn.
      rewrite Forall_forall in F'. specialize (F' n Hn). apply (steady_rule k (n_op n) (length (n_inputs n))); [|exact Hr].
      destruct (n_op n); try discriminate. destruct k; reflexivity. }
  destruct AD as (new & -> & F). intros i n Hn. destruct (lt_dec i (length g)) as [Hi|Hi].
  - rewrite nth_error_app1 in Hn by exact Hi. destruct (HA i n Hn) as [Eo|Hs]; [left; exact Eo|right]. unfold steady in Hs. apply andb_prop in Hs. apply Hs.
  - rewrite nth_error_app2 in Hn by lia. apply nth_error_In in Hn. rewrite Forall_forall in F. right. apply F. exact Hn.
Qed.

(** All tensors of a graph of safe operations are stored as its leaves. *)
Lemma safe_orders k g : loose g -> all_ops (safe k) g -> forall i, (i < length g)%nat -> order_leb (order_of (fun _ => k) g i) k = true.
Proof.
  intros W HA i. induction i as [i IH] using (well_founded_induction lt_wf). intros Hi.
  destruct (nth_error g i) as [n|] eqn:Hn; [|apply nth_error_None in Hn; lia].
  destruct (HA i n Hn) as [Eo|Hs].
  - rewrite (order_of_leaf _ g i n Hn Eo). apply order_refl.
  - assert (D : n_op n = TLeaf \/ n_op n <> TLeaf) by (destruct (n_op n); auto; right; discriminate).
    destruct D as [Eo|Ho]; [rewrite (order_of_leaf _ g i n Hn Eo); apply order_refl|].
    rewrite (order_of_op _ g i n Hn Ho) by (intros inc Hin; eapply lo_input; eauto).
    apply andb_prop in Hs. destruct Hs as [Hs _]. eapply order_trans; [|exact Hs]. apply result_order_le.
    assert (L : forall inc, In inc (n_inputs n) -> order_leb (order_of (fun _ => k) g (in_id inc)) k = true).
    { intros inc Hin. pose proof (lo_input g W i n inc Hn Hin). apply IH; lia. }
    clear -L. induction (n_inputs n) as [|inc ins IHi]; cbn [map fold_right]; [destruct k; reflexivity|].
    apply worse_le; [apply L; left; reflexivity|apply IHi; intros; apply L; right; assumption].
Qed.
Lemma safe_meets k g req : (forall o, safe k o = true -> forall p q, In (p, q) (req o) -> order_leb k q = true) -> req TLeaf = [] ->
  loose g -> all_ops (safe k) g -> meets req (fun _ => k) g.
Proof.
  intros HR HR0 W HA i n p q inc Hn Hin Hp. destruct (HA i n Hn) as [Eo|Hs]; [rewrite Eo, HR0 in Hin; destruct Hin|].
  eapply order_trans; [|eapply HR; eauto]. apply safe_orders; auto.
  pose proof (lo_input g W i n inc Hn (nth_error_In _ _ Hp)). assert (i < length g)%nat by (apply nth_error_Some; congruence). lia.
Qed.
Lemma safe_must k g : loose g -> all_ops (safe k) g -> meets must_be (fun _ => k) g.
Proof.
  apply safe_meets; [|reflexivity]. intros o Hs p q Hin. apply andb_prop in Hs. destruct Hs as [_ Hs]. rewrite forallb_forall in Hs.
  apply (Hs (p, q)). apply in_or_app. left. exact Hin.
Qed.
Lemma safe_should k g : loose g -> all_ops (safe k) g -> meets should_be (fun _ => k) g.
Proof.
  apply safe_meets; [|reflexivity]. intros o Hs p q Hin. apply andb_prop in Hs. destruct Hs as [_ Hs]. rewrite forallb_forall in Hs.
  apply (Hs (p, q)). apply in_or_app. right. exact Hin.
Qed.

Lemma p_leaf_values_grow g g' feeds env w : adds_ops g g' -> p_leaf_values g feeds env w -> p_leaf_values g' feeds env w.
Proof.
  intros (new & -> & F) HL i n Hn Ho. destruct (lt_dec i (length g)) as [Hi|Hi].
  - rewrite nth_error_app1 in Hn by exact Hi. apply HL; auto.
  - rewrite nth_error_app2 in Hn by lia. apply nth_error_In in Hn. rewrite Forall_forall in F. destruct (F n Hn). exact Ho.
Qed.

(** Evaluating a graph of safe operations. *)
Lemma safe_eval lax ls g debug feeds env w k place fuel targets :
  loose g -> places place -> all_ops (safe k) g -> conform ls (elements_of w) -> p_leaf_values g feeds env w ->
  (forall i n, nth_error g i = Some n -> n_op n = TLeaf -> stored k (PA (w i))) ->
  (forall t, In t targets -> exists sh, wtyped ls lax g t (TyA sh)) -> distinct_computed g targets ->
  2 * (length targets + edge_count g) < fuel ->
  exists results log, eval pv_shape (place_compute place) debug g feeds fuel targets env = Ok (Outcome results env log) /\
    Forall2 (fun t r => exists v, r = inl (PA v) /\ contents 0%R v = aval (elements_of w) g t /\ stored k (PA v)) targets results.
Proof.
  intros W P HA C HL HS HT HD Hf.
  destruct (eval_returns lax ls g W debug feeds env w (fun _ => k) place P C HL HS (safe_must k g W HA) fuel targets (safe_should k g W HA) HT HD Hf) as ([rs e lg] & E).
  destruct (eval_right lax ls g W debug feeds env w (fun _ => k) place P C HL HS (safe_must k g W HA) fuel targets _ HT E) as [R En].
  cbn in R, En. subst e. exists rs, lg. split; [exact E|]. unfold returns in R. clear -R HT W HA.
  induction R as [|t r ts rs (v & E & C & S) _ IH]; constructor.
  - exists v. split; [exact E|]. split; [exact C|]. eapply stored_le; [|exact S]. apply safe_orders; auto.
    destruct (HT t (or_introl eq_refl)) as (sh & Hty). eapply wtyped_lt; exact Hty.
  - apply IH. intros u Hu. apply HT. right. exact Hu.
Qed.

(** Gradients: construction and evaluation return. *)
Lemma safe_gradients lax pop debug fuel ls g ys xs k :
  (forall g, heap_pop g (pop g)) -> sound lax ls g -> (forall y, In y ys -> usesx lax ls g y /\ exists sh, shaped ls g y sh) -> ys <> [] ->
  NoDup xs -> (forall x, In x xs -> t_input_leaf g x) ->
  2 * (2 * length ys + backprop_edges g) < fuel -> length g + length ys < fuel ->
  67 * (length g + length ys) + 4 * length xs + 3 <= node_limit ->
  (debug = true -> forall z n, between g ys xs z -> nth_error g z = Some n -> comparison (n_op n) = false) ->
  (forall x, In x xs -> matters g ys x -> flows g ys x) ->
  all_ops (steady k) g ->
  exists l g' log, t_grad pop debug fuel ys xs g = Ok (l, g', log) /\
    Forall2 (fun x r => forall debug2 feeds env w place fuel2,
      places place -> conform ls (elements_of w) -> p_leaf_values g feeds env w ->
      (forall i n, nth_error g i = Some n -> n_op n = TLeaf -> stored k (PA (w i))) ->
      2 * (1 + edge_count g') < fuel2 ->
      exists gx log2, eval pv_shape (place_compute place) debug2 g' feeds fuel2 [fst r] env = Ok (Outcome [inl (PA gx)] env log2) /\
        has_shape (ls x) (contents 0%R gx) /\ stored k (PA gx) /\
        forall v, has_shape (ls x) v -> (forall y, In y ys -> t_smooth ls g (elements_of w) x y) ->
          derivable_pt_lim
            (fun t => fold_right Rplus 0%R (map (fun y => elements_sum (aval (put (elements_of w) x (step (elements_of w x) v t)) g y)) ys))
            0%R (dot (contents 0%R gx) v)) xs l.
Proof.
  intros Hpop SW Hys Hne Nxs Hxs Hf1 Hf2 Hsz Hdb Hfl HK.
  destruct (proj2 (proj1 (grad_returns_iff lax pop Hpop debug ls g ys xs SW Hys Nxs Hxs fuel Hne Hf1 Hf2 Hsz Hdb)) Hfl) as (l & g' & log & E).
  exists l, g', log. split; [exact E|].
  destruct (tgrad_derivative_x lax pop debug fuel ys xs ls g l g' log SW Hpop Hys Nxs Hxs E) as ((W' & _) & _ & HR).
  pose proof (tgrad_safe k pop debug fuel ys xs g l g' log HK E) as HA. pose proof (tgrad_adds_ops _ _ _ _ _ _ _ _ _ E) as AD.
  eapply Forall2_imp; [|exact HR]. cbv beta. intros x r (Ht & Hd) debug2 feeds env w place fuel2 P C HL HS Hf.
  destruct (safe_eval lax ls g' debug2 feeds env w k place fuel2 [fst r]) as (rs & log2 & Hev & HF); auto.
  - apply (twf_loose ls g' W').
  - eapply p_leaf_values_grow; eauto.
  - intros i n Hn Ho. destruct AD as (new & -> & F). destruct (lt_dec i (length g)) as [Hi|Hi].
    + rewrite nth_error_app1 in Hn by exact Hi. eauto.
    + rewrite nth_error_app2 in Hn by lia. apply nth_error_In in Hn. rewrite Forall_forall in F. destruct (F n Hn). exact Ho.
  - intros t [<-|[]]. eauto.
  - intros l1 t l2 El _ Hin. destruct l1 as [|a [|b l1]]; [injection El as _ <-; destruct Hin|discriminate|discriminate].
  - inversion HF as [|? r0 ? ? (gx & -> & EC & S) HF']; subst. inversion HF'; subst. exists gx, log2. split; [exact Hev|]. rewrite EC.
    split; [apply (wtyped_aval ls lax (elements_of w) g' _ _ C Ht)|]. split; [exact S|]. intros v Hv Hs. apply Hd; auto.
Qed.
