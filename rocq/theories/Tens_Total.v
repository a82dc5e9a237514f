(** Array graphs: gradient construction returns. *)
From Coq Require Import String List Arith ZArith NArith Bool Lia Reals Relations.
Import ListNotations.
From Verif Require Import Graph_Model Eval_Model Eval_Spec Eval_Proofs Graph_Proofs Grad_Model Grad_Spec
  Grad_Path_Proofs Grad_Proofs Grad_Final Grad_Frame Grad_Room Scalar_Model Scalar_Spec Scalar_Proofs Scalar_Grad.
From Verif Require Import Array_Model Array_Proofs Vjp_Spec Tens_Model Tens_Spec Tens_Fwd Tens_Build Tens_Lax Tens_Grad Returns_Spec.
Local Set Bullet Behavior "Strict Subproofs".

(** ** Builders succeed while the graph is not full *)
Definition node_limit : nat := N.to_nat (NUM_NODES_CRITICAL + 1).
Lemma limit_ok n : n + 1 <= node_limit -> (NUM_NODES_CRITICAL <? N.of_nat n)%N = false.
Proof. unfold node_limit. generalize NUM_NODES_CRITICAL. intros k H. apply N.ltb_ge. lia. Qed.
Opaque node_limit.

(** [f] adds at most [k] nodes to [s]. *)
Definition adds_most {A} (k : nat) (P : A -> tgraph -> Prop) (f : tbld A) (s : tgraph) : Prop :=
  length s + k <= node_limit -> exists a s', f s = Some (a, s') /\ length s <= length s' /\ length s' <= length s + k /\ P a s'.
Definition here (t : nat) (s : tgraph) : Prop := t < length s.
Definition any {A} (_ : A) (_ : tgraph) : Prop := True.

Lemma most_ret {A} (P : A -> tgraph -> Prop) a s k : P a s -> adds_most k P (tret a) s.
Proof. intros H _. exists a, s. split; [reflexivity|]. repeat split; auto; lia. Qed.
Lemma most_bind {A B} k1 k2 k (P : A -> tgraph -> Prop) (Q : B -> tgraph -> Prop) (f : tbld A) (h : A -> tbld B) s :
  adds_most k1 P f s -> (forall a s', length s <= length s' -> P a s' -> adds_most k2 Q (h a) s') -> k1 + k2 <= k ->
  adds_most k Q (tbind f h) s.
Proof.
  intros F H Hk Hl. destruct F as (a & s1 & E1 & L1 & L2 & Pa); [lia|].
  destruct (H a s1 L1 Pa) as (b & s2 & E2 & L3 & L4 & Qb); [lia|].
  exists b, s2. unfold tbind. rewrite E1. repeat split; auto; lia.
Qed.
Lemma most_mk ins sh d o s k : 1 <= k -> adds_most k here (tmk ins sh d o) s.
Proof.
  intros Hk Hl. unfold tmk, build, install. cbn [b_inputs b_shape b_ph b_diff b_backprop b_known b_var].
  rewrite limit_ok by lia. eexists _, _. split; [reflexivity|]. unfold here. rewrite app_length. simpl. lia.
Qed.
Lemma most_shape x s k : here x s -> 1 <= k -> adds_most k any (a_shape_of x) s.
Proof.
  intros Hx Hk Hl. unfold a_shape_of. destruct (nth_error s x) as [n|] eqn:En; [|apply nth_error_None in En; unfold here in Hx; lia].
  destruct (n_shape n) as [id|]; [exists id, s; unfold any; repeat split; auto; lia|].
  destruct (most_mk [x] None false TShape s k Hk Hl) as (a & s' & E & L1 & L2 & _). exists a, s'. unfold any. auto.
Qed.
Lemma here_grows {x s s'} : here x s -> length s <= length s' -> here x s'.
Proof. unfold here. lia. Qed.
Lemma most_ints l s k : 2 <= k -> adds_most k here (a_ints l) s.
Proof. intros Hk. apply (most_bind 1 1 k here); [apply most_mk; lia| |lia]. intros. apply most_mk. lia. Qed.
Lemma most_scalar r s k : 3 <= k -> adds_most k here (a_scalar r) s.
Proof. intros Hk. apply (most_bind 2 1 k here); [apply most_ints; lia| |lia]. intros. apply most_mk. lia. Qed.
Lemma most_un u x s k : here x s -> 2 <= k -> adds_most k here (a_un u x) s.
Proof.
  intros Hx Hk. unfold a_un. destruct (un_sets_shape u); [|apply most_mk; lia].
  apply (most_bind 1 1 k any); [apply most_shape; auto| |lia]. intros. apply most_mk. lia.
Qed.
Lemma most_bin b x y s k : here x s -> here y s -> 4 <= k -> adds_most k here (a_bin b x y) s.
Proof.
  intros Hx Hy Hk. destruct b; cbn [a_bin]; try (apply most_mk; lia);
    try (apply (most_bind 1 1 k any); [apply most_shape; auto| |lia]; intros; apply most_mk; lia).
  all: apply (most_bind 1 3 k any); [apply most_shape; auto| |lia]; intros sx s1 L1 _;
    apply (most_bind 1 2 3 any); [apply most_shape; [exact (here_grows Hy L1)|lia]| |lia]; intros sy s2 L2 _;
    apply (most_bind 1 1 2 here); [apply most_mk; lia| |lia]; intros; apply most_mk; lia.
Qed.
Lemma most_add_n xs s k : xs <> [] -> (forall x, In x xs -> here x s) -> 2 <= k -> adds_most k here (a_add_n xs) s.
Proof.
  intros Hn Hx Hk. destruct xs as [|x xs]; [congruence|]. cbn [a_add_n].
  apply (most_bind 1 1 k any); [apply most_shape; [apply Hx; left; auto|lia]| |lia]. intros. apply most_mk. lia.
Qed.
Lemma most_zeros x s k : here x s -> 2 <= k -> adds_most k here (a_zeros_like x) s.
Proof. intros Hx Hk. apply (most_bind 1 1 k any); [apply most_shape; auto| |lia]. intros. apply most_mk. lia. Qed.

(** ** Rules *)

(** The expressions of a rule mention existing inputs and bound tensors only; shapes are
    not operands of elementwise operations. *)
Definition is_shape (e : expr) : bool := match e with EShape _ => true | _ => false end.
Definition mode_in (n : nat) (m : smode) : bool := match m with SOfIn i => (i <? n)%nat | _ => true end.
Fixpoint scoped (n k : nat) (e : expr) : bool :=
  match e with
  | EGy | EOut | EScalar _ | EInts _ => true
  | EIn i | EShape i => (i <? n)%nat
  | EVar j => (j <? k)%nat
  | EUn _ e => scoped n k e && negb (is_shape e)
  | EBin _ e1 e2 => scoped n k e1 && scoped n k e2 && negb (is_shape e1) && negb (is_shape e2)
  | EOp1 _ m e => scoped n k e && mode_in n m
  | EOp2 _ m e1 e2 => scoped n k e1 && scoped n k e2 && mode_in n m
  | EOp3 _ m e1 e2 e3 => scoped n k e1 && scoped n k e2 && scoped n k e3 && mode_in n m
  | ELet e b => scoped n k e && negb (is_shape e) && scoped n (S k) b && negb (is_shape b)
  end.
Fixpoint ecost (e : expr) : nat :=
  match e with
  | EGy | EOut | EIn _ | EVar _ => 0
  | EShape _ => 1
  | EInts _ => 2
  | EScalar _ => 3
  | EUn _ e => ecost e + 2
  | EBin _ e1 e2 => ecost e1 + ecost e2 + 4
  | EOp1 _ _ e => ecost e + 2
  | EOp2 _ _ e1 e2 => ecost e1 + ecost e2 + 2
  | EOp3 _ _ e1 e2 e3 => ecost e1 + ecost e2 + ecost e3 + 2
  | ELet e b => ecost e + ecost b
  end.

Lemma most_stored ins m last s k : (forall x, In x ins -> here x s) -> mode_in (length ins) m = true -> 1 <= k ->
  adds_most k any (stored ins m last) s.
Proof.
  intros Hi Hm Hk. destruct m as [|i|]; cbn [stored]; try (apply most_ret; exact I).
  cbn in Hm. apply Nat.ltb_lt in Hm. destruct (nth_error ins i) as [x|] eqn:E; [|apply nth_error_None in E; lia].
  apply (most_bind 1 0 k any); [apply most_shape; [apply Hi; eapply nth_error_In; eauto|lia]| |lia]. intros. apply most_ret. exact I.
Qed.

Definition spot (e : expr) (t : nat) (s : tgraph) : Prop := is_shape e = false -> here t s.
Lemma most_expr ins out gy : forall e env s,
  (forall x, In x ins -> here x s) -> here out s -> here gy s -> (forall x, In x env -> here x s) ->
  scoped (length ins) (length env) e = true -> adds_most (ecost e) (spot e) (build_expr ins out gy env e) s.
Proof.
  induction e as [|i| |j|i|r|l|u e IH|b e1 IH1 e2 IH2|o m e IH|o m e1 IH1 e2 IH2|o m e1 IH1 e2 IH2 e3 IH3|e1 IH1 e2 IH2];
    intros env s Hi Ho Hg He Hs; cbn [build_expr scoped ecost] in *.
  - apply most_ret. intros _. exact Hg.
  - apply Nat.ltb_lt in Hs. destruct (nth_error ins i) as [x|] eqn:E; [|apply nth_error_None in E; lia].
    apply most_ret. intros _. apply Hi. eapply nth_error_In; eauto.
  - apply most_ret. intros _. exact Ho.
  - apply Nat.ltb_lt in Hs. destruct (nth_error env j) as [x|] eqn:E; [|apply nth_error_None in E; lia].
    apply most_ret. intros _. apply He. eapply nth_error_In; eauto.
  - apply Nat.ltb_lt in Hs. destruct (nth_error ins i) as [x|] eqn:E; [|apply nth_error_None in E; lia].
    intros Hl. destruct (most_shape x s 1 (Hi x (nth_error_In _ _ E)) (le_n 1) Hl) as (a & s' & K & L1 & L2 & _).
    exists a, s'. repeat split; auto. intros Q. discriminate.
  - intros Hl. destruct (most_scalar r s 3 (le_n 3) Hl) as (a & s' & K & L1 & L2 & H). exists a, s'. repeat split; auto. intros _; exact H.
  - intros Hl. destruct (most_ints l s 2 (le_n 2) Hl) as (a & s' & K & L1 & L2 & H). exists a, s'. repeat split; auto. intros _; exact H.
  - apply andb_true_iff in Hs. destruct Hs as [Hs Hn]. apply negb_true_iff in Hn.
    apply (most_bind (ecost e) 2 _ (spot e)); [apply IH; auto| |lia]. intros x s1 L1 Hx.
    intros Hl. destruct (most_un u x s1 2 (Hx Hn) (le_n 2) Hl) as (a & s' & K & M1 & M2 & H). exists a, s'. repeat split; auto. intros _; exact H.
  - repeat (apply andb_true_iff in Hs; destruct Hs as [Hs ?]). apply negb_true_iff in H, H0.
    apply (most_bind (ecost e1) (ecost e2 + 4) _ (spot e1)); [apply IH1; auto| |lia]. intros x s1 L1 Hx.
    apply (most_bind (ecost e2) 4 _ (spot e2)); [apply IH2; eauto using here_grows| |lia]. intros y s2 L2 Hy.
    intros Hl. destruct (most_bin b x y s2 4 (here_grows (Hx H0) L2) (Hy H) (le_n 4) Hl) as (a & s' & K & M1 & M2 & Q).
    exists a, s'. repeat split; auto. intros _; exact Q.
  - apply andb_true_iff in Hs. destruct Hs as [Hs Hm].
    apply (most_bind (ecost e) 2 _ (spot e)); [apply IH; auto| |lia]. intros x s1 L1 Hx.
    apply (most_bind 1 1 _ any); [apply most_stored; eauto using here_grows| |lia]. intros sh s2 L2 _.
    intros Hl. destruct (most_mk [x] sh (op_diff o) o s2 1 (le_n 1) Hl) as (a & s' & K & M1 & M2 & Q). exists a, s'. repeat split; auto. intros _; exact Q.
  - repeat (apply andb_true_iff in Hs; destruct Hs as [Hs ?]).
    apply (most_bind (ecost e1) (ecost e2 + 2) _ (spot e1)); [apply IH1; auto| |lia]. intros x s1 L1 Hx.
    apply (most_bind (ecost e2) 2 _ (spot e2)); [apply IH2; eauto using here_grows| |lia]. intros y s2 L2 Hy.
    apply (most_bind 1 1 _ any); [apply most_stored; eauto using here_grows| |lia]. intros sh s3 L3 _.
    intros Hl. destruct (most_mk [x; y] sh true o s3 1 (le_n 1) Hl) as (a & s' & K & M1 & M2 & Q). exists a, s'. repeat split; auto. intros _; exact Q.
  - repeat (apply andb_true_iff in Hs; destruct Hs as [Hs ?]).
    apply (most_bind (ecost e1) (ecost e2 + ecost e3 + 2) _ (spot e1)); [apply IH1; auto| |lia]. intros x s1 L1 Hx.
    apply (most_bind (ecost e2) (ecost e3 + 2) _ (spot e2)); [apply IH2; eauto using here_grows| |lia]. intros y s2 L2 Hy.
    apply (most_bind (ecost e3) 2 _ (spot e3)); [apply IH3; eauto 6 using here_grows| |lia]. intros z s3 L3 Hz.
    apply (most_bind 1 1 _ any); [apply most_stored; eauto 6 using here_grows| |lia]. intros sh s4 L4 _.
    intros Hl. destruct (most_mk [x; y; z] sh true o s4 1 (le_n 1) Hl) as (a & s' & K & M1 & M2 & Q). exists a, s'. repeat split; auto. intros _; exact Q.
  - repeat (apply andb_true_iff in Hs; destruct Hs as [Hs ?]). apply negb_true_iff in H, H1.
    apply (most_bind (ecost e1) (ecost e2) _ (spot e1)); [apply IH1; auto| |lia]. intros x s1 L1 Hx.
    intros Hl. destruct (IH2 (x :: env) s1) as (a & s' & K & M1 & M2 & Q); eauto using here_grows.
    { intros z [<-|Hz]; [apply Hx; exact H1|eauto using here_grows]. }
    exists a, s'. repeat split; auto. intros _. exact (Q H).
Qed.

Definition oscoped (n : nat) (r : option expr) : bool := match r with Some e => scoped n 0 e | None => true end.
Definition rcost (r : option expr) : nat := match r with Some e => ecost e | None => 0 end.
Definition rscost (rs : list (option expr)) : nat := fold_right (fun r n => rcost r + n) 0 rs.
Lemma most_exprs ins out gy : forall rs s,
  (forall x, In x ins -> here x s) -> here out s -> here gy s -> forallb (oscoped (length ins)) rs = true ->
  adds_most (rscost rs) (fun l _ => length l = length rs) (build_exprs ins out gy rs) s.
Proof.
  induction rs as [|[e|] rs IH]; intros s Hi Ho Hg Hs; cbn [build_exprs forallb oscoped rscost fold_right rcost] in *.
  - apply most_ret. reflexivity.
  - apply andb_true_iff in Hs. destruct Hs as [Hs1 Hs2].
    apply (most_bind (ecost e) (rscost rs) _ any); [| |reflexivity].
    { intros Hl. destruct (most_expr ins out gy e [] s Hi Ho Hg ltac:(intros x []) Hs1 Hl) as (a & s' & K & L1 & L2 & _). exists a, s'. unfold any. auto. }
    intros t s1 L1 _. apply (most_bind (rscost rs) 0 _ (fun l _ => length l = length rs)); [apply IH; eauto using here_grows| |lia].
    intros l s2 L2 Hl. apply most_ret. simpl. congruence.
  - apply (most_bind (rscost rs) 0 _ (fun l _ => length l = length rs)); [apply IH; auto| |unfold rscost; lia].
    intros l s2 L2 Hl. apply most_ret. simpl. congruence.
Qed.

(** No rule adds more than this many tensors. *)
Definition rule_nodes : nat := 64.
Lemma rscost_repeat_gy n : rscost (repeat (Some EGy) n) = 0.
Proof. induction n; auto. Qed.
Lemma rscost_repeat_none n : rscost (repeat None n) = 0.
Proof. induction n; auto. Qed.
Lemma scoped_repeat k n r : oscoped k r = true -> forallb (oscoped k) (repeat r n) = true.
Proof. intros H. induction n; simpl; rewrite ?H; auto. Qed.


Lemma rule_scoped o ts t rs : op_ty o ts = Some t -> o <> TLeaf -> trule o (length ts) = Some rs ->
  forallb (oscoped (length ts)) rs = true /\ rscost rs <= rule_nodes.
Proof.
  intros HT Ho HR. unfold rule_nodes.
  destruct o; cbn [trule] in HR; try congruence; try (injection HR as <-).
  all: try (split; [apply scoped_repeat; reflexivity|rewrite ?rscost_repeat_gy, ?rscost_repeat_none; lia]).
  all: destruct ts as [|[sh0|l0] [|t1 [|t2 [|t3 ts]]]]; try (cbn in HT; discriminate HT); try (cbn in HT; destruct sh0; discriminate HT).
  all: try (match goal with u : uop |- _ => destruct u | b : bop |- _ => destruct b end).
  all: try (split; [cbn; reflexivity|cbn; lia]).
  all: try (cbn in HR; discriminate HR).
  all: try (cbn in HR; injection HR as <-; split; [cbn; reflexivity|cbn; lia]).
  all: cbn in HT; repeat match type of HT with context [match ?l with [] => _ | _ => _ end] => destruct l; try discriminate HT end.
  all: try discriminate HT.
  - destruct t1; discriminate HT.
  - destruct keep; discriminate HT.
Qed.

Lemma rule_complete lax o ts t : op_ty o ts = Some t -> o <> TLeaf -> op_use lax o ts = true ->
  exists rs, trule o (length ts) = Some rs /\ (ts <> [] -> comparison o = false -> length rs = length ts).
Proof.
  intros HT Ho HU.
  assert (U : op_fit o ts = true \/ exists norm axis, o = TGather norm axis).
  { unfold op_use in HU. destruct lax; [|left; exact HU]. destruct o; try (left; exact HU). right. eauto. }
  destruct U as [U|(norm & axis & ->)].
  - destruct o; try congruence; try (cbn in U; discriminate U); cbn [trule]; eexists; (split; [reflexivity|]); intros N K.
    all: try (rewrite repeat_length; reflexivity).
    all: destruct ts as [|[sh0|l0] [|t1 [|t2 [|t3 ts]]]]; try congruence; try (cbn in HT; discriminate HT); try (cbn in HT; destruct sh0; discriminate HT).
    all: try reflexivity.
    all: try (match goal with u : uop |- _ => destruct u | b : bop |- _ => destruct b end; first [reflexivity|discriminate K]).
    all: cbn in HT; repeat match type of HT with context [match ?l with [] => _ | _ => _ end] => destruct l; try discriminate HT end.
    all: try discriminate HT.
    all: try (destruct t1; discriminate HT).
    all: repeat match type of HT with context [match ?l with [] => _ | _ => _ end] => destruct l; try discriminate HT end.
    all: try discriminate HT.
    all: try (destruct t1; try discriminate HT; repeat match type of HT with context [match ?l with [] => _ | _ => _ end] => destruct l; try discriminate HT end).
    all: try discriminate HT.
    all: try (match goal with k : bool |- _ => destruct k; discriminate HT | z : Z |- _ => destruct z; discriminate HT end).
    all: try (destruct z0; discriminate HT).
    all: try (destruct keep; discriminate HT).
  - cbn [trule]. eexists. split; [reflexivity|]. intros _ _.
    destruct ts as [|[sh0|l0] [|t1 [|t2 ts]]]; cbn in HT; try discriminate HT; [|destruct t1; discriminate HT]. reflexivity.
Qed.

(** ** Where gradients pass *)

Lemma carries_rule lax o ts t rs p : op_ty o ts = Some t -> op_use lax o ts = true -> trule o (length ts) = Some rs -> (p < length ts)%nat ->
  ((exists e, nth_error rs p = Some (Some e)) <-> carries o p = true).
Proof.
  intros HT HU HR Hp.
  assert (U : op_fit o ts = true \/ exists norm axis, o = TGather norm axis).
  { unfold op_use in HU. destruct lax; [|left; exact HU]. destruct o; try (left; exact HU). right. eauto. }
  destruct U as [U|(norm & axis & ->)].
  2: { cbn in HR. injection HR as <-. cbn [carries]. destruct p as [|[|p]]; cbn; split; try discriminate; eauto.
       - intros (e & He). discriminate.
       - intros (e & He). destruct p; discriminate. }
  destruct o; cbn [trule] in HR; try discriminate HR; try (injection HR as <-); try (cbn in U; discriminate U); cbn [carries].
  all: try (split; [intros (e & He); destruct p as [|[|[|p]]]; cbn in He; congruence|discriminate]).
  all: try (destruct p as [|[|[|p]]]; cbn; split; try discriminate; eauto; intros (e & He); try discriminate; destruct p; discriminate).
  all: try (split; [reflexivity|]; intros _; rewrite nth_error_repeat by exact Hp; eauto).
  all: destruct ts as [|[sh0|l0] [|[sh1|l1] [|t2 ts]]]; try (cbn in HT; discriminate HT);
    try (cbn in HT; destruct sh0 as [|? [|? [|? ?]]]; try discriminate HT; destruct sh1 as [|? [|? [|? ?]]]; discriminate HT).
  all: cbn [length] in Hp; try (match goal with u : uop |- _ => destruct u | b : bop |- _ => destruct b end).
  all: destruct p as [|[|p]]; try lia; cbn; split; intros Q; try discriminate Q; try reflexivity; try (eexists; reflexivity); destruct Q as (e & Q); discriminate Q.
Qed.


(** ** The construction returns *)
Section Returns.
  Variable lax : bool.
  Variable ls : nat -> list nat.
  Variable g : tgraph.
  Hypothesis SW : sound lax ls g.
  Variable pop : list nat -> option (nat * list nat).
  Hypothesis Hpop : heap_pop g pop.
  Variable debug : bool.
  Variables ys xs : list nat.
  Hypothesis Hys : forall y, In y ys -> differentiable g y /\ usesx lax ls g y /\ exists sh, typed ls g y (TyA sh).
  Hypothesis Hop : forall y n, In y ys -> nth_error g y = Some n -> n_inputs n <> [].
  Hypothesis Hnd : NoDup ys.
  Hypothesis Hxs : forall x, In x xs -> usesx lax ls g x /\ exists sh, typed ls g x (TyA sh).
  Hypothesis Hndx : NoDup xs.
  Hypothesis Hacc : forall x, In x xs -> accum_once g ys x.

  Lemma opgrad_total y gy s n : a_good lax ls g s -> a_valid lax ls g y s gy -> nth_error g y = Some n -> n_inputs n <> [] ->
    length s + rule_nodes <= node_limit ->
    exists gxs s', t_opgrad g y gy s = Some (gxs, s') /\ length s' <= length s + rule_nodes /\
      (comparison (n_op n) = false -> gxs <> [] /\ length (get_backprop_inputs n) = length gxs).
  Proof.
    intros [Ws Gs] (Hu & sh & Ty & Tg) Hn Hi Hl. pose proof (proj1 SW) as W. unfold t_opgrad. rewrite Hn.
    destruct (typed_inputs ls g y n (TyA sh) Hn Ty) as [[Eo _]|(Ho & ts & HT & Hop')].
    { destruct (twf_leaf ls g W y n Hn Eo) as [E _]. congruence. }
    pose proof (typed_lookups ls g y n ts HT) as HL.
    assert (Hf : op_use lax (n_op n) ts = true) by (eapply Hu; eauto; apply rt_refl).
    assert (Hlen : length (n_inputs n) = length ts) by (eapply Forall2_len; eauto).
    destruct (rule_complete lax (n_op n) ts (TyA sh) Hop' Ho Hf) as (rs & Hrs & Hc). rewrite Hlen, Hrs.
    destruct (rule_scoped (n_op n) ts (TyA sh) rs Hop' Ho Hrs) as [Sc Co].
    assert (Hgl : length g <= length s) by (destruct Gs as [new ->]; rewrite app_length; lia).
    destruct (most_exprs (map in_id (n_inputs n)) y gy rs s) as (l & s' & E & L1 & L2 & L3).
    - intros x Hx. apply in_map_iff in Hx. destruct Hx as (inc & <- & Hin). unfold here.
      pose proof (twf_input ls g W y n inc Hn Hin). assert (y < length g) by (apply nth_error_Some; congruence). lia.
    - unfold here. assert (y < length g) by (apply nth_error_Some; congruence). lia.
    - eapply wtyped_lt; exact Tg.
    - rewrite map_length, Hlen. exact Sc.
    - lia.
    - exists l, s'. split; [exact E|]. split; [lia|]. intros Hcmp.
      assert (Hne : ts <> []) by (intros ->; destruct (n_inputs n); [congruence|discriminate]).
      rewrite (a_backprop ls g W n y Hn), Hlen, L3, (Hc Hne Hcmp). split; [|reflexivity].
      intros ->. specialize (Hc Hne Hcmp). simpl in L3. destruct ts; [congruence|simpl in Hc; lia].
  Qed.

  Lemma carries_here y n t p inc : nth_error g y = Some n -> typed ls g y t -> usesx lax ls g y -> nth_error (n_inputs n) p = Some inc ->
    (a_passes g y p <-> carrying g y p) /\
    usesx lax ls g (in_id inc) /\ exists t', typed ls g (in_id inc) t'.
  Proof.
    intros Hn Ty Hu Hp. pose proof (proj1 SW) as W.
    destruct (typed_inputs ls g y n t Hn Ty) as [[Eo _]|(Ho & ts & HT & Hop')].
    { destruct (twf_leaf ls g W y n Hn Eo) as [E _]. rewrite E in Hp. destruct p; discriminate. }
    pose proof (typed_lookups ls g y n ts HT) as HL.
    assert (Hf : op_use lax (n_op n) ts = true) by (eapply Hu; eauto; apply rt_refl).
    assert (Hlen : length (n_inputs n) = length ts) by (eapply Forall2_len; eauto).
    destruct (rule_complete lax (n_op n) ts t Hop' Ho Hf) as (rs & Hrs & _).
    assert (Hpl : p < length ts) by (rewrite <- Hlen; apply nth_error_Some; congruence).
    pose proof (carries_rule lax (n_op n) ts t rs p Hop' Hf Hrs Hpl) as Q.
    split; [split|split].
    - intros (n' & rs' & e & Hn' & Hr' & He). assert (n' = n) by congruence. subst n'. rewrite Hlen, Hrs in Hr'.
      injection Hr' as <-. exists n. split; auto. apply Q. eauto.
    - intros (n' & Hn' & Hc). assert (n' = n) by congruence. subst n'. apply Q in Hc. destruct Hc as (e & He).
      exists n, rs, e. rewrite Hlen. auto.
    - eapply fits_input; eauto. eapply nth_error_In; eauto.
    - destruct (Forall2_nth _ _ _ _ _ HT Hp) as (t' & _ & _ & _ & Ht'). eauto.
  Qed.
  Lemma carries_path y es x : forall t, typed ls g y t -> usesx lax ls g y ->
    (path g (a_passes g) y es x <-> path g (carrying g) y es x).
  Proof.
    pose proof (proj1 SW) as W. revert y. induction es as [|[y0 p] es IH]; intros y t Ty Hu.
    - split; intros H; inversion H; subst; constructor.
    - split; intros H; inversion H as [|a b z c d He Hok Hd Hp]; subst.
      + destruct (a_edge ls g W y0 p z He) as (n & inc & Hn & Hi & Hz & _). subst z.
        destruct (carries_here y0 n t p inc Hn Ty Hu Hi) as (Q & Hu' & t' & Ht').
        econstructor; eauto; [apply Q; auto|]. apply (IH _ t' Ht' Hu'). exact Hp.
      + destruct (a_edge ls g W y0 p z He) as (n & inc & Hn & Hi & Hz & _). subst z.
        destruct (carries_here y0 n t p inc Hn Ty Hu Hi) as (Q & Hu' & t' & Ht').
        econstructor; eauto; [apply Q; auto|]. apply (IH _ t' Ht' Hu'). exact Hp.
  Qed.
  Lemma a_live x : live g (a_passes g) ys x <-> flows g ys x.
  Proof.
    split.
    - intros (y & es & Hy & Hp). exists y, es. destruct (Hys y Hy) as (Hd & Hu & sh & Ty).
      repeat (split; auto). eapply carries_path; eauto.
    - intros (y & es & Hy & _ & Hp). exists y, es. destruct (Hys y Hy) as (Hd & Hu & sh & Ty).
      split; auto. eapply carries_path; eauto.
  Qed.

  Lemma has_leaf y n : nth_error g y = Some n -> ~ leaf g y -> n_inputs n <> [].
  Proof.
    intros Hn Hl E. apply Hl. exists n. auto.
  Qed.
  Hypothesis Hdebug : debug = true -> forall z n, In z ys \/ between g ys xs z -> nth_error g z = Some n -> comparison (n_op n) = false.

  Theorem a_returns fuel gys s :
    ys <> [] -> a_good lax ls g s ->
    match gys with
    | Some t => Forall2 (fun y t => a_valid lax ls g y s t) ys t
    | None => forall y, In y ys -> typed ls g y (TyA [])
    end ->
    enough_fuel g ys fuel ->
    length s + 3 + 66 * length g + 4 * length xs <= node_limit ->
    (forall x, In x xs -> differentiable g x -> (exists y, In y ys /\ reaches g y x) -> flows g ys x) ->
    exists l s' log, grad_with_default g (t_opgrad g) a_add_n (a_scalar 1) a_zeros_like pop debug fuel ys xs gys s = Ok (l, s', log).
  Proof.
    intros Hne Hs Hg Hf Hsz Hlive. pose proof (proj1 SW) as W.
    destruct conform_exists with (ls := ls) as (rho & C).
    destruct (grad_returns g vzero v_one vadd (a_vjp lax ls g rho) (a_good lax ls g) (a_valid lax ls g) (a_den rho) grows (a_passes g)
       (t_opgrad g) a_add_n (a_one gys) (a_zeros xs) pop debug ys xs) with (size := @length (node top)) (A := 2) (B := rule_nodes) (U := 3) (Z := 2)
       (L := node_limit) (fuel := fuel) (gys := gys) (s := s)
       (seeds := match gys with Some t => map (a_den rho s) t | None => map (fun _ => v_one) ys end) as (l & s' & log & E); auto.
    - apply (a_ranked ls g W).
    - intros y Hy. apply Hys; auto.
    - apply a_denotes; auto.
    - apply a_one_ok. intros ->. intros y Hy. split; [apply Hys|]; auto.
    - apply a_zeros_ok; auto.
    - intros y gy s0 Hs0 Hv Hd Hc Hl. assert (Hyl : exists n, nth_error g y = Some n).
      { destruct Hv as (_ & sh & Ty & _). pose proof (typed_lt ls g y _ Ty). destruct (nth_error g y) eqn:En; eauto. apply nth_error_None in En. lia. }
      destruct Hyl as (n & Hn).
      assert (Hi : n_inputs n <> []) by (destruct Hc as [Hc|(Hc & _)]; [eapply Hop; eauto|eapply has_leaf; eauto]).
      destruct (opgrad_total y gy s0 n Hs0 Hv Hn Hi Hl) as (gxs & s1 & E & Hl' & Hlen).
      exists gxs, s1. split; auto. split; auto. intros Hdb.
      destruct Hlen as [L1 L2].
      { eapply (Hdebug Hdb y); auto. destruct Hc as [Hc|(_ & (_ & Hr) & y0 & Hy0 & Hr0)]; auto. right. split; auto.
        exists y0. repeat (split; auto). apply Hys; auto. }
      split; auto. intros n' Hn'. assert (n' = n) by congruence. subst n'. auto.
    - intros x l s0 Hs0 Hv Hl2 Hl. destruct (most_add_n l s0 2) as (t & s1 & E & L1 & L2 & _); auto.
      + intros ->. simpl in Hl2. lia.
      + intros z Hz. rewrite Forall_forall in Hv. destruct (Hv z Hz) as (_ & sh & _ & Tz). eapply wtyped_lt; exact Tz.
      + eauto.
    - intros x s0 Hx [Ws0 Gs0] Hl. unfold a_zeros. destruct (in_dec Nat.eq_dec x xs); [|contradiction].
      destruct (most_zeros x s0 2) as (t & s1 & E & L1 & L2 & _); auto.
      + destruct (Hxs x Hx) as (_ & sh & Ty). pose proof (typed_lt ls g x _ Ty). destruct Gs0 as [new ->]. unfold here. rewrite app_length. lia.
      + eauto.
    - destruct gys as [t|]; simpl; auto.
    - intros x Hx [Hd _] Hr. apply a_live. auto.
    - intros ->. destruct (most_scalar 1 s 3) as (t & s1 & E & L1 & L2 & _); [lia|lia|]. exists t, s1. split; [exact E|lia].
    - exists l, s', log. rewrite <- E. unfold grad_with_default. destruct (no_outputs ys); auto.
      replace (compute_gradients g (t_opgrad g) a_add_n (a_one gys) pop debug fuel ys xs gys s)
        with (compute_gradients g (t_opgrad g) a_add_n (a_scalar 1) pop debug fuel ys xs gys s).
      2: { unfold a_one. destruct gys; [|reflexivity]. reflexivity. }
      destruct (compute_gradients _ _ _ _ _ _ _ _ _ _ _) as [st| |]; auto.
      rewrite (extract_all_zeros a_add_n (a_zeros xs) a_zeros_like xs); auto.
      intros x s0 Hx. unfold a_zeros. destruct (in_dec Nat.eq_dec x xs); [reflexivity|contradiction].
  Qed.

  Theorem a_only_if fuel gys s l s' log :
    a_good lax ls g s ->
    match gys with
    | Some t => Forall2 (fun y t => a_valid lax ls g y s t) ys t
    | None => forall y, In y ys -> typed ls g y (TyA [])
    end ->
    grad_with_default g (t_opgrad g) a_add_n (a_scalar 1) a_zeros_like pop debug fuel ys xs gys s = Ok (l, s', log) ->
    forall x, In x xs -> differentiable g x -> (exists y, In y ys /\ reaches g y x) -> flows g ys x.
  Proof.
    intros Hs Hg E x Hx Hd Hr. pose proof (proj1 SW) as W. destruct conform_exists with (ls := ls) as (rho & C). apply a_live.
    eapply (blocked_panics g vzero v_one vadd (a_vjp lax ls g rho) (a_good lax ls g) (a_valid lax ls g) (a_den rho) grows (a_passes g)
       (t_opgrad g) a_add_n (a_one gys) (a_zeros xs) pop debug ys xs) with (gys := gys) (s := s) (fuel := fuel) (l := l) (s' := s') (log := log)
       (seeds := match gys with Some t => map (a_den rho s) t | None => map (fun _ => v_one) ys end); eauto using a_ranked, a_denotes, a_zeros_ok.
    - intros y Hy. apply Hys; auto.
    - apply a_one_ok. intros ->. intros y Hy. split; [apply Hys|]; auto.
    - destruct gys as [t|]; simpl; auto.
    - rewrite <- E. unfold grad_with_default. destruct (no_outputs ys); auto.
      replace (compute_gradients g (t_opgrad g) a_add_n (a_one gys) pop debug fuel ys xs gys s)
        with (compute_gradients g (t_opgrad g) a_add_n (a_scalar 1) pop debug fuel ys xs gys s).
      2: { unfold a_one. destruct gys; [|reflexivity]. reflexivity. }
      destruct (compute_gradients _ _ _ _ _ _ _ _ _ _ _) as [st| |]; auto.
      rewrite (extract_all_zeros a_add_n (a_zeros xs) a_zeros_like xs); auto.
      intros z s0 Hz. unfold a_zeros. destruct (in_dec Nat.eq_dec z xs); [reflexivity|contradiction].
  Qed.

  Theorem a_terminates fuel gys s :
    a_good lax ls g s ->
    match gys with
    | Some t => Forall2 (fun y t => a_valid lax ls g y s t) ys t
    | None => forall y, In y ys -> typed ls g y (TyA [])
    end ->
    enough_fuel g ys fuel ->
    grad_with_default g (t_opgrad g) a_add_n (a_scalar 1) a_zeros_like pop debug fuel ys xs gys s <> OutOfFuel.
  Proof.
    intros Hs Hg Hf E. pose proof (proj1 SW) as W. destruct conform_exists with (ls := ls) as (rho & C).
    eapply (grad_terminates g vzero v_one vadd (a_vjp lax ls g rho) (a_good lax ls g) (a_valid lax ls g) (a_den rho) grows (a_passes g)
       (t_opgrad g) a_add_n (a_one gys) (a_zeros xs) pop debug ys xs) with (gys := gys) (s := s) (fuel := fuel)
       (seeds := match gys with Some t => map (a_den rho s) t | None => map (fun _ => v_one) ys end); eauto using a_ranked, a_denotes, a_zeros_ok.
    - intros y Hy. apply Hys; auto.
    - apply a_one_ok. intros ->. intros y Hy. split; [apply Hys|]; auto.
    - destruct gys as [t|]; simpl; auto.
    - rewrite <- E. unfold grad_with_default. destruct (no_outputs ys); auto.
      replace (compute_gradients g (t_opgrad g) a_add_n (a_one gys) pop debug fuel ys xs gys s)
        with (compute_gradients g (t_opgrad g) a_add_n (a_scalar 1) pop debug fuel ys xs gys s).
      2: { unfold a_one. destruct gys; [|reflexivity]. reflexivity. }
      destruct (compute_gradients _ _ _ _ _ _ _ _ _ _ _) as [st| |]; auto.
      rewrite (extract_all_zeros a_add_n (a_zeros xs) a_zeros_like xs); auto.
      intros z s0 Hz. unfold a_zeros. destruct (in_dec Nat.eq_dec z xs); [reflexivity|contradiction].
  Qed.
End Returns.
