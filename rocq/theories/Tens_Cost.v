(** Array graphs: how many tensors, with how many operands, gradient construction adds. *)
From Coq Require Import String List Arith ZArith NArith Bool Lia Reals.
Import ListNotations.
From Verif Require Import Graph_Model Eval_Model Eval_Spec Eval_Proofs Graph_Proofs Grad_Model Grad_Spec
  Grad_Path_Proofs Grad_Proofs Grad_Final Grad_Frame Grad_Cost Scalar_Model Scalar_Spec Scalar_Proofs Scalar_Grad.
From Verif Require Import Array_Model Array_Proofs Vjp_Spec Tens_Model Tens_Spec Tens_Fwd Tens_Build Tens_Lax Tens_Grad Tens_Final
  Helper_Tens Returns_Spec Tens_Total Tens_New Tens_Returns.
Local Set Bullet Behavior "Strict Subproofs".
Local Open Scope nat_scope.

(** Operands of all tensors of a graph. *)
Definition operands {O} (g : graph O) : nat := list_sum (map (fun n => length (n_inputs n)) g).
(** Tensors, and operands [w] times. *)
Definition weight (w : nat) (g : tgraph) : nat := length g + w * operands g.

Section Builders.
  Variable w : nat.
  (** [f] adds at most [k] tensors with [i] operands in all. *)
  Definition spends {A} (k i : nat) (f : tbld A) : Prop :=
    forall s a s', f s = Some (a, s') -> weight w s' <= weight w s + k + w * i.

  Lemma spends_ret {A} (a : A) k i : spends k i (tret a).
  Proof. intros s b s' H. inv H. nia. Qed.
  Lemma spends_fail {A} k i : spends k i (fun _ => @None (A * tgraph)).
  Proof. intros s b s' H. discriminate. Qed.
  Lemma spends_more {A} k i k' i' (f : tbld A) : spends k i f -> k <= k' -> i <= i' -> spends k' i' f.
  Proof. intros H K I s a s' E. specialize (H s a s' E). nia. Qed.
  Lemma spends_bind {A B} k1 i1 k2 i2 (f : tbld A) (h : A -> tbld B) :
    spends k1 i1 f -> (forall a, spends k2 i2 (h a)) -> spends (k1 + k2) (i1 + i2) (tbind f h).
  Proof.
    intros F H s b s' E. unfold tbind in E. destruct (f s) as [[a s1]|] eqn:Ef; [|discriminate].
    apply F in Ef. apply H in E. nia.
  Qed.
  Lemma spends_mk ins sh d o : spends 1 (length ins) (tmk ins sh d o).
  Proof.
    intros s a s' E. unfold tmk in E. destruct (build s _ o) as [[s2 id]|] eqn:Hb; [|discriminate]. inv E.
    apply build_spec in Hb. destruct Hb as (-> & _ & ->). unfold weight, operands.
    rewrite map_app, list_sum_app, app_length. cbn. rewrite map_length. lia.
  Qed.
  Lemma spends_shape x : spends 1 1 (a_shape_of x).
  Proof.
    intros s a s' E. unfold a_shape_of in E. destruct (nth_error s x) as [n|]; [|discriminate].
    destruct (n_shape n) as [id|]; [inv E; nia|]. apply spends_mk in E. exact E.
  Qed.
  Lemma spends_ints l : spends 2 0 (a_ints l).
  Proof. apply (spends_bind 1 0 1 0); [apply spends_mk|]. intros; apply spends_mk. Qed.
  Lemma spends_scalar r : spends 3 0 (a_scalar r).
  Proof. apply (spends_bind 2 0 1 0); [apply spends_ints|]. intros; apply spends_mk. Qed.
  Lemma spends_un u x : spends 2 2 (a_un u x).
  Proof.
    unfold a_un. destruct (un_sets_shape u).
    - apply (spends_bind 1 1 1 1); [apply spends_shape|]. intros; apply spends_mk.
    - apply (spends_more 1 1); [apply spends_mk|lia|lia].
  Qed.
  Lemma spends_bin b x y : spends 4 6 (a_bin b x y).
  Proof.
    assert (P : spends 4 6 (tmk [x; y] None true (TBin b))) by (apply (spends_more 1 2); [apply spends_mk|lia|lia]).
    assert (Q : spends 4 6 (tbind (a_shape_of y) (fun sh => tmk [x; y] (Some sh) true (TBin b)))).
    { apply (spends_more 2 3); [|lia|lia]. apply (spends_bind 1 1 1 2); [apply spends_shape|]. intros; apply spends_mk. }
    assert (X : spends 4 6 (tbind (a_shape_of x) (fun sx => tbind (a_shape_of y) (fun sy =>
                  tbind (tmk [sx; sy] None true TInferShape) (fun sh => tmk [x; y] (Some sh) true (TBin b)))))).
    { apply (spends_bind 1 1 3 5); [apply spends_shape|]. intros. apply (spends_bind 1 1 2 4); [apply spends_shape|]. intros.
      apply (spends_bind 1 2 1 2); [apply spends_mk|]. intros; apply spends_mk. }
    unfold a_bin. destruct b; first [exact P|exact Q|exact X].
  Qed.
  Lemma spends_add_n xs : spends 2 (1 + length xs) (a_add_n xs).
  Proof.
    unfold a_add_n. destruct xs as [|x xs]; [apply spends_fail|].
    apply (spends_bind 1 1 1 (length (x :: xs))); [apply spends_shape|]. intros; apply spends_mk.
  Qed.
  Lemma spends_zeros x : spends 2 2 (a_zeros_like x).
  Proof. apply (spends_bind 1 1 1 1); [apply spends_shape|]. intros; apply spends_mk. Qed.
  Lemma spends_sum_alls : forall ys, spends (length ys) (length ys) (t_sum_alls ys).
  Proof.
    induction ys as [|y ys IH]; cbn [t_sum_alls length]; [apply spends_ret|].
    apply (spends_bind 1 1 (length ys) (length ys)); [apply (spends_mk [y])|]. intros.
    apply (spends_more (length ys + 0) (length ys + 0)); [|lia|lia].
    apply spends_bind; [exact IH|]. intros; apply spends_ret.
  Qed.

  Lemma spends_stored ins m last : spends 1 1 (stored ins m last).
  Proof.
    destruct m as [|i|]; cbn [stored]; try apply spends_ret. destruct (nth_error ins i); [|apply spends_fail].
    apply (spends_bind 1 1 0 0); [apply spends_shape|]. intros; apply spends_ret.
  Qed.

  (** Operands of the tensors an expression adds; [ecost] counts the tensors. *)
  Fixpoint icost (e : expr) : nat :=
    match e with
    | EGy | EOut | EIn _ | EVar _ | EInts _ | EScalar _ => 0
    | EShape _ => 1
    | EUn _ e => icost e + 2
    | EBin _ e1 e2 => icost e1 + icost e2 + 6
    | EOp1 _ _ e => icost e + 2
    | EOp2 _ _ e1 e2 => icost e1 + icost e2 + 3
    | EOp3 _ _ e1 e2 e3 => icost e1 + icost e2 + icost e3 + 4
    | ELet e b => icost e + icost b
    end.
  Lemma spends_expr ins out gy : forall e env, spends (ecost e) (icost e) (build_expr ins out gy env e).
  Proof.
    induction e as [|i| |j|i|r|l|u e IH|b e1 IH1 e2 IH2|o m e IH|o m e1 IH1 e2 IH2|o m e1 IH1 e2 IH2 e3 IH3|e1 IH1 e2 IH2];
      intros env; cbn [build_expr ecost icost].
    - apply spends_ret.
    - destruct (nth_error ins i); [apply spends_ret|apply spends_fail].
    - apply spends_ret.
    - destruct (nth_error env j); [apply spends_ret|apply spends_fail].
    - destruct (nth_error ins i); [apply spends_shape|apply spends_fail].
    - apply spends_scalar.
    - apply spends_ints.
    - apply spends_bind; [apply IH|apply spends_un].
    - apply (spends_more (ecost e1 + (ecost e2 + 4)) (icost e1 + (icost e2 + 6))); [|lia|lia].
      apply spends_bind; [apply IH1|]. intros. apply spends_bind; [apply IH2|]. intros. apply spends_bin.
    - apply spends_bind; [apply IH|]. intros. apply (spends_bind 1 1 1 1); [apply spends_stored|]. intros; apply spends_mk.
    - apply (spends_more (ecost e1 + (ecost e2 + (1 + 1))) (icost e1 + (icost e2 + (1 + 2)))); [|lia|lia].
      apply spends_bind; [apply IH1|]. intros. apply spends_bind; [apply IH2|]. intros.
      apply spends_bind; [apply spends_stored|]. intros; apply (spends_mk [a; a0]).
    - apply (spends_more (ecost e1 + (ecost e2 + (ecost e3 + (1 + 1)))) (icost e1 + (icost e2 + (icost e3 + (1 + 3))))); [|lia|lia].
      apply spends_bind; [apply IH1|]. intros. apply spends_bind; [apply IH2|]. intros. apply spends_bind; [apply IH3|]. intros.
      apply spends_bind; [apply spends_stored|]. intros; apply (spends_mk [a; a0; a1]).
    - apply spends_bind; [apply IH1|]. intros. apply IH2.
  Qed.

  Definition ricost (r : option expr) : nat := match r with Some e => icost e | None => 0 end.
  Definition rsicost (rs : list (option expr)) : nat := fold_right (fun r n => ricost r + n) 0 rs.
  Lemma spends_exprs ins out gy : forall rs, spends (rscost rs) (rsicost rs) (build_exprs ins out gy rs).
  Proof.
    induction rs as [|[e|] rs IH]; cbn [build_exprs rscost rsicost fold_right rcost ricost].
    - apply spends_ret.
    - apply spends_bind; [apply spends_expr|]. intros.
      apply (spends_more (rscost rs + 0) (rsicost rs + 0)); [|unfold rscost; lia|unfold rsicost; lia].
      apply spends_bind; [exact IH|]. intros; apply spends_ret.
    - apply (spends_more (rscost rs + 0) (rsicost rs + 0)); [|unfold rscost; lia|unfold rsicost; lia].
      apply spends_bind; [exact IH|]. intros; apply spends_ret.
  Qed.
End Builders.

(** No rule adds more tensors, with more operands, than this; whatever the operands. *)
Definition rule_operands : nat := 72.
Lemma repeat_cost n r : rcost r = 0 -> ricost r = 0 -> rscost (repeat r n) = 0 /\ rsicost (repeat r n) = 0.
Proof.
  intros A B. induction n as [|n [IH1 IH2]]; [split; reflexivity|]. cbn [repeat rscost rsicost fold_right].
  rewrite A, B. split; assumption.
Qed.
Lemma rule_cost o k rs : trule o k = Some rs -> rscost rs <= rule_nodes /\ rsicost rs <= rule_operands.
Proof.
  unfold rule_nodes, rule_operands. intros HR. destruct o; cbn [trule] in HR; try discriminate; try (injection HR as <-).
  all: try (match goal with |- context [repeat ?r ?n] => destruct (repeat_cost n r eq_refl eq_refl) as [-> ->]; lia end).
  all: try (match goal with u : uop |- _ => destruct u | b : bop |- _ => destruct b end).
  all: try (destruct k as [|[|[|k]]]; try discriminate HR; injection HR as <-).
  all: cbn; lia.
Qed.
Lemma spends_opgrad w g y gy : spends w rule_nodes rule_operands (t_opgrad g y gy).
Proof.
  unfold t_opgrad. destruct (nth_error g y) as [n|]; [|apply spends_fail].
  destruct (trule (n_op n) (length (n_inputs n))) as [rs|] eqn:E; [|apply spends_fail].
  apply rule_cost in E. eapply spends_more; [apply spends_exprs|apply E|apply E].
Qed.

Lemma weighted w pop debug fuel ys xs gys (g s : tgraph) l s' log :
  grad_with_default g (t_opgrad g) a_add_n (a_scalar 1) a_zeros_like pop debug fuel ys xs gys s = Ok (l, s', log) ->
  w = 0 \/ (NoDup log /\ NoDup xs) ->
  weight w s' <= weight w s + 3 + (2 + w + (rule_nodes + w * rule_operands)) * length log +
                 (2 + w + (2 + w * 2)) * length xs + 2 * w * (length ys + list_sum (map (fanin g) log)).
Proof.
  intros E Hw.
  refine (gradient_cost_bound g (t_opgrad g) a_add_n (a_scalar 1) a_zeros_like pop debug (weight w) w (2 + w)
            (rule_nodes + w * rule_operands) 3 (2 + w * 2) _ _ _ _ fuel ys xs gys s l s' log E Hw).
  - intros y gy s0 gxs s1 H. apply (spends_opgrad w) in H. lia.
  - intros l0 s0 t s1 H. apply (spends_add_n w) in H. nia.
  - intros s0 t s1 H. apply (spends_scalar w) in H. lia.
  - intros x s0 t s1 H. apply (spends_zeros w) in H. lia.
Qed.

(** The nodes of [grad], whatever the graph. *)
Lemma grad_nodes pop debug fuel ys xs (g : tgraph) l g' log :
  t_grad pop debug fuel ys xs g = Ok (l, g', log) ->
  length g' <= length g + length ys + 3 + 66 * length log + 4 * length xs.
Proof.
  unfold t_grad. destruct (t_sum_alls ys g) as [[ys' g1]|] eqn:Es; [|discriminate]. intros E.
  destruct (sum_alls_size ys g ys' g1 Es) as (L1 & L2 & _).
  apply (weighted 0) in E; [|left; reflexivity]. unfold weight, rule_nodes in E. lia.
Qed.

(** ** The rules called *)
Section Log.
  Variable lax : bool.
  Variable ls : nat -> list nat.
  Variable g : tgraph.
  Hypothesis SW : sound lax ls g.
  Variable pop : list nat -> option (nat * list nat).
  Hypothesis Hpop : heap_pop g pop.
  Variable debug : bool.
  Variables ys xs : list nat.
  Hypothesis Hys : forall y, In y ys -> differentiable g y /\ usesx lax ls g y /\ exists sh, typed ls g y (TyA sh).
  Hypothesis Hnd : NoDup ys.
  Hypothesis Hxs : forall x, In x xs -> usesx lax ls g x /\ exists sh, typed ls g x (TyA sh).

  Theorem a_log fuel s l s' log :
    a_good lax ls g s -> (forall y, In y ys -> typed ls g y (TyA [])) ->
    grad_with_default g (t_opgrad g) a_add_n (a_scalar 1) a_zeros_like pop debug fuel ys xs None s = Ok (l, s', log) ->
    NoDup log /\ length log <= length g /\ forall z, In z log -> In z ys \/ between g ys xs z.
  Proof.
    intros Hs Hg E. pose proof (proj1 SW) as W. destruct conform_exists with (ls := ls) as (rho & C).
    destruct (rules_called g vzero v_one vadd (a_vjp lax ls g rho) (a_good lax ls g) (a_valid lax ls g) (a_den rho) grows (a_passes g)
       (t_opgrad g) a_add_n (a_one None) (a_zeros xs) pop debug ys xs) with (gys := @None (list nat)) (s := s) (fuel := fuel)
       (seeds := map (fun _ : nat => v_one) ys) (l := l) (s' := s') (log := log) as (L1 & L2 & _ & L3); eauto using a_ranked, a_denotes.
    - intros y Hy. apply Hys; auto.
    - apply a_one_ok. intros _ y Hy. split; [apply Hys|]; auto.
    - cbn [seed_values]. reflexivity.
    - rewrite <- E. unfold grad_with_default. destruct (no_outputs ys); auto.
      change (a_one None) with (a_scalar 1).
      destruct (compute_gradients _ _ _ _ _ _ _ _ _ _ _) as [st| |]; auto.
      rewrite (extract_all_zeros a_add_n (a_zeros xs) a_zeros_like xs); auto.
      intros z s0 Hz. unfold a_zeros. destruct (in_dec Nat.eq_dec z xs); [reflexivity|contradiction].
    - split; [exact L1|]. split; [exact L3|]. intros z Hz. apply L2 in Hz. destruct Hz as [Hz|(_ & (Hd & Hr) & y & es & Hy & Hp)]; auto.
      right. split; [|exact Hr]. exists y. split; auto. split; [apply Hys; auto|]. split; auto.
      exists es. clear -Hp. induction Hp; econstructor; eauto.
  Qed.
End Log.

Lemma map_nth_seq {A B} (f : option A -> B) (h : list A) :
  map (fun i => f (nth_error h i)) (seq 0 (length h)) = map (fun a => f (Some a)) h.
Proof. induction h as [|a h IH]; [reflexivity|]. cbn [length seq map nth_error]. f_equal. rewrite <- seq_shift, map_map. exact IH. Qed.

Section Linear.
  Variable lax : bool.
  Variable pop : tgraph -> list nat -> option (nat * list nat).
  Hypothesis Hpop : forall g, heap_pop g (pop g).
  Variables (debug : bool) (ls : nat -> list nat) (g : tgraph) (ys xs : list nat).
  Hypothesis SW : sound lax ls g.
  Hypothesis Hys : forall y, In y ys -> usesx lax ls g y /\ exists sh, shaped ls g y sh.
  Hypothesis Nxs : NoDup xs.
  Hypothesis Hxs : forall x, In x xs -> t_input_leaf g x.

  Lemma fanin_operands (h : tgraph) log : twf ls h -> NoDup log -> (forall z, In z log -> z < length h) ->
    list_sum (map (fanin h) log) <= operands h.
  Proof.
    intros W N Hl. etransitivity; [apply (sum_incl _ log (seq 0 (length h)) N)|].
    - intros z Hz. apply in_seq. specialize (Hl z Hz). lia.
    - unfold operands. assert (E : map (fanin h) (seq 0 (length h)) = map (fun n => length (n_inputs n)) h); [|rewrite E; lia].
      rewrite <- (map_nth_seq (fun o => match o with Some n => length (n_inputs n) | None => 0 end) h).
      apply map_ext. intros i. unfold fanin. destruct (nth_error h i) as [n|] eqn:En; [|reflexivity].
      unfold get_backprop_inputs. rewrite (twf_backprop ls h W i n En). reflexivity.
  Qed.

  Theorem grad_linear fuel l g' log : t_grad pop debug fuel ys xs g = Ok (l, g', log) ->
    NoDup log /\ length log <= length g + length ys /\
    (forall z, In z log -> length g <= z \/ between g ys xs z) /\
    length g' + operands g' <= 145 * (length g + operands g + length ys + length xs).
  Proof.
    unfold t_grad. destruct (t_sum_alls ys g) as [[ys' g1]|] eqn:Hsum; [|discriminate]. intros E. pose proof (proj1 SW) as W.
    destruct (t_sum_alls_spec ls ys g ys' g1 W) as (W1 & G1 & ND & HF); auto.
    { apply Forall_forall. intros y Hy. apply (Hys y Hy). }
    destruct (sum_alls_size ys g ys' g1 Hsum) as (L1 & L2 & L3).
    assert (SW1 : sound lax ls g1).
    { split; [exact W1|]. intros Hl. eapply t_sum_alls_attached; [exact (proj2 SW Hl)|exact Hsum]. }
    assert (HF' : Forall2 (fun y y' => (length g <= y')%nat /\ typed ls g1 y' (TyA []) /\
                       exists n, nth_error g1 y' = Some n /\ t_sum_node y n) ys ys').
    { eapply Forall2_imp; [|exact HF]. simpl. tauto. }
    assert (Hvs : forall x, In x xs -> t_input_leaf g1 x /\ ~ In x ys').
    { intros x Hx. destruct (Hxs x Hx) as (n & Hn & A & B). split.
      + exists n. split; [eapply grows_nth; eauto|auto].
      + intros Hin. apply In_nth_error in Hin. destruct Hin as (k & Hk).
        destruct (Forall2_nth2 _ _ _ _ _ HF Hk) as (y & Hy & Hle & _).
        assert (x < length g)%nat by (apply nth_error_Some; congruence). lia. }
    assert (HFs : Forall2 (fun y y' => (length g <= y')%nat /\ exists n, nth_error g1 y' = Some n /\ t_sum_node y n) ys ys').
    { eapply Forall2_imp; [|exact HF']. simpl. tauto. }
    pose proof (w_lt lax ls g ys Hys) as Hlt.
    pose proof (w_ys lax ls g ys SW Hys ys' g1 G1 HF') as Hys'.
    assert (Hown : forall z, In z ys' -> length g <= z).
    { intros z Hz. apply In_nth_error in Hz. destruct Hz as (k & Hk). destruct (Forall2_nth2 _ _ _ _ _ HF' Hk) as (y & _ & Hle & _). exact Hle. }
    unfold t_grad_with_default in E.
    destruct (a_log lax ls g1 SW1 (pop g1) (Hpop g1) debug ys' xs) with (fuel := fuel) (s := g1) (l := l) (s' := g') (log := log) as (N1 & N2 & N3); auto.
    { intros y Hy. destruct (Hys' y Hy) as (A & B & C & _). eauto. }
    { split; [exact SW1|apply grows_refl]. }
    { intros y Hy. apply (Hys' y Hy). }
    assert (Hrange : forall z, In z log -> length g <= z \/ between g ys xs z).
    { intros z Hz. specialize (N3 z Hz). destruct (in_dec Nat.eq_dec z ys') as [Hi|Hni]; [left; auto|].
      destruct N3 as [K|K]; [contradiction|].
      destruct (sums_between ls g g1 ys ys' W1 G1 Hlt HFs xs z (or_intror K)) as [(y & n & Hn & Hs)|(_ & Hb)]; [|auto].
      destruct (Nat.le_gt_cases (length g) z) as [|Hz']; [auto|]. right.
      destruct K as ((y0 & Hy0 & Hd0 & Hdz & es & Hp) & x & Hx & Hr).
      inversion Hp as [|? p w es' ? He _ Hw Hp']; subst; [specialize (Hown _ Hy0); lia|].
      pose proof Hy0 as Hy1. apply In_nth_error in Hy1. destruct Hy1 as (k & Hk).
      destruct (Forall2_nth2 _ _ _ _ _ HFs Hk) as (y1 & Hy1 & Hle & n1 & Hn1 & Hs1). apply nth_error_In in Hy1.
      destruct (sum_edge ls g1 W1 y1 y0 n1 p w Hn1 Hs1 He) as [-> ->]. pose proof (Hlt y1 Hy1) as Hyl.
      assert (Hrz : reaches g1 y1 z) by (exists es'; exact Hp').
      apply (reaches_prefix ls g g1 y1 z W1 G1 Hyl) in Hrz. apply (reaches_prefix ls g g1 z x W1 G1 Hz') in Hr.
      destruct G1 as [new ->]. split; [|exists x; auto]. exists y1. split; auto.
      split; [apply (differentiable_prefix g new); auto|]. split; [apply (differentiable_prefix g new); auto|auto]. }
    split; [exact N1|]. split; [lia|]. split; [exact Hrange|].
    assert (Hgl : forall z, In z log -> z < length g1).
    { intros z Hz. destruct (N3 z Hz) as [K|((_ & _ & _ & (n & Hn & _) & _) & _)].
      - destruct (Hys' z K) as ((n & Hn & _) & _). apply nth_error_Some. congruence.
      - apply nth_error_Some. congruence. }
    pose proof (fanin_operands g1 log W1 N1 Hgl) as Hfan.
    assert (Hop1 : operands g1 = operands g + length ys).
    { pose proof (spends_sum_alls 1 ys g ys' g1 Hsum) as Q. clear - Hsum. revert g ys' g1 Hsum.
      induction ys as [|y l0 IH]; intros s r s' H; cbn [t_sum_alls] in H; [inv H; simpl; lia|].
      unfold tbind in H. destruct (a_sum_all y s) as [[t s0]|] eqn:E; [|discriminate].
      destruct (t_sum_alls l0 s0) as [[l2 s1]|] eqn:E0; [|discriminate]. inv H. apply IH in E0. rewrite E0.
      unfold a_sum_all, tmk in E. destruct (build s _ TSumAll) as [[s2 id]|] eqn:Hb; [|discriminate]. inv E.
      apply build_spec in Hb. destruct Hb as (-> & _ & ->). unfold operands. rewrite map_app, list_sum_app. cbn. lia. }
    assert (Hnz : 1 <= length g).
    { destruct ys as [|y r] eqn:Ey.
      - inversion HF'; subst. cbn in E. discriminate.
      - specialize (Hlt y (or_introl eq_refl)). lia. }
    apply (weighted 1) in E; [|right; auto]. unfold weight, rule_nodes, rule_operands in E. lia.
  Qed.
End Linear.
