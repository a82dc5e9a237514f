(** C84: gradients in debug and release builds, and second derivatives through
    operations whose gradients have no gradients. *)
From Coq Require Import String List Arith ZArith Bool Reals Lra Lia Relations.
From Coquelicot Require Import Coquelicot.
Import ListNotations.
From Verif Require Import Softmax_Model Softmax_Xent Graph_Model Eval_Model Eval_Spec Eval_Proofs Grad_Model Grad_Spec Scalar_Model Scalar_Spec Grad_Examples.
From Verif Require Import Array_Model Array_Proofs Vjp_Spec Vjp_Proofs Tens_Model Tens_Spec Tens_Examples
  Second_Spec Second_Grad Hess_Model P_Hess Returns_Spec.
Local Open Scope nat_scope.
Local Set Bullet Behavior "Strict Subproofs".

(** A rule meets the debug assertions if it supplies a gradient (or [None]) for every
    tensor that its operation sends gradients to, and at least one. *)
Definition complete {O} (g : graph O) (supplied : nat -> nat) (y : nat) : Prop :=
  exists n, nth_error g y = Some n /\ length (get_backprop_inputs n) = supplied y /\ supplied y <> 0.

Section Agree.
  Context {O S T : Type}.
  Variable g : graph O.
  Variable opgrad : nat -> T -> S -> option (list (option T) * S).
  Variable addn : list T -> S -> option (T * S).
  Variable one : S -> option (T * S).
  Variable zeros_like : nat -> S -> option (T * S).
  Variable pop : list nat -> option (nat * list nat).
  Variable supplied : nat -> nat.
  Hypothesis Hs : forall y gy s gxs s', opgrad y gy s = Some (gxs, s') -> length gxs = supplied y.
  Notation step d := (back_step g opgrad addn pop d).
  Notation loop d := (back_loop g opgrad addn pop d).

  Definition ok_b (y : nat) : bool :=
    match nth_error g y with
    | Some n => (length (get_backprop_inputs n) =? supplied y) && negb (supplied y =? 0)
    | None => false
    end.
  Lemma ok_b_spec y : ok_b y = true <-> complete g supplied y.
  Proof.
    unfold ok_b, complete. destruct (nth_error g y) as [n|].
    - rewrite andb_true_iff, negb_true_iff, Nat.eqb_eq, Nat.eqb_neq. split.
      + intros (A & B). eauto.
      + intros (m & E & A & B). injection E as <-. auto.
    - split; [discriminate|]. intros (m & E & _). discriminate.
  Qed.
  Lemma ok_all l : forallb ok_b l = true <-> List.Forall (complete g supplied) l.
  Proof. rewrite forallb_forall, List.Forall_forall. split; intros H y Hy; apply ok_b_spec; auto. Qed.

  Lemma step_agree (st : gstate) :
    match step false st with
    | Ok None => step true st = Ok None
    | Ok (Some st') => exists y, gs_log st' = y :: gs_log st /\ step true st = if ok_b y then Ok (Some st') else Panic
    | Panic => step true st = Panic
    | OutOfFuel => False
    end.
  Proof.
    unfold back_step. destruct (pop (gs_heap st)) as [[y heap]|]; [|reflexivity].
    destruct (nth_error g y) as [n|] eqn:En; [|reflexivity]. destruct (gs_map st y) as [x|]; [|reflexivity].
    destruct (gradient addn (grads x) (gs_s st)) as [[[gy l'] s1]|]; [|reflexivity].
    destruct (opgrad y gy s1) as [[gxs s2]|] eqn:Eo; [|reflexivity]. apply Hs in Eo. cbn [andb].
    assert (Eb : negb (length (get_backprop_inputs n) =? length gxs) || match gxs with [] => true | _ => false end = negb (ok_b y)).
    { unfold ok_b. rewrite En, <- Eo, negb_andb, negb_involutive. destruct gxs; reflexivity. }
    rewrite Eb. destruct (register g (get_backprop_inputs n) gxs _ heap) as [[m' heap']|].
    - exists y. cbn [gs_log]. split; [reflexivity|]. destruct (ok_b y); reflexivity.
    - destruct (ok_b y); reflexivity.
  Qed.
  Lemma log_kept d fuel : forall (st st' : gstate), loop d fuel st = Ok st' -> forallb ok_b (gs_log st') = true -> forallb ok_b (gs_log st) = true.
  Proof.
    assert (Q : forall (st st1 : gstate), step d st = Ok (Some st1) -> exists y, gs_log st1 = y :: gs_log st).
    { intros st st1. unfold back_step. destruct (pop (gs_heap st)) as [[y heap]|]; [|discriminate].
      destruct (nth_error g y) as [n|]; [|discriminate]. destruct (gs_map st y) as [x|]; [|discriminate].
      destruct (gradient addn (grads x) (gs_s st)) as [[[gy l'] s1]|]; [|discriminate].
      destruct (opgrad y gy s1) as [[gxs s2]|]; [|discriminate]. destruct (d && _); [discriminate|].
      destruct (register g _ gxs _ heap) as [[m' heap']|]; [|discriminate]. intros E. injection E as <-. exists y. reflexivity. }
    induction fuel as [|fuel IH]; intros st st' H F; [discriminate|]. cbn in H. destruct (step d st) as [[st1|]| |] eqn:E; try discriminate.
    - apply (IH _ _ H) in F. destruct (Q _ _ E) as (y & L). rewrite L in F. cbn in F. apply andb_prop in F. apply F.
    - injection H as <-. exact F.
  Qed.
  Lemma loop_agree fuel : forall (st : gstate), forallb ok_b (gs_log st) = true ->
    match loop false fuel st with
    | Ok st' => loop true fuel st = if forallb ok_b (gs_log st') then Ok st' else Panic
    | Panic => loop true fuel st = Panic
    | OutOfFuel => loop true fuel st = OutOfFuel \/ loop true fuel st = Panic
    end.
  Proof.
    induction fuel as [|fuel IH]; intros st F; [left; reflexivity|]. cbn. pose proof (step_agree st) as A.
    destruct (step false st) as [[st1|]| |].
    - destruct A as (y & L & ->). destruct (ok_b y) eqn:Ey.
      + apply IH. rewrite L. cbn. rewrite Ey, F. reflexivity.
      + destruct (loop false fuel st1) as [st'| |] eqn:E; [|reflexivity|right; reflexivity].
        destruct (forallb ok_b (gs_log st')) eqn:E'; [|reflexivity].
        apply (log_kept _ _ _ _ E) in E'. rewrite L in E'. cbn in E'. rewrite Ey in E'. discriminate.
    - rewrite A. rewrite F. reflexivity.
    - rewrite A. reflexivity.
    - destruct A.
  Qed.
  Lemma grad_agree fuel ys xs gys s :
    match grad_with_default g opgrad addn one zeros_like pop false fuel ys xs gys s with
    | Ok (l, s', log) => grad_with_default g opgrad addn one zeros_like pop true fuel ys xs gys s = if forallb ok_b log then Ok (l, s', log) else Panic
    | Panic => grad_with_default g opgrad addn one zeros_like pop true fuel ys xs gys s = Panic
    | OutOfFuel => grad_with_default g opgrad addn one zeros_like pop true fuel ys xs gys s = OutOfFuel \/
                   grad_with_default g opgrad addn one zeros_like pop true fuel ys xs gys s = Panic
    end.
  Proof.
    unfold grad_with_default. destruct (no_outputs ys); [reflexivity|]. unfold compute_gradients.
    destruct (init_path_map g fuel ys xs) as [pm| |]; [|reflexivity|left; reflexivity].
    destruct (match gys with Some l => _ | None => _ end) as [[l s1]|]; [|reflexivity].
    destruct (push_seeds ys l (gm_init pm)) as [m|]; [|reflexivity].
    pose proof (loop_agree fuel (GState m ys s1 []) eq_refl) as A. destruct (loop false fuel (GState m ys s1 [])) as [st| |].
    - rewrite A. destruct (extract_all addn zeros_like xs (gs_map st) (gs_s st)) as [[r s']|] eqn:E.
      + destruct (forallb ok_b (gs_log st)); [rewrite E|]; reflexivity.
      + destruct (forallb ok_b (gs_log st)); [rewrite E|]; reflexivity.
    - rewrite A. reflexivity.
    - destruct A as [-> | ->]; auto.
  Qed.
End Agree.

(** Whatever the operations and rules: a debug build returns what a release build returns
    if all rules it called were complete, and panics otherwise. *)
Theorem C84_debug_build :
  forall (O S T : Type) (g : graph O) (opgrad : nat -> T -> S -> option (list (option T) * S)) (addn : list T -> S -> option (T * S))
    (one : S -> option (T * S)) (zeros_like : nat -> S -> option (T * S)) (pop : list nat -> option (nat * list nat))
    (supplied : nat -> nat) (fuel : nat) (ys xs : list nat) (gys : option (list T)) (s : S),
  (forall y gy s gxs s', opgrad y gy s = Some (gxs, s') -> length gxs = supplied y) ->
  let run debug := grad_with_default g opgrad addn one zeros_like pop debug fuel ys xs gys s in
  (forall l s' called, run true = Ok (l, s', called) <-> run false = Ok (l, s', called) /\ List.Forall (complete g supplied) called) /\
  (forall l s' called, run false = Ok (l, s', called) -> ~ List.Forall (complete g supplied) called -> run true = Panic) /\
  (run false = Panic -> run true = Panic).
Proof.
  intros O S T g opgrad addn one zeros_like pop supplied fuel ys xs gys s Hs run. subst run. cbv beta.
  pose proof (grad_agree g opgrad addn one zeros_like pop supplied Hs fuel ys xs gys s) as A.
  split; [|split].
  - intros l s' called. destruct (grad_with_default g opgrad addn one zeros_like pop false fuel ys xs gys s) as [[[l0 s0] c0]| |].
    + rewrite A. split.
      * destruct (forallb _ c0) eqn:E; [|discriminate]. intros Q. injection Q as <- <- <-. split; [reflexivity|]. apply ok_all. exact E.
      * intros (Q & F). injection Q as <- <- <-. apply ok_all in F. rewrite F. reflexivity.
    + rewrite A. split; [discriminate|intros (Q & _); discriminate].
    + split; [|intros (Q & _); discriminate]. destruct A as [-> | ->]; discriminate.
  - intros l s' called E N. rewrite E in A. rewrite A. destruct (forallb _ called) eqn:F; [|reflexivity]. apply ok_all in F. contradiction.
  - intros E. rewrite E in A. exact A.
Qed.
Print Assumptions C84_debug_build.

(** Operations on arrays whose rules supply fewer gradients than they have operands:
    comparisons (math_ops.rs:193-195), and the gradients of element access
    (array_ops.rs:348-350), split (array_ops.rs:745-747) and the sparse cross entropy
    (xent_ops.rs:154-157). *)
Definition short (o : top) : bool :=
  match o with TIndexGrad _ | TSplitGrad _ _ _ | TSparseXentGrad => true | _ => comparison o end.
Definition rule_count (g : tgraph) (y : nat) : nat :=
  match nth_error g y with
  | Some n => match trule (n_op n) (length (n_inputs n)) with Some rs => length rs | None => 0 end
  | None => 0
  end.
Lemma exprs_length ins out gy rs : forall s l s', build_exprs ins out gy rs s = Some (l, s') -> length l = length rs.
Proof.
  induction rs as [|[e|] rs IH]; cbn; intros s l s' H.
  - unfold tret in H. injection H as <- _. reflexivity.
  - unfold tbind in H. destruct (build_expr ins out gy [] e s) as [[t s1]|]; [|discriminate].
    destruct (build_exprs ins out gy rs s1) as [[l1 s2]|] eqn:E; [|discriminate]. unfold tret in H. injection H as <- _. cbn. erewrite IH; eauto.
  - unfold tbind in H. destruct (build_exprs ins out gy rs s) as [[l1 s2]|] eqn:E; [|discriminate]. unfold tret in H. injection H as <- _. cbn. erewrite IH; eauto.
Qed.
Lemma opgrad_count g y gy s gxs s' : t_opgrad g y gy s = Some (gxs, s') -> length gxs = rule_count g y.
Proof.
  unfold t_opgrad, rule_count. destruct (nth_error g y) as [n|]; [|discriminate]. destruct (trule _ _) as [rs|]; [|discriminate]. apply exprs_length.
Qed.
Lemma short_bin b ts t : op_ty (TBin b) ts = Some t ->
  (length ts = length (map (option_map embed) (bin_rule b)) /\ length (map (option_map embed) (bin_rule b)) <> 0 <-> short (TBin b) = false).
Proof.
  intros HT. assert (L : length ts = 2).
  { destruct ts as [|[sh0|l0] [|[sh1|l1] [|t2 ts]]]; try (cbn in HT; discriminate HT). reflexivity. }
  rewrite L, map_length. clear. destruct b; cbn; (split; intros Q; [try reflexivity; destruct Q as (Q & _); discriminate Q|first [discriminate Q|split; [reflexivity|discriminate]]]).
Qed.
Lemma short_spec o ts t rs : op_ty o ts = Some t -> ts <> [] -> trule o (length ts) = Some rs ->
  (length ts = length rs /\ length rs <> 0 <-> short o = false).
Proof.
  intros HT N HR.
  destruct o; cbn [trule] in HR; try discriminate HR; try (injection HR as <-); try (exact (short_bin _ _ _ HT)).
  all: try (rewrite repeat_length; split; [reflexivity|]; intros _; split; [reflexivity|]; destruct ts; [congruence|discriminate]).
  all: destruct ts as [|[sh0|l0] [|t1 [|t2 [|t3 ts]]]]; try congruence; try (cbn in HT; discriminate HT); try (cbn in HT; destruct sh0; discriminate HT).
  all: try (cbn; split; [intros (? & ?); first [reflexivity|exfalso; lia]|intros Q; first [discriminate Q|split; [reflexivity|discriminate]]]; fail).
  all: try (match goal with u : uop |- _ => destruct u | b : bop |- _ => destruct b end;
            cbn; split; [intros (? & ?); first [reflexivity|exfalso; lia]|intros Q; first [discriminate Q|split; [reflexivity|discriminate]]]; fail).
  all: try (cbn in HR; injection HR as <-; cbn; split; [intros (? & ?); first [reflexivity|exfalso; lia]|intros Q; first [discriminate Q|split; [reflexivity|discriminate]]]; fail).
  all: try (cbn in HR; discriminate HR).
  all: exfalso.
  all: cbn in HT; repeat match type of HT with context [match ?l with [] => _ | _ => _ end] => destruct l; try discriminate HT end.
  all: try discriminate HT.
  all: try (destruct t1; discriminate HT).
  all: repeat match type of HT with context [match ?l with [] => _ | _ => _ end] => destruct l; try discriminate HT end.
  all: try discriminate HT.
  all: try (destruct t1; try discriminate HT; repeat match type of HT with context [match ?l with [] => _ | _ => _ end] => destruct l; try discriminate HT end).
  all: try discriminate HT.
  all: try (match goal with k : bool |- _ => destruct k; discriminate HT | z : Z |- _ => destruct z; discriminate HT end).
  all: try (destruct z0; discriminate HT).
  all: try (destruct keep; discriminate HT).
  all: try (destruct t2; discriminate HT).

Qed.

(** All tensors of the log were in the graph. *)
Lemma called_here {O S T} (g : graph O) (opgrad : nat -> T -> S -> option (list (option T) * S)) addn one zeros_like pop d fuel ys xs gys s l s' called :
  grad_with_default g opgrad addn one zeros_like pop d fuel ys xs gys s = Ok (l, s', called) ->
  forall y, In y called -> exists n gy s1 r, nth_error g y = Some n /\ opgrad y gy s1 = Some r.
Proof.
  assert (Q : forall fuel (st st' : gstate), back_loop g opgrad addn pop d fuel st = Ok st' ->
     (forall y, In y (gs_log st) -> exists n gy s1 r, nth_error g y = Some n /\ opgrad y gy s1 = Some r) ->
     forall y, In y (gs_log st') -> exists n gy s1 r, nth_error g y = Some n /\ opgrad y gy s1 = Some r).
  { clear. induction fuel as [|fuel IH]; intros st st' H A; [discriminate|]. cbn in H.
    destruct (back_step g opgrad addn pop d st) as [[st1|]| |] eqn:E; try discriminate; [|injection H as <-; exact A].
    apply (IH _ _ H). revert E. unfold back_step. destruct (pop (gs_heap st)) as [[y heap]|]; [|discriminate].
    destruct (nth_error g y) as [n|] eqn:En; [|discriminate]. destruct (gs_map st y) as [x|]; [|discriminate].
    destruct (gradient addn (grads x) (gs_s st)) as [[[gy l'] s1]|]; [|discriminate].
    destruct (opgrad y gy s1) as [[gxs s2]|] eqn:Eo; [|discriminate]. destruct (d && _); [discriminate|].
    destruct (register g _ gxs _ heap) as [[m' heap']|]; [|discriminate]. intros E. injection E as <-. cbn [gs_log].
    intros z [<-|Hz]; eauto. exists n, gy, s1, (gxs, s2). split; assumption. }
  unfold grad_with_default. destruct (no_outputs ys); [discriminate|]. unfold compute_gradients.
  destruct (init_path_map g fuel ys xs) as [pm| |]; try discriminate.
  destruct (match gys with Some l => _ | None => _ end) as [[l0 s1]|]; try discriminate.
  destruct (push_seeds ys l0 (gm_init pm)) as [m|]; try discriminate.
  destruct (back_loop g opgrad addn pop d fuel (GState m ys s1 [])) as [st| |] eqn:E; try discriminate.
  destruct (extract_all addn zeros_like xs (gs_map st) (gs_s st)) as [[r s2]|]; try discriminate. intros H. injection H as _ _ <-.
  apply (Q _ _ _ E). intros y [].
Qed.

(** Array graphs: a debug build returns if and only if a release build returns and no rule
    it called was that of a short operation or of a tensor without operands. *)
Theorem C84_array_graphs :
  forall (pop : tgraph -> list nat -> option (nat * list nat)) (fuel : nat) (ls : nat -> list nat) (ys xs : list nat) (gys : option (list nat)) (g : tgraph),
  twf ls g -> (forall z, z < length g -> exists t, nth_error (ttypes ls g) z = Some (Some t)) ->
  let run debug := t_grad_with_default pop debug fuel ys xs gys g in
  let fine called := forall z n, In z called -> nth_error g z = Some n -> n_inputs n <> [] /\ short (n_op n) = false in
  (forall l g' called, run true = Ok (l, g', called) <-> run false = Ok (l, g', called) /\ fine called) /\
  (forall l g' called, run false = Ok (l, g', called) -> ~ fine called -> run true = Panic) /\
  (run false = Panic -> run true = Panic).
Proof.
  intros pop fuel ls ys xs gys g W HT run fine. subst run fine. cbv beta. unfold t_grad_with_default.
  destruct (C84_debug_build top tgraph nat g (t_opgrad g) a_add_n (a_scalar 1) a_zeros_like (pop g) (rule_count g) fuel ys xs gys g
    (fun y gy s gxs s' => opgrad_count g y gy s gxs s')) as (A & B & C).
  assert (Q : forall d l g' called, grad_with_default g (t_opgrad g) a_add_n (a_scalar 1) a_zeros_like (pop g) d fuel ys xs gys g = Ok (l, g', called) ->
     (List.Forall (complete g (rule_count g)) called <->
      forall z n, In z called -> nth_error g z = Some n -> n_inputs n <> [] /\ short (n_op n) = false)).
  { intros d l g' called E. pose proof (called_here _ _ _ _ _ _ _ _ _ _ _ _ _ _ _ E) as K.
    assert (P : forall z, In z called -> (complete g (rule_count g) z <-> forall n, nth_error g z = Some n -> n_inputs n <> [] /\ short (n_op n) = false)).
    { intros z Hz. destruct (K z Hz) as (n & gy & s1 & r & Hn & Ho).
      assert (Hl : z < length g) by (apply nth_error_Some; congruence). destruct (HT z Hl) as (t & Ty).
      unfold t_opgrad in Ho. rewrite Hn in Ho. destruct (trule (n_op n) (length (n_inputs n))) as [rs|] eqn:Er; [|discriminate].
      assert (Rc : rule_count g z = length rs) by (unfold rule_count; rewrite Hn, Er; reflexivity).
      assert (Bp : get_backprop_inputs n = n_inputs n) by (unfold get_backprop_inputs; rewrite (twf_backprop ls g W z n Hn); reflexivity).
      destruct (Tens_Build.typed_inputs ls g z n t Hn Ty) as [[Eo _]|(No & ts & HL & Op)]; [rewrite Eo in Er; discriminate|].
      assert (Hlen : length (n_inputs n) = length ts) by (clear -HL; induction HL; cbn; congruence).
      rewrite Hlen in Er. unfold complete. rewrite Rc. split.
      - intros (m & Em & L & Nz) m' Em'. assert (m = n) by congruence. assert (m' = n) by congruence. subst m m'.
        rewrite Bp, Hlen in L. assert (Ne : ts <> []) by (intros ->; cbn in L; lia). split; [intros E0; rewrite E0 in Hlen; destruct ts; [congruence|discriminate]|].
        apply (short_spec (n_op n) ts t rs Op Ne Er). auto.
      - intros H. destruct (H n Hn) as (Ni & Sh). assert (Ne : ts <> []) by (intros ->; destruct (n_inputs n); [congruence|discriminate]).
        apply (short_spec (n_op n) ts t rs Op Ne Er) in Sh. exists n. rewrite Bp, Hlen. split; [exact Hn|exact Sh]. }
    rewrite List.Forall_forall. split.
    - intros F z n Hz Hn. apply (proj1 (P z Hz) (F z Hz) n Hn).
    - intros F z Hz. apply (P z Hz). intros n Hn. exact (F z n Hz Hn). }
  split; [|split].
  - intros l g' called. rewrite A. split.
    + intros (E & F). split; [exact E|]. apply (Q _ _ _ _ E). exact F.
    + intros (E & F). split; [exact E|]. apply (Q _ _ _ _ E). exact F.
  - intros l g' called E N. apply (B _ _ _ E). intros F. apply N. apply (Q _ _ _ _ E). exact F.
  - exact C.
Qed.
Print Assumptions C84_array_graphs.

(** ** Second derivatives through pieces of arrays *)
Local Open Scope R_scope.

(** The elements of a piece squared, and the array itself squared. *)
Definition squares (b : tbld nat) : tbld (list nat) :=
  tbind b (fun p => tbind (a_bin Mul p p) (fun pp => tbind (a_bin Mul 0 0) (fun q => tret [pp; q]))).
Definition take_slice : tbld nat := tmk [0%nat] None true (TSlice [(0%Z, Some 1%Z)]).
Definition take_split : tbld nat := tmk [0%nat] None true (TSplit 0 0 1).
Definition take_elem : tbld nat := tmk [0%nat] None true (TIndex 0).
Definition take_concat : tbld nat := tmk [0%nat; 0%nat] None true (TConcat 0).
Definition take_gather : tbld nat := tbind (a_ints [0%Z; 0%Z]) (fun ix => tmk [ix; 0%nat] None true (TGather true 0)).
Definition pair_ls (i : nat) : list nat := [2%nat].
Definition pair_rho (x0 x1 v0 v1 : R) (i : nat) : arr R := Arr [2%nat] (match i with 0%nat => [x0; x1] | _ => [v0; v1] end).

(** Of the sum of both outputs' elements, [hessian_vector_product] returns the second
    derivative of [x*x] only; that of the piece's squares, [extra], is missing. *)
Definition loses (debug : bool) (b : tbld nat) (extra : R -> R -> R -> R -> R) : Prop :=
  exists g ys g' r called,
    squares b hv_start = Some (ys, g) /\ twf pair_ls g /\
    t_hvp (@max_pop top) debug 400 ys [0%nat] [2%nat] g = Ok ([(r, true)], g', called) /\
    forall x0 x1 v0 v1 u0 u1, let rho := pair_rho x0 x1 v0 v1 in let u := Arr [2%nat] [u0; u1] in
      exists slope : R -> R,
        (forall s, let at_s := put rho 0 (step (rho 0%nat) u s) in
           derivable_pt_lim (fun t => fold_right Rplus 0
             (map (fun y => elements_sum (aval (put at_s 0 (step (at_s 0%nat) (aval rho g 2) t)) g y)) ys)) 0 (slope s)) /\
        derivable_pt_lim slope 0 (2 * (u0 * v0 + u1 * v1) + extra u0 u1 v0 v1) /\
        dot (aval rho g' r) u = 2 * (u0 * v0 + u1 * v1).
Definition hv_run (debug : bool) (b : tbld (list nat)) :=
  match b hv_start with Some (ys, g) => t_hvp (@max_pop top) debug 400 ys [0%nat] [2%nat] g | None => Panic end.
Lemma square_limit f a b c : (forall t, f t = a + b * t + c * (t * t)) -> derivable_pt_lim f 0 b.
Proof.
  intros H. apply (derivable_pt_lim_ext (fun t => a + b * t + c * (t * t))); [intros t; symmetry; apply H|].
  apply is_derive_Reals. auto_derive; auto. ring.
Qed.
Lemma loses_intro debug b extra (v1 v2 : R -> R -> R -> R -> R -> R -> R -> R) :
  (exists ys g r g' called, squares b hv_start = Some (ys, g) /\ twf_b pair_ls g = true /\
     t_hvp (@max_pop top) debug 400 ys [0%nat] [2%nat] g = Ok ([(r, true)], g', called) /\
     (forall x0 x1 w0 w1 u0 u1 s t, let rho := pair_rho x0 x1 w0 w1 in let u := Arr [2%nat] [u0; u1] in
        let at_s := put rho 0 (step (rho 0%nat) u s) in
        fold_right Rplus 0 (map (fun y => elements_sum (aval (put at_s 0 (step (at_s 0%nat) (aval rho g 2) t)) g y)) ys)
        = v1 x0 x1 w0 w1 u0 u1 s + (2 * ((x0 + s * u0) * w0 + (x1 + s * u1) * w1) + extra (x0 + s * u0) (x1 + s * u1) w0 w1) * t
          + v2 x0 x1 w0 w1 u0 u1 s * (t * t)) /\
     (forall x0 x1 w0 w1 u0 u1, dot (aval (pair_rho x0 x1 w0 w1) g' r) (Arr [2%nat] [u0; u1]) = 2 * (u0 * w0 + u1 * w1))) ->
  (forall x0 x1 w0 w1 u0 u1 s, extra (x0 + s * u0) (x1 + s * u1) w0 w1 = extra x0 x1 w0 w1 + extra u0 u1 w0 w1 * s) ->
  loses debug b extra.
Proof.
  intros (ys & g & r & g' & called & E1 & E2 & E3 & E4 & E5) L. exists g, ys, g', r, called.
  split; [exact E1|]. split; [apply twf_b_sound; exact E2|]. split; [exact E3|]. intros x0 x1 w0 w1 u0 u1 rho u.
  exists (fun s => 2 * ((x0 + s * u0) * w0 + (x1 + s * u1) * w1) + extra (x0 + s * u0) (x1 + s * u1) w0 w1).
  split; [|split; [|apply E5]].
  - intros s at_s. eapply square_limit. intros t. apply E4.
  - apply (line_limit _ (2 * (x0 * w0 + x1 * w1) + extra x0 x1 w0 w1)). intros t. rewrite L. ring.
Qed.
Ltac lost_terms a c := apply (loses_intro _ _ _ a c); [do 5 eexists;
  split; [vm_compute; reflexivity|]; split; [vm_compute; reflexivity|]; split; [vm_compute; reflexivity|];
  split; intros; cbv -[Rplus Rmult Rminus Rdiv Rinv Ropp IZR exp ln Rlt_dec Req_EM_T]; ring|intros; ring].

(** Slices, concatenations and lookups lose their second derivatives in every build;
    splits and single elements in release builds, while debug builds panic. *)
Theorem C84_pieces_refuted :
  loses true take_slice (fun u0 u1 v0 v1 => 2 * (u0 * v0)) /\
  loses false take_slice (fun u0 u1 v0 v1 => 2 * (u0 * v0)) /\
  loses true take_concat (fun u0 u1 v0 v1 => 4 * (u0 * v0 + u1 * v1)) /\
  loses false take_concat (fun u0 u1 v0 v1 => 4 * (u0 * v0 + u1 * v1)) /\
  loses true take_gather (fun u0 u1 v0 v1 => 4 * (u0 * v0)) /\
  loses false take_gather (fun u0 u1 v0 v1 => 4 * (u0 * v0)) /\
  loses false take_split (fun u0 u1 v0 v1 => 2 * (u0 * v0)) /\ hv_run true (squares take_split) = Panic /\
  loses false take_elem (fun u0 u1 v0 v1 => 2 * (u0 * v0)) /\ hv_run true (squares take_elem) = Panic.
Proof.
  split; [|split; [|split; [|split; [|split; [|split; [|split; [|split; [|split]]]]]]]].
  1,2,7,9: lost_terms (fun x0 x1 w0 w1 u0 u1 s : R => 2 * (x0 + s * u0) * (x0 + s * u0) + (x1 + s * u1) * (x1 + s * u1))
    (fun x0 x1 w0 w1 u0 u1 s : R => 2 * (w0 * w0) + w1 * w1).
  1,2: lost_terms (fun x0 x1 w0 w1 u0 u1 s : R => 3 * (x0 + s * u0) * (x0 + s * u0) + 3 * (x1 + s * u1) * (x1 + s * u1))
    (fun x0 x1 w0 w1 u0 u1 s : R => 3 * (w0 * w0) + 3 * (w1 * w1)).
  1,2: lost_terms (fun x0 x1 w0 w1 u0 u1 s : R => 3 * (x0 + s * u0) * (x0 + s * u0) + (x1 + s * u1) * (x1 + s * u1))
    (fun x0 x1 w0 w1 u0 u1 s : R => 3 * (w0 * w0) + w1 * w1).
  all: vm_compute; reflexivity.
Qed.
Print Assumptions C84_pieces_refuted.

(** With nothing else to differentiate, the call panics; so it does through the sparse
    cross entropy, whose gradient supplies no gradients either. *)
Definition alone (b : tbld nat) : tbld (list nat) := tbind b (fun p => tbind (a_bin Mul p p) (fun pp => tret [pp])).
Definition entropy : tbld nat := tbind (a_ints [1%Z]) (fun t => tmk [0%nat; t] None true (TSparseXent (-10))).
Definition entropy_and_squares : tbld (list nat) := tbind entropy (fun y => tbind (a_bin Mul 0 0) (fun q => tret [y; q])).
Theorem C84_alone_panics : forall debug b, In b [take_slice; take_split; take_elem; take_concat; take_gather; entropy] ->
  hv_run debug (alone b) = Panic /\ hv_run debug (tbind b (fun y => tret [y])) = Panic.
Proof.
  intros debug b H. cbn [In] in H. repeat (destruct H as [<-|H]); [..|destruct H]; destruct debug; split; vm_compute; reflexivity.
Qed.
Print Assumptions C84_alone_panics.
Definition row_ls (i : nat) : list nat := [1%nat; 2%nat].
Definition row_rho (x0 x1 v0 v1 : R) (i : nat) : arr R := Arr [1%nat; 2%nat] (match i with 0%nat => [x0; x1] | _ => [v0; v1] end).
Lemma shifted_lse a b m : ln (0 + exp (a - m) + exp (b - m)) + m = ln (exp a + exp b).
Proof.
  replace (0 + exp (a - m) + exp (b - m)) with ((exp a + exp b) * exp (- m)).
  - rewrite ln_mult, ln_exp; [ring|pose proof (exp_pos a); pose proof (exp_pos b); lra|apply exp_pos].
  - unfold Rminus. rewrite !exp_plus. ring.
Qed.
(** Together with [x*x]: debug builds panic; release builds return the second derivative of
    [x*x], without the [p0 p1 (u0 - u1) (v0 - v1)] of the cross entropy, [p] the softmax. *)
Theorem C84_entropy_refuted :
  hv_run true entropy_and_squares = Panic /\
  exists g ys r g' called, entropy_and_squares hv_start = Some (ys, g) /\ twf row_ls g /\
    t_hvp (@max_pop top) false 400 ys [0%nat] [2%nat] g = Ok ([(r, true)], g', called) /\
    forall x0 x1 v0 v1 u0 u1, let rho := row_rho x0 x1 v0 v1 in let u := Arr [1%nat; 2%nat] [u0; u1] in
      exists slope : R -> R,
        (forall s, let at_s := put rho 0 (step (rho 0%nat) u s) in
           derivable_pt_lim (fun t => fold_right Rplus 0
             (map (fun y => elements_sum (aval (put at_s 0 (step (at_s 0%nat) (aval rho g 2) t)) g y)) ys)) 0 (slope s)) /\
        derivable_pt_lim slope 0
          (2 * (u0 * v0 + u1 * v1) + exp x0 / (exp x0 + exp x1) * (exp x1 / (exp x0 + exp x1)) * (u0 - u1) * (v0 - v1)) /\
        aval rho g' r = Arr [1%nat; 2%nat] [2 * v0; 2 * v1].
Proof.
  split; [vm_compute; reflexivity|]. do 5 eexists. split; [vm_compute; reflexivity|].
  split; [apply twf_b_sound; vm_compute; reflexivity|]. split; [vm_compute; reflexivity|]. intros x0 x1 v0 v1 u0 u1 rho u.
  assert (Pos : forall a b, 0 < exp a + exp b) by (intros a b; pose proof (exp_pos a); pose proof (exp_pos b); lra).
  exists (fun s => (exp (x0 + s * u0) * v0 + exp (x1 + s * u1) * v1) / (exp (x0 + s * u0) + exp (x1 + s * u1)) - v1
                   + 2 * ((x0 + s * u0) * v0 + (x1 + s * u1) * v1)).
  split; [|split].
  - intros s at_s. eapply (derivable_pt_lim_ext (fun t => ln (exp (x0 + s * u0 + t * v0) + exp (x1 + s * u1 + t * v1)) - (x1 + s * u1 + t * v1)
      + ((x0 + s * u0 + t * v0) * (x0 + s * u0 + t * v0) + (x1 + s * u1 + t * v1) * (x1 + s * u1 + t * v1)))).
    + intros t. subst at_s rho u. cbv -[Rplus Rmult Rminus Rdiv Rinv Ropp IZR exp ln Rmax Rlt_dec Req_EM_T to_usize].
      rewrite (to_usize_INR 1 : to_usize 1 = Some 1%nat). cbv -[Rplus Rmult Rminus Rdiv Rinv Ropp IZR exp ln Rmax Rlt_dec Req_EM_T].
      match goal with |- context [Rmax (Rmax ?c ?a) ?b] => rewrite <- (shifted_lse a b (Rmax (Rmax c a) b)) end. ring.
    + apply is_derive_Reals. auto_derive; [apply Pos|]. rewrite !Rmult_0_l, !Rplus_0_r. field. apply Rgt_not_eq. apply Pos.
  - apply is_derive_Reals. auto_derive.
    + apply Rgt_not_eq. apply Pos.
    + rewrite !Rmult_0_l, !Rplus_0_r. field. apply Rgt_not_eq. apply Pos.
  - subst rho. cbv -[Rplus Rmult Rminus Rdiv Rinv Ropp IZR exp ln Rmax Rlt_dec Req_EM_T to_usize].
    try rewrite (to_usize_INR 1 : to_usize 1 = Some 1%nat). cbv -[Rplus Rmult Rminus Rdiv Rinv Ropp IZR exp ln Rmax Rlt_dec Req_EM_T]. f_equal. f_equal; [ring|f_equal; ring].
Qed.
Print Assumptions C84_entropy_refuted.

(** The graph of [x[0]*x[0]] and [x*x], both of known shapes: its gradient is the same in both
    builds.  The graph which that leaves has a gradient with respect to [x] in release
    builds; computing it calls the rule of the operation [IndexOpGrad], and debug builds
    panic. *)
Definition elem_out : list nat := match squares take_elem hv_start with Some (ys, _) => ys | None => [] end.
Definition elem_graph : tgraph := match squares take_elem hv_start with Some (_, g) => g | None => [] end.
Definition elem_grad (debug : bool) (g : tgraph) (ys : list nat) := t_grad_with_default (@max_pop top) debug 400 ys [0%nat] None g.
Definition elem_next : tgraph := match elem_grad false elem_graph elem_out with Ok (_, g, _) => g | _ => [] end.
Definition elem_ys : list nat := match elem_grad false elem_graph elem_out with Ok (l, _, _) => map fst l | _ => [] end.
Definition all_typed (ls : nat -> list nat) (g : tgraph) : bool :=
  forallb (fun z => match nth_error (ttypes ls g) z with Some (Some _) => true | _ => false end) (seq 0 (length g)).
Lemma all_typed_sound ls g : all_typed ls g = true -> forall z, (z < length g)%nat -> exists t, nth_error (ttypes ls g) z = Some (Some t).
Proof.
  intros H z L. unfold all_typed in H. rewrite forallb_forall in H. specialize (H z). rewrite in_seq in H.
  destruct (nth_error (ttypes ls g) z) as [[t|]|]; [eauto|..]; exfalso; enough (false = true) by discriminate; apply H; lia.
Qed.
Definition ran {A} (r : res A) : nat := match r with Ok _ => 1%nat | Panic => 0%nat | _ => 2%nat end.
Example C84_hypotheses_met :
  (twf pair_ls elem_graph /\ (forall z, (z < length elem_graph)%nat -> exists t, nth_error (ttypes pair_ls elem_graph) z = Some (Some t)) /\
   ran (elem_grad true elem_graph elem_out) = 1%nat /\ elem_grad true elem_graph elem_out = elem_grad false elem_graph elem_out) /\
  (twf pair_ls elem_next /\ (forall z, (z < length elem_next)%nat -> exists t, nth_error (ttypes pair_ls elem_next) z = Some (Some t)) /\
   ran (elem_grad false elem_next elem_ys) = 1%nat /\ elem_grad true elem_next elem_ys = Panic).
Proof.
  split; (split; [apply twf_b_sound; vm_compute; reflexivity|]);
    (split; [apply all_typed_sound; vm_compute; reflexivity|]); split; vm_compute; reflexivity.
Qed.
