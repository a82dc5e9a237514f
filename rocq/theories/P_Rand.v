(** C57: dropout and random arrays. *)
From Coq Require Import String List Arith ZArith Bool Reals Lia Lra.
From Coquelicot Require Import Coquelicot.
Import ListNotations.
From Verif Require Import Graph_Model Graph_Proofs Eval_Model Eval_Spec Eval_Proofs Grad_Model Grad_Examples.
From Verif Require Import Array_Model Vjp_Spec Scalar_Model Tens_Model Rand_Model Rand_Spec Rand_Proofs.
Local Open Scope R_scope.
Local Set Bullet Behavior "Strict Subproofs".

(** Random arrays hold consecutive samples in row-major order, and leave the
    generator where the samples end. *)
Theorem C57_random_array :
  forall (Rng : Type) (sample : Rng -> R * Rng) (shape : list nat) (r : Rng),
  exists a, gen_random_array sample shape r = (a, after sample (prod shape) r) /\ has_shape shape a /\
    forall k, (k < prod shape)%nat -> nth k (a_data a) 0 = draw sample k r.
Proof.
  intros Rng sample shape r. unfold gen_random_array. rewrite draws_spec. eexists. split; [reflexivity|]. split.
  - split; [reflexivity|]. simpl. rewrite map_length, seq_length. reflexivity.
  - intros k Hk. cbn [a_data]. rewrite nth_map_seq by exact Hk. reflexivity.
Qed.
Print Assumptions C57_random_array.

(** Training mode: element [k] survives exactly if the [k]-th draw is below
    [1 - ratio]; the second output is the 0/1 mask; the generator advances by
    one draw per element. *)
Theorem C57_train :
  forall (Rng : Type) (uniform : Rng -> R * Rng) (ratio : R) (r : Rng) (x : arr R),
  has_shape (a_shape x) x ->
  exists y mask, dropout_run uniform ratio true r x = ([y; mask], after uniform (prod (a_shape x)) r) /\
    kept (fun k => draw uniform k r < 1 - ratio) x y /\
    has_shape (a_shape x) mask /\
    forall k, (k < prod (a_shape x))%nat ->
      (draw uniform k r < 1 - ratio -> nth k (a_data mask) 0 = 1) /\
      (~ draw uniform k r < 1 - ratio -> nth k (a_data mask) 0 = 0).
Proof.
  intros Rng uniform ratio r x Hx. destruct (train_kept uniform ratio r x Hx) as (y & E & K).
  rewrite train_spec in E |- *. cbn [fst nth_error] in E. match type of E with Some ?a = Some y => assert (EY : a = y) by congruence end. rewrite EY.
  do 2 eexists. split; [reflexivity|]. split; [exact K|]. split; [apply mask_shape|].
  intros k Hk. rewrite mask_nth by exact Hk. destruct (Rlt_dec _ _); split; intros Q; tauto.
Qed.
Print Assumptions C57_train.

(** Test mode: scaling by [1 - ratio], no draws. *)
Theorem C57_test :
  forall (Rng : Type) (uniform : Rng -> R * Rng) (ratio : R) (r : Rng) (x : arr R),
  exists y, dropout_run uniform ratio false r x = ([y], r) /\ a_shape y = a_shape x /\
    forall k, nth k (a_data y) 0 = (1 - ratio) * nth k (a_data x) 0.
Proof.
  intros. eexists. split; [reflexivity|]. split; [reflexivity|]. intros k. cbn [amap a_data].
  replace 0 with (0 * (1 - ratio)) at 1 by ring. rewrite (map_nth (fun v => v * (1 - ratio))). ring.
Qed.
Print Assumptions C57_test.

(** A stream of draws as a generator. *)
Definition from_stream (s : nat -> R) : R * (nat -> R) := (s 0%nat, fun k => s (S k)).
Definition with_draw (s : nat -> R) (k : nat) (u : R) : nat -> R := fun j => if (j =? k)%nat then u else s j.
Definition first_output (l : list (arr R)) : arr R := nth 0 l (Arr [] []).

Lemma stream_after k : forall s j, after from_stream k s j = s (k + j)%nat.
Proof. induction k as [|k IH]; intros s j; [reflexivity|]. simpl. rewrite IH. f_equal. lia. Qed.
Lemma stream_draw k s : draw from_stream k s = s k.
Proof. unfold draw. simpl. rewrite stream_after. f_equal. lia. Qed.
Lemma indicator_integral (p c : R) : 0 <= p <= 1 -> is_RInt (fun u : R => if Rlt_dec u p then c else 0) 0 1 (p * c).
Proof.
  intros Hp.
  assert (A : is_RInt (fun u : R => if Rlt_dec u p then c else 0) 0 p (scal (p - 0) c)).
  { apply (is_RInt_ext (fun _ : R => c)); [|apply (is_RInt_const (V := R_NormedModule))].
    intros u Hu. rewrite Rmin_left, Rmax_right in Hu by lra. destruct (Rlt_dec u p); lra. }
  assert (B : is_RInt (fun u : R => if Rlt_dec u p then c else 0) p 1 (scal (1 - p) 0)).
  { apply (is_RInt_ext (fun _ : R => 0)); [|apply (is_RInt_const (V := R_NormedModule))].
    intros u Hu. rewrite Rmin_left, Rmax_right in Hu by lra. destruct (Rlt_dec u p); lra. }
  pose proof (is_RInt_Chasles _ 0 p 1 _ _ A B) as Q.
  replace (p * c) with (plus (scal (p - 0) c) (scal (1 - p) 0)); [exact Q|].
  unfold plus, scal; simpl; unfold mult; simpl. ring.
Qed.

(** The test-mode output is the mean of the training-mode output: averaging an
    element over its draw, uniform in [0, 1], gives the test-mode element. *)
Theorem C57_test_is_mean_of_train :
  forall (ratio : R) (s : nat -> R) (x : arr R) (k : nat),
  0 <= ratio <= 1 -> has_shape (a_shape x) x -> (k < prod (a_shape x))%nat ->
  is_RInt (fun u : R => nth k (a_data (first_output (fst (dropout_run from_stream ratio true (with_draw s k u) x)))) 0) 0 1
    (nth k (a_data (first_output (fst (dropout_run from_stream ratio false s x)))) 0).
Proof.
  intros ratio s x k Hr Hx Hk. destruct (C57_test _ from_stream ratio s x) as (y & E & _ & Hy). rewrite E. cbn [fst first_output nth]. rewrite Hy.
  apply (is_RInt_ext (fun u : R => if Rlt_dec u (1 - ratio) then nth k (a_data x) 0 else 0)).
  - intros u _. destruct (C57_train _ from_stream ratio (with_draw s k u) x Hx) as (y' & m & E' & (_ & K) & _). rewrite E'. cbn [fst first_output nth].
    destruct (K k Hk) as [K1 K2]. rewrite stream_draw in K1, K2. unfold with_draw in K1, K2. rewrite Nat.eqb_refl in K1, K2.
    destruct (Rlt_dec u (1 - ratio)); symmetry; auto.
  - apply indicator_integral. lra.
Qed.
Print Assumptions C57_test_is_mean_of_train.

(** The gradient tensor of a training-mode dropout, evaluated together with
    anything else, is the gradient of the function the dropout applied in that
    very evaluation: the mask is the one drawn for the output. *)
Theorem C57_gradient :
  forall (Rng Op Err : Type) (uniform : Rng -> R * Rng) (other : Op -> list (opin (arr R)) -> cout (arr R) Err)
    (debug : bool) (g g' rest : graph (dop Rng Op)) (out gy p : nat) (n : node (dop Rng Op)) (inc : incoming) (ratio : R) (r : Rng)
    (feeds : list (ph_key * arr R)) (fuel : nat) (targets : list nat) (env : list (arr R)) (oc : @outcome (arr R) Err) (gx : arr R),
  op_node g out n -> n_op n = DDropout ratio true r -> n_inputs n = [inc] ->
  drop_grad g out gy = Some (g', p) ->
  wf_graph (g' ++ rest) -> in_range (g' ++ rest) targets ->
  eval a_shape (drop_compute uniform other) debug (g' ++ rest) feeds fuel targets env = Ok oc ->
  In (p, inl gx) (combine targets (oc_results oc)) ->
  exists (xin gin : opin (arr R)) (mask : opin (arr R)),
    In (Ran out [xin]) (oc_log oc) /\ In (Ran p [gin; mask]) (oc_log oc) /\
    let F := fun x => nth_error (fst (dropout_run uniform ratio true r x)) 0 in
    (forall y, In (out, inl y) (combine targets (oc_results oc)) -> F (opin_val xin) = Some y) /\
    (has_shape (a_shape (opin_val xin)) (opin_val xin) -> has_shape (a_shape (opin_val xin)) (opin_val gin) ->
     prod (a_shape (opin_val xin)) <> 0%nat ->
     vjp F (opin_val xin) (opin_val gin) gx).
Proof.
  intros Rng Op Err uniform other debug g g' rest out gy p n inc ratio r feeds fuel targets env oc gx Hn Ho Hi Hg W I He HP.
  destruct (gradient_ran uniform other debug g out gy p g' rest feeds fuel targets env oc n inc ratio true r Hn Ho Hi Hg W I He gx HP)
    as (xin & gin & mask & R1 & R2 & M & HM).
  exists xin, gin, (NonVar mask). split; auto. split; auto. rewrite train_spec in M. cbn [fst nth_error] in M. match type of M with Some ?a = Some mask => assert (EM : a = mask) by congruence end. rewrite <- EM in HM.
  cbv zeta. split.
  - intros y Hy.
    destruct (nodes g out gy p g' rest n Hn Hg) as (_ & _ & No & _).
    destruct (eval_events _ _ _ _ _ _ _ _ _ W I He) as (s & EX & FT & _).
    destruct (target_computed _ _ _ _ _ _ _ _ _ _ FT Hy No) as (ys & SO & _).
    destruct (dropout_ran uniform other debug g out gy p g' rest feeds fuel targets env oc n inc ratio true r Hn Ho Hi Hg W I He _ R1) as (xin' & Q & SX).
    injection Q as <-. specialize (SX _ _ EX). rewrite SO in SX. match type of SX with Some (inl ?a) = Some (inl ?b) => assert (EQ : a = b) by congruence end. rewrite <- EQ. reflexivity.
  - intros Hx Hgs NE. apply dropout_vjp; auto.
Qed.
Print Assumptions C57_gradient.

(** In test mode the gradient cannot be evaluated: an evaluation that returns
    at all has not even run the dropout, because an error occurred before it
    (so the gradient is never a value). *)
Theorem C57_test_mode_gradient_refuted :
  forall (Rng Op Err : Type) (uniform : Rng -> R * Rng) (other : Op -> list (opin (arr R)) -> cout (arr R) Err)
    (debug : bool) (g g' rest : graph (dop Rng Op)) (out gy p : nat) (n : node (dop Rng Op)) (inc : incoming) (ratio : R) (r : Rng)
    (feeds : list (ph_key * arr R)) (fuel : nat) (targets : list nat) (env : list (arr R)) (oc : @outcome (arr R) Err),
  op_node g out n -> n_op n = DDropout ratio false r -> n_inputs n = [inc] ->
  drop_grad g out gy = Some (g', p) ->
  wf_graph (g' ++ rest) -> in_range (g' ++ rest) targets -> In p targets ->
  eval a_shape (drop_compute uniform other) debug (g' ++ rest) feeds fuel targets env = Ok oc ->
  In (Skipped out) (oc_log oc) /\ forall gx, ~ In (p, inl gx) (combine targets (oc_results oc)).
Proof.
  intros Rng Op Err uniform other debug g g' rest out gy p n inc ratio r feeds fuel targets env oc Hn Ho Hi Hg W I IT He.
  split.
  - eapply test_mode_stuck; eauto.
  - intros gx HP.
    destruct (gradient_ran uniform other debug g out gy p g' rest feeds fuel targets env oc n inc ratio false r Hn Ho Hi Hg W I He gx HP)
      as (xin & gin & mask & _ & _ & M & _). discriminate.
Qed.
Print Assumptions C57_test_mode_gradient_refuted.

(** All tensors made by [dropout] (which seeds a new generator with the fixed
    default seed) drop the same positions of equally shaped inputs, in one graph
    or in graphs built one after the other. *)
Theorem C57_masks_repeat :
  forall (Rng Op Err : Type) (uniform : Rng -> R * Rng) (default_rng : Rng) (other : Op -> list (opin (arr R)) -> cout (arr R) Err)
    (debug : bool) (g1 g1' rest1 g2 g2' rest2 : graph (dop Rng Op)) (x1 x2 d1 d2 : nat) (ratio : R)
    (feeds1 feeds2 : list (ph_key * arr R)) (fuel1 fuel2 : nat) (targets1 targets2 : list nat) (env1 env2 : list (arr R))
    (oc1 oc2 : @outcome (arr R) Err) (y1 y2 : arr R),
  dropout default_rng g1 x1 ratio true = Some (g1', d1) ->
  dropout default_rng g2 x2 ratio true = Some (g2', d2) ->
  wf_graph (g1' ++ rest1) -> in_range (g1' ++ rest1) targets1 ->
  wf_graph (g2' ++ rest2) -> in_range (g2' ++ rest2) targets2 ->
  eval a_shape (drop_compute uniform other) debug (g1' ++ rest1) feeds1 fuel1 targets1 env1 = Ok oc1 ->
  eval a_shape (drop_compute uniform other) debug (g2' ++ rest2) feeds2 fuel2 targets2 env2 = Ok oc2 ->
  In (d1, inl y1) (combine targets1 (oc_results oc1)) ->
  In (d2, inl y2) (combine targets2 (oc_results oc2)) ->
  exists xin1 xin2, In (Ran d1 [xin1]) (oc_log oc1) /\ In (Ran d2 [xin2]) (oc_log oc2) /\
    (a_shape (opin_val xin1) = a_shape (opin_val xin2) ->
     has_shape (a_shape (opin_val xin1)) (opin_val xin1) -> has_shape (a_shape (opin_val xin2)) (opin_val xin2) ->
     exists keep : nat -> Prop, kept keep (opin_val xin1) y1 /\ kept keep (opin_val xin2) y2).
Proof.
  intros Rng Op Err uniform r0 other debug g1 g1' rest1 g2 g2' rest2 x1 x2 d1 d2 ratio feeds1 feeds2 fuel1 fuel2 targets1 targets2 env1 env2
    oc1 oc2 y1 y2 B1 B2 W1 I1 W2 I2 E1 E2 T1 T2.
  assert (ONE : forall g g' rest x d feeds fuel targets env (oc : @outcome (arr R) Err) y,
    dropout r0 g x ratio true = Some (g', d) -> wf_graph (g' ++ rest) -> in_range (g' ++ rest) targets ->
    eval a_shape (drop_compute uniform other) debug (g' ++ rest) feeds fuel targets env = Ok oc ->
    In (d, inl y) (combine targets (oc_results oc)) ->
    exists xin, In (Ran d [xin]) (oc_log oc) /\ nth_error (fst (dropout_run uniform ratio true r0 (opin_val xin))) 0 = Some y).
  { intros g g' rest x d feeds fuel targets env oc y B W I E T. unfold dropout, dropout_rng in B. apply build_spec in B. destruct B as (-> & _ & ->).
    match type of E with context [(g ++ [?nn]) ++ rest] => set (nd := nn) in * end.
    assert (No : op_node ((g ++ [nd]) ++ rest) (length g) nd).
    { split; [|split; reflexivity]. apply nth_app_l. rewrite nth_error_app2, Nat.sub_diag by lia. reflexivity. }
    destruct (eval_events _ _ _ _ _ _ _ _ _ W I E) as (s & EX & FT & EV).
    destruct (target_computed _ _ _ _ _ _ _ _ _ _ FT T No) as (ys & SO & IT).
    destruct (EV (length g)) as [[xs HR]|HK].
    { split; [eexists; exact No|]. exists (length g). split; auto. apply Relation_Operators.rt_refl. }
    2:{ destruct (Eval_Proofs2.skipped_result _ _ _ _ _ _ _ _ _ EX _ HK) as (? & ? & e & _ & _ & _ & Q). congruence. }
    destruct (ran_reads _ _ _ _ _ _ _ _ _ EX _ _ HR) as (n' & N' & F). rewrite (op_node_eq _ _ _ _ N' (proj1 No)) in F.
    inversion F as [|? xin ? ? _ F']; subst. inversion F'; subst. exists xin. split; auto.
    destruct (Eval_Proofs2.ran_result _ _ _ _ _ _ _ _ _ EX _ _ HR) as (n2 & ws & y2' & st & N2 & HC & _ & HS).
    rewrite (op_node_eq _ _ _ _ N2 (proj1 No)) in HC. change (CRet [] (fst (dropout_run uniform ratio true r0 (opin_val xin))) None = CRet ws y2' st) in HC.
    assert (EY : y2' = fst (dropout_run uniform ratio true r0 (opin_val xin)) /\ st = None) by (split; congruence).
    destruct EY as [EY ->]. rewrite SO in HS. rewrite <- EY. injection HS as <-. reflexivity. }
  destruct (ONE _ _ _ _ _ _ _ _ _ _ _ B1 W1 I1 E1 T1) as (xin1 & R1 & Q1).
  destruct (ONE _ _ _ _ _ _ _ _ _ _ _ B2 W2 I2 E2 T2) as (xin2 & R2 & Q2).
  exists xin1, xin2. split; auto. split; auto. intros _ S1 S2. exists (fun k => draw uniform k r0 < 1 - ratio).
  destruct (train_kept uniform ratio r0 _ S1) as (z1 & Z1 & K1). destruct (train_kept uniform ratio r0 _ S2) as (z2 & Z2 & K2). split; congruence.
Qed.
Print Assumptions C57_masks_repeat.

(** Gradients do not distinguish the outputs of an operation: the mask, taken
    from a dropout with [nth_tensor], does not depend on [x] (here it is 1 for
    every [x]), but its gradient with respect to [x] is 1. *)
Definition always (_ : unit) : R * unit := (0, tt).
Definition no_op (o : Empty_set) (ins : list (opin (arr R))) : cout (arr R) Empty_set := CPanic.
Definition var_node (v : nat) : node (dop unit Empty_set) := Node DIdentity [] 0 None None true None None (Some v).
Definition scal_arr (v : R) : arr R := Arr [] [v].
Definition mask_graph : graph (dop unit Empty_set) :=
  [var_node 0; var_node 1; Node (DDropout 0 true tt) [Incoming 0 false 0] 1 None None true None None None;
   Node DIdentity [Incoming 2 false 1] 2 None None true None None None].
Theorem C57_mask_gradient_refuted :
  (exists g d, dropout_rng [var_node 0; var_node 1] 0 0 true tt = Some (g, d) /\ nth_tensor g d 1 = Some (mask_graph, 3%nat)) /\
  (forall x gy, exists log, eval a_shape (drop_compute always no_op) true mask_graph [] 20 [3%nat] [scal_arr x; scal_arr gy]
     = Ok (Outcome [inl (scal_arr 1)] [scal_arr x; scal_arr gy] log)) /\
  exists g' t b log,
    grad_with_default mask_graph (drop_opgrad mask_graph) (fun _ _ => None) (fun _ => None) (fun _ _ => None)
      (max_pop mask_graph) true 20 [3%nat] [0%nat] (Some [1%nat]) mask_graph = Ok ([(t, b)], g', log) /\
    forall x, exists log, eval a_shape (drop_compute always no_op) true g' [] 20 [t] [scal_arr x; scal_arr 1]
      = Ok (Outcome [inl (scal_arr 1)] [scal_arr x; scal_arr 1] log).
Proof.
  split; [|split].
  - do 2 eexists. split; reflexivity.
  - intros x gy. eexists. cbv -[Rlt_dec Rplus Rmult Rminus Ropp IZR]. destruct (Rlt_dec _ _) as [|H]; [|exfalso; apply H; lra]. reflexivity.
  - do 4 eexists. split; [reflexivity|]. intros x. eexists.
    cbv -[Rlt_dec Rplus Rmult Rminus Ropp IZR]. destruct (Rlt_dec _ _) as [|H]; [|exfalso; apply H; lra].
    replace (1 * 1) with 1 by ring. reflexivity.
Qed.
Print Assumptions C57_mask_gradient_refuted.

(** Glorot's initialization gives the [n_in * n_out] weights of a layer the
    variance [2 / (n_in + n_out)].  The library's variances: the normal one
    agrees only for square layers, the uniform one is always larger. *)
Theorem C57_glorot_refuted :
  forall n m : nat, (0 < n)%nat -> (0 < m)%nat ->
  let glorot := 2 / (INR n + INR m) in
  exists sd b, glorot_normal_std [n; m] = Some sd /\ glorot_uniform_bound [n; m] = Some b /\ 0 < sd /\ 0 < b /\
    (sd * sd = glorot <-> n = m) /\
    exists variance, is_RInt (fun u : R => u * u / (2 * b)) (- b) b variance /\ glorot < variance.
Proof.
  intros n m Hn Hm glorot.
  assert (Pn : 0 < INR n) by (apply lt_0_INR; exact Hn). assert (Pm : 0 < INR m) by (apply lt_0_INR; exact Hm).
  assert (Sn : 0 < sqrt (INR n)) by (apply sqrt_lt_R0; exact Pn).
  assert (P6 : 0 < 6 / INR n) by (apply Rdiv_lt_0_compat; lra).
  assert (Sb : 0 < sqrt (6 / INR n)) by (apply sqrt_lt_R0; exact P6).
  exists (1 / sqrt (INR n)), (sqrt (6 / INR n)). split; [reflexivity|]. split; [reflexivity|].
  split; [apply Rdiv_lt_0_compat; lra|]. split; [exact Sb|]. split.
  - replace (1 / sqrt (INR n) * (1 / sqrt (INR n))) with (1 / INR n).
    2:{ rewrite <- (sqrt_sqrt (INR n)) at 1 by lra. field. lra. }
    unfold glorot. split; intros H.
    + apply INR_eq. assert (Q : INR n + INR m = 2 * INR n).
      { apply (f_equal (fun z => z * (INR n * (INR n + INR m)))) in H. field_simplify in H; lra. }
      lra.
    + subst m. field. lra.
  - exists (2 / INR n). split.
    + set (b := sqrt (6 / INR n)) in *.
      assert (Q : is_RInt (fun u : R => u * u / (2 * b)) (- b) b (minus (b * b * b / (6 * b)) (- b * - b * - b / (6 * b)))).
      { apply (is_RInt_derive (fun u : R => u * u * u / (6 * b)) (fun u : R => u * u / (2 * b))).
        - intros u _. auto_derive; [lra|]. field. lra.
        - intros u _. apply (ex_derive_continuous (fun u : R => u * u / (2 * b))). auto_derive. lra. }
      replace (2 / INR n) with (minus (b * b * b / (6 * b)) (- b * - b * - b / (6 * b))); [exact Q|].
      unfold minus, plus, opp; simpl.
      replace (b * b * b / (6 * b) + - (- b * - b * - b / (6 * b))) with (b * b / 3) by (field; lra).
      unfold b. rewrite sqrt_sqrt by lra. field. lra.
    + unfold glorot, Rdiv. apply Rmult_lt_compat_l; [lra|]. apply Rinv_lt_contravar; nra.
Qed.
Print Assumptions C57_glorot_refuted.

(** A dropout of two elements with ratio 1/2 and draws 1/4, 3/4, 1/4, ...: the
    first element is kept, the second dropped, and so is its gradient; in test
    mode the gradient panics. *)
Definition alternating (b : bool) : R * bool := if b then (3 / 4, false) else (1 / 4, true).
Definition leaf2 (v : nat) : node (dop bool Empty_set) := Node DIdentity [] 0 None None true None None (Some v).
Definition drop2 (train : bool) : graph (dop bool Empty_set) :=
  [leaf2 0; leaf2 1; Node (DDropout (1 / 2) train false) [Incoming 0 false 0] 1 None None true None None None].
Definition drop2_grad (train : bool) : graph (dop bool Empty_set) :=
  match drop_grad (drop2 train) 2 1 with Some (g, _) => g | None => [] end.
Example C57_hypotheses_met :
  dropout_rng [leaf2 0; leaf2 1] 0 (1 / 2) true false = Some (drop2 true, 2%nat) /\
  drop_grad (drop2 true) 2 1 = Some (drop2_grad true, 4%nat) /\
  wf_graph (drop2_grad true ++ []) /\ in_range (drop2_grad true ++ []) [2%nat; 4%nat] /\
  (exists log, eval a_shape (drop_compute alternating no_op) true (drop2_grad true ++ []) [] 20 [2%nat; 4%nat]
     [Arr [2%nat] [5; 7]; Arr [2%nat] [10; 20]]
   = Ok (Outcome [inl (Arr [2%nat] [5; 0]); inl (Arr [2%nat] [10; 0])] [Arr [2%nat] [5; 7]; Arr [2%nat] [10; 20]] log)) /\
  eval a_shape (drop_compute alternating no_op) true (drop2_grad false ++ []) [] 20 [2%nat; 4%nat]
     [Arr [2%nat] [5; 7]; Arr [2%nat] [10; 20]] = Panic.
Proof.
  split; [reflexivity|]. split; [reflexivity|]. split; [|split; [|split]].
  - apply wf_graph_intro.
    + intros [|[|[|[|[|i]]]]] n inc H Hin; try (simpl in H; injection H as <-; simpl in Hin;
        repeat (destruct Hin as [Hin|Hin]; [subst inc; simpl; lia|]); destruct Hin).
      simpl in H. destruct i; discriminate.
    + intros [|[|[|[|[|i]]]]] n H Hv; try (simpl in H; injection H as <-; try reflexivity; discriminate).
      simpl in H. destruct i; discriminate.
  - intros t [<-|[<-|[]]]; simpl; lia.
  - eexists. cbv -[Rlt_dec Rplus Rmult Rminus Ropp Rinv IZR].
    destruct (Rlt_dec (1 * / 4) _) as [_|H]; [|exfalso; apply H; lra].
    destruct (Rlt_dec (3 * / 4) _) as [H|_]; [exfalso; lra|].
    replace (1 * 5) with 5 by ring. replace (0 * 7) with 0 by ring. replace (10 * 1) with 10 by ring. replace (20 * 0) with 0 by ring.
    reflexivity.
  - reflexivity.
Qed.
