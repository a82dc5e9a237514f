(** Lemmas about random arrays and dropout. *)
From Coq Require Import String List Arith ZArith Bool Reals Lia Lra Relations.
Import ListNotations.
From Verif Require Import Graph_Model Graph_Proofs Eval_Model Eval_Spec Eval_Proofs Eval_Proofs2 Grad_Model.
From Verif Require Import Array_Model Array_Proofs Vjp_Spec Vjp_Proofs Scalar_Model Tens_Model Tens_Spec Tens_Fwd Tens_Rules2 Tens_Rules3 Tens_Rules4 Scalar_Proofs Rand_Model Rand_Spec.
Local Open Scope R_scope.
Local Set Bullet Behavior "Strict Subproofs".

Lemma after_start {Rng A} (sample : Rng -> A * Rng) k r : after sample k (snd (sample r)) = after sample (S k) r.
Proof. induction k as [|k IH]; simpl in *; [reflexivity|]. rewrite IH. reflexivity. Qed.
Lemma after_add {Rng A} (sample : Rng -> A * Rng) a b r : after sample a (after sample b r) = after sample (a + b) r.
Proof. induction a as [|a IH]; simpl; [reflexivity|]. rewrite IH. reflexivity. Qed.
Lemma draws_spec {Rng A} (sample : Rng -> A * Rng) n : forall r,
  draws sample n r = (map (fun k => draw sample k r) (seq 0 n), after sample n r).
Proof.
  induction n as [|n IH]; intros r; [reflexivity|]. cbn [draws]. destruct (sample r) as [x r1] eqn:E.
  rewrite IH. cbn [seq map]. rewrite <- seq_shift, map_map. f_equal.
  - f_equal; [unfold draw; simpl; rewrite E; reflexivity|]. apply map_ext. intros k. unfold draw.
    rewrite <- after_start, E. reflexivity.
  - rewrite <- after_start, E. reflexivity.
Qed.

Section Rand.
  Context {Rng : Type}.
  Variable uniform : Rng -> R * Rng.

  Lemma after_bernoulli p k r : after (bernoulli_elem uniform p) k r = after uniform k r.
  Proof.
    induction k as [|k IH]; simpl; [reflexivity|]. rewrite IH. unfold bernoulli_elem.
    destruct (uniform _); reflexivity.
  Qed.
  Lemma draw_bernoulli p k r : draw (bernoulli_elem uniform p) k r = if Rlt_dec (draw uniform k r) p then 1 else 0.
  Proof. unfold draw. rewrite after_bernoulli. unfold bernoulli_elem. destruct (uniform _); reflexivity. Qed.

  Definition mask_of (sh : list nat) (p : R) (r : Rng) : arr R :=
    Arr sh (map (fun k => if Rlt_dec (draw uniform k r) p then 1 else 0) (seq 0 (prod sh))).
  Lemma bernoulli_spec sh p r : bernoulli uniform sh p r = (mask_of sh p r, after uniform (prod sh) r).
  Proof.
    unfold bernoulli, mask_of. rewrite draws_spec, after_bernoulli. do 2 f_equal. apply map_ext.
    intros k. apply draw_bernoulli.
  Qed.
  Lemma mask_shape sh p r : has_shape sh (mask_of sh p r).
  Proof. split; [reflexivity|]. simpl. rewrite map_length, seq_length. reflexivity. Qed.
  Lemma nth_map_seq {A} (f : nat -> A) d n k : (k < n)%nat -> nth k (map f (seq 0 n)) d = f k.
  Proof.
    intros H. rewrite (nth_indep _ d (f 0%nat)) by (rewrite map_length, seq_length; exact H).
    rewrite (map_nth f), seq_nth by exact H. reflexivity.
  Qed.
  Lemma mask_nth sh p r k : (k < prod sh)%nat ->
    nth k (a_data (mask_of sh p r)) 0 = if Rlt_dec (draw uniform k r) p then 1 else 0.
  Proof. intros H. simpl. rewrite nth_map_seq by exact H. reflexivity. Qed.

  Lemma map2_len {A B C} (f : A -> B -> C) l : forall l', length l = length l' -> length (map2 f l l') = length l.
  Proof. induction l as [|a l IH]; intros [|b l'] H; simpl in *; try discriminate; auto. Qed.
  Lemma map2_nth {A B C} (f : A -> B -> C) da db dc l : forall l' k, length l = length l' -> (k < length l)%nat ->
    nth k (map2 f l l') dc = f (nth k l da) (nth k l' db).
  Proof.
    induction l as [|a l IH]; intros [|b l'] k HL HK; simpl in *; try discriminate; try lia.
    destruct k as [|k]; [reflexivity|]. apply IH; lia.
  Qed.

  Lemma train_spec ratio r x : dropout_run uniform ratio true r x =
    ([Arr (a_shape x) (map2 Rmult (a_data (mask_of (a_shape x) (1 - ratio) r)) (a_data x)); mask_of (a_shape x) (1 - ratio) r],
     after uniform (prod (a_shape x)) r).
  Proof. unfold dropout_run. rewrite bernoulli_spec. reflexivity. Qed.

  Lemma train_kept ratio r x : has_shape (a_shape x) x ->
    exists y, nth_error (fst (dropout_run uniform ratio true r x)) 0 = Some y /\
      kept (fun k => draw uniform k r < 1 - ratio) x y.
  Proof.
    intros [_ H]. rewrite train_spec. cbn [fst nth_error]. eexists. split; [reflexivity|].
    assert (HL : length (a_data (mask_of (a_shape x) (1 - ratio) r)) = length (a_data x)).
    { rewrite H. apply mask_shape. }
    split.
    - split; [reflexivity|]. simpl a_data at 1. rewrite map2_len by exact HL. apply mask_shape.
    - intros k Hk. cbn [a_data]. assert (HK : (k < length (a_data (mask_of (a_shape x) (1 - ratio) r)))%nat) by (rewrite HL, H; exact Hk).
      rewrite (map2_nth Rmult 0 0 0 _ _ _ HL HK).
      rewrite mask_nth by exact Hk. destruct (Rlt_dec (draw uniform k r) (1 - ratio)); split; intros Q; try tauto; lra.
  Qed.

  (** ** Gradient *)
  Lemma arr_nth_get (a : arr R) sh i : has_shape sh a -> in_bounds sh i -> rget a i = nth (ravel sh i) (a_data a) 0.
  Proof. intros [E _] _. unfold aget. rewrite E. reflexivity. Qed.

  Lemma dropout_vjp ratio r x gy gx : has_shape (a_shape x) x -> has_shape (a_shape x) gy -> prod (a_shape x) <> 0%nat ->
    bin_arr Mul gy (mask_of (a_shape x) (1 - ratio) r) = Some gx ->
    vjp (fun x' => nth_error (fst (dropout_run uniform ratio true r x')) 0) x gy gx.
  Proof.
    intros Hx Hg NE HM. set (sh := a_shape x) in *. set (m := mask_of sh (1 - ratio) r) in *.
    assert (Hm : has_shape sh m) by apply mask_shape.
    assert (HB : bin_ty Mul sh sh = Some sh).
    { simpl. apply arith_same. unfold nonempty. destruct (Nat.eqb_spec (prod sh) 0); [contradiction|reflexivity]. }
    rewrite (bin_arr_ok Mul gy m sh sh sh Hg Hm HB) in HM. injection HM as HM. subst gx.
    split; [apply tab_has_shape|]. intros v Hv.
    exists (fun t => tab sh (fun i => rget m i * (rget x i + t * rget v i))). fold sh in Hv.
    assert (Hgs : a_shape gy = sh) by apply Hg.
    split.
    - intros t. rewrite Hgs. split; [|apply tab_has_shape]. rewrite train_spec.
      assert (Es : a_shape (step x v t) = sh) by reflexivity. rewrite Es. cbn [fst nth_error]. f_equal.
      unfold tab. f_equal. fold m. rewrite (data_map 0 m) by (apply (has_shape_wf sh); auto).
      rewrite (step_tab sh x v t Hx Hv). cbn [a_data tab]. rewrite (proj1 Hm), map2_map. reflexivity.
    - apply (derivable_ext (fun t => rsum (indices sh) (fun i => rget gy i * (rget m i * (rget x i + t * rget v i))))).
      { intros t. rewrite (dot_sum sh) by (auto using tab_has_shape). apply rsum_ext. intros i Hi. rewrite aget_tab by (apply indices_in; exact Hi). reflexivity. }
      unfold zip_tab. rewrite (dot_sum sh) by (auto using tab_has_shape).
      apply (derivable_sum (indices sh) (fun i t => rget gy i * (rget m i * (rget x i + t * rget v i)))).
      intros i Hi. rewrite aget_tab by (apply indices_in; exact Hi).
      rewrite !bc_idx_self by (apply indices_in; exact Hi). cbn [bin].
      apply (derivable_line (fun u => rget gy i * (rget m i * u)) (rget x i) (rget v i) (rget gy i * rget m i)).
      apply (derivable_ext (fun u => rget gy i * rget m i * u)); [intros u; ring|].
      replace (rget gy i * rget m i) with (rget gy i * rget m i * 1) by ring.
      apply (derivable_ext (fun u => rget gy i * rget m i * u)); [intros u; ring|].
      apply (derivable_pt_lim_scal (fun t => t)). apply derivable_pt_lim_id.
  Qed.
End Rand.

(** ** What an evaluation feeds to an operation *)
Section Reads.
  Context {O V E : Type}.
  Variable shape_of : V -> list nat.
  Variable compute : O -> list (opin V) -> cout V E.
  Variable debug : bool.
  Variable g : graph O.
  Variable feeds : list (ph_key * V).
  Notation execution := (execution shape_of compute debug g feeds).

  Definition gets (s : @results V E) (inc : incoming) (x : opin V) : Prop :=
    computed g (in_id inc) -> exists ys v, s (in_id inc) = Some (inl ys) /\ nth_error ys (in_sel inc) = Some v /\ x = NonVar v.

  Lemma ran_reads env0 log s env : execution env0 log s env ->
    forall i xs, In (Ran i xs) log -> exists n, op_node g i n /\ Forall2 (gets s) (n_inputs n) xs.
  Proof.
    assert (KEEP : forall (s0 : @results V E) i r inc x, s0 i = None -> gets s0 inc x -> gets (set_result s0 i r) inc x).
    { intros s0 i r inc x Hi H C. destruct (H C) as (ys & v & A & B). exists ys, v. split; auto. unfold set_result.
      destruct (Nat.eqb_spec (in_id inc) i); [congruence|auto]. }
    intros H; induction H as [|log s env i n xs ws ys status env' H IH Hi Hn Hx Hc Hd Hu
                              |log s env i n pre inc post e H IH Hi Hn Hp Hr Hf]; intros j xj Hin.
    - destruct Hin.
    - apply in_app_iff in Hin. destruct Hin as [Hin|[Hin|[]]].
      + destruct (IH _ _ Hin) as (n1 & A & B). exists n1. split; auto. eapply Forall2_imp; [|exact B]. eauto.
      + injection Hin as -> ->. exists n. split; auto. eapply Forall2_imp; [|exact Hx]. intros inc x HR. apply KEEP; auto.
        intros (m & Hm). destruct HR as [n' v A B|n' vid v A B C D|n' ys' v A B C].
        * destruct Hm as (Q1 & Q2 & Q3). rewrite A in Q1. injection Q1 as ->. destruct B as (nm & _ & _ & _ & _ & B & _). congruence.
        * destruct Hm as (Q1 & Q2 & Q3). rewrite A in Q1. injection Q1 as ->. congruence.
        * exists ys', v. auto.
    - apply in_app_iff in Hin. destruct Hin as [Hin|[Hin|[]]]; [|discriminate].
      destruct (IH _ _ Hin) as (n1 & A & B). exists n1. split; auto. eapply Forall2_imp; [|exact B]. eauto.
  Qed.

  Lemma op_node_eq i n n' : op_node g i n -> nth_error g i = Some n' -> n = n'.
  Proof. intros (A & _) B. congruence. Qed.
End Reads.

Lemma eval_events {O V E} (shape_of : V -> list nat) (compute : O -> list (opin V) -> cout V E) debug (g : graph O) feeds fuel targets env (oc : @outcome V E) :
  wf_graph g -> in_range g targets -> eval shape_of compute debug g feeds fuel targets env = Ok oc ->
  exists s, execution shape_of compute debug g feeds env (oc_log oc) s (oc_env oc) /\
    Forall2 (target_result shape_of g feeds s (oc_env oc)) targets (oc_results oc) /\
    (forall i, needed g targets i -> (exists xs, In (Ran i xs) (oc_log oc)) \/ In (Skipped i) (oc_log oc)).
Proof.
  intros W I H. destruct (eval_is_execution _ _ _ _ _ _ _ _ _ W I H) as (s & A & B). exists s. split; auto. split; auto.
  intros i Hi. apply event_cases. apply (eval_order shape_of compute debug g feeds W targets env fuel oc I H). exact Hi.
Qed.

Lemma target_computed {O V E} (shape_of : V -> list nat) (g : graph O) feeds (s : @results V E) env targets rs t v n :
  Forall2 (target_result shape_of g feeds s env) targets rs -> In (t, inl v) (combine targets rs) -> op_node g t n ->
  exists ys, s t = Some (inl (v :: ys)) /\ In t targets.
Proof.
  intros H Hin (A & B & C). pose proof (in_combine_forall2 _ _ _ _ _ H Hin) as Q.
  inversion Q as [n' vid v' X1 X2 X3|n' v' X1 X2 X3|n' y ys X1 X2|]; subst.
  - congruence.
  - rewrite A in X1. injection X1 as <-. destruct X3 as (nm & ? & ? & ? & ? & X3 & _). congruence.
  - exists ys. split; auto. eapply in_combine_l; exact Hin.
Qed.

Section Graphs.
  Context {Rng Op Err : Type}.
  Variable uniform : Rng -> R * Rng.
  Variable other : Op -> list (opin (arr R)) -> cout (arr R) Err.
  Notation compute := (drop_compute uniform other).
  Notation dnode := (node (@dop Rng Op)).

  Lemma nth_app_l {A} (l l' : list A) i x : nth_error l i = Some x -> nth_error (l ++ l') i = Some x.
  Proof. intros H. rewrite nth_error_app1; auto. apply nth_error_Some. congruence. Qed.

  Lemma drop_grad_spec (g : graph (@dop Rng Op)) out gy g' p : drop_grad g out gy = Some (g', p) ->
    exists nm np, g' = g ++ [nm; np] /\ p = S (length g) /\
      n_op nm = DIdentity /\ n_inputs nm = [Incoming out false 1] /\ n_ph nm = None /\ n_var nm = None /\
      n_op np = DMul /\ n_inputs np = [Incoming gy false 0; Incoming (length g) false 0] /\ n_ph np = None /\ n_var np = None.
  Proof.
    unfold drop_grad, nth_tensor. intros H. destruct (build g _ _) as [[g1 m]|] eqn:E1; [|discriminate].
    apply build_spec in E1. destruct E1 as (-> & _ & ->). apply build_spec in H. destruct H as (-> & _ & ->).
    rewrite <- app_assoc. rewrite app_length. cbn [app length].
    do 2 eexists. split; [reflexivity|]. split; [lia|]. cbn. repeat split; reflexivity.
  Qed.

  Section One.
    Variables (debug : bool) (g : graph (@dop Rng Op)) (out gy p : nat) (g' rest : graph (@dop Rng Op)).
    Variables (feeds : list (ph_key * arr R)) (fuel : nat) (targets : list nat) (env : list (arr R)) (oc : @outcome (arr R) Err).
    Variables (n : dnode) (inc : incoming) (ratio : R) (train : bool) (r : Rng).
    Hypothesis Hn : op_node g out n.
    Hypothesis Ho : n_op n = DDropout ratio train r.
    Hypothesis Hi : n_inputs n = [inc].
    Hypothesis Hg : drop_grad g out gy = Some (g', p).
    Hypothesis W : wf_graph (g' ++ rest).
    Hypothesis I : in_range (g' ++ rest) targets.
    Hypothesis He : eval a_shape compute debug (g' ++ rest) feeds fuel targets env = Ok oc.

    Lemma nodes : exists nm np, op_node (g' ++ rest) out n /\ op_node (g' ++ rest) (length g) nm /\ op_node (g' ++ rest) p np /\
      n_op nm = DIdentity /\ n_inputs nm = [Incoming out false 1] /\
      n_op np = DMul /\ n_inputs np = [Incoming gy false 0; Incoming (length g) false 0].
    Proof using Hn Hg.
      clear He I W.
      destruct (drop_grad_spec _ _ _ _ _ Hg) as (nm & np & -> & -> & A1 & A2 & A3 & A4 & B1 & B2 & B3 & B4).
      exists nm, np. destruct Hn as (N1 & N2 & N3).
      assert (L : nth_error ((g ++ [nm; np]) ++ rest) (length g) = Some nm).
      { apply nth_app_l. rewrite nth_error_app2, Nat.sub_diag by lia. reflexivity. }
      assert (L' : nth_error ((g ++ [nm; np]) ++ rest) (S (length g)) = Some np).
      { apply nth_app_l. rewrite nth_error_app2 by lia. replace (S (length g) - length g)%nat with 1%nat by lia. reflexivity. }
      repeat split; auto. apply nth_app_l, nth_app_l. exact N1.
    Qed.

    Lemma dropout_ran xs : In (Ran out xs) (oc_log oc) ->
      exists xin, xs = [xin] /\ forall s env', execution a_shape compute debug (g' ++ rest) feeds env (oc_log oc) s env' ->
        s out = Some (inl (fst (dropout_run uniform ratio train r (opin_val xin)))).
    Proof.
      intros HR. destruct nodes as (nm & np & No & _).
      destruct (eval_events _ _ _ _ _ _ _ _ _ W I He) as (s & EX & _).
      destruct (ran_reads _ _ _ _ _ _ _ _ _ EX _ _ HR) as (n' & No' & F). rewrite (op_node_eq _ _ _ _ No' (proj1 No)) in F.
      rewrite Hi in F. inversion F as [|? xin ? ? _ F']; subst. inversion F'; subst. exists xin. split; auto.
      intros s' env' EX'. destruct (ran_result _ _ _ _ _ _ _ _ _ EX' _ _ HR) as (n2 & ws & ys & st & N2 & HC & _ & HS).
      rewrite (op_node_eq _ _ _ _ N2 (proj1 No)) in HC. rewrite Ho in HC. cbn [drop_compute] in HC. injection HC as <- <- <-. exact HS.
    Qed.

    Lemma gradient_ran gx : In (p, inl gx) (combine targets (oc_results oc)) ->
      exists xin gin mask, In (Ran out [xin]) (oc_log oc) /\ In (Ran p [gin; NonVar mask]) (oc_log oc) /\
        nth_error (fst (dropout_run uniform ratio train r (opin_val xin))) 1 = Some mask /\
        bin_arr Mul (opin_val gin) mask = Some gx.
    Proof.
      intros HP. destruct nodes as (nm & np & No & Nm & Np & A1 & A2 & B1 & B2).
      destruct (eval_events _ _ _ _ _ _ _ _ _ W I He) as (s & EX & FT & EV).
      destruct (target_computed _ _ _ _ _ _ _ _ _ _ FT HP Np) as (ys & SP & IT).
      assert (DP : needed (g' ++ rest) targets p).
      { split; [eexists; exact Np|]. exists p. split; auto. apply rt_refl. }
      assert (DM : needed (g' ++ rest) targets (length g)).
      { split; [eexists; exact Nm|]. exists p. split; auto. apply rt_step. exists np, (Incoming (length g) false 0). repeat split; auto; [apply Np|rewrite B2; simpl; auto]. }
      assert (DO : needed (g' ++ rest) targets out).
      { split; [eexists; exact No|]. exists p. split; auto. eapply rt_trans; [|apply rt_step; exists nm, (Incoming out false 1); repeat split; [apply Nm|rewrite A2; simpl; auto]].
        apply rt_step. exists np, (Incoming (length g) false 0). repeat split; auto; [apply Np|rewrite B2; simpl; auto]. }
      destruct (EV p DP) as [[xs HR]|HK].
      2:{ destruct (skipped_result _ _ _ _ _ _ _ _ _ EX _ HK) as (? & ? & e & _ & _ & _ & Q). congruence. }
      destruct (ran_reads _ _ _ _ _ _ _ _ _ EX _ _ HR) as (n' & Np' & F). rewrite (op_node_eq _ _ _ _ Np' (proj1 Np)), B2 in F.
      inversion F as [|? gin ? l1 _ F1]; subst. inversion F1 as [|? min ? l2 GM F2]; subst. inversion F2; subst.
      destruct GM as (ym & mask & SM & NM & ->); [exists nm; exact Nm|]. cbn [in_id in_sel] in SM, NM.
      destruct (ran_result _ _ _ _ _ _ _ _ _ EX _ _ HR) as (n2 & ws & y2 & st & N2 & HC & _ & HS).
      rewrite (op_node_eq _ _ _ _ N2 (proj1 Np)), B1 in HC. cbn [drop_compute opin_val] in HC.
      destruct (bin_arr Mul (opin_val gin) mask) as [z|] eqn:EZ; [|discriminate]. injection HC as <- <- <-. rewrite SP in HS. injection HS as -> _.
      destruct (EV _ DM) as [[xm HRm]|HK].
      2:{ destruct (skipped_result _ _ _ _ _ _ _ _ _ EX _ HK) as (? & ? & e & _ & _ & _ & Q). congruence. }
      destruct (ran_reads _ _ _ _ _ _ _ _ _ EX _ _ HRm) as (n3 & N3 & F3). rewrite (op_node_eq _ _ _ _ N3 (proj1 Nm)), A2 in F3.
      inversion F3 as [|? mi ? l3 GO F4]; subst. inversion F4; subst.
      destruct GO as (yo & m2 & SO & NO & ->); [exists n; exact No|]. cbn [in_id in_sel] in SO, NO.
      destruct (ran_result _ _ _ _ _ _ _ _ _ EX _ _ HRm) as (n4 & ws4 & y4 & st4 & N4 & HC4 & _ & HS4).
      rewrite (op_node_eq _ _ _ _ N4 (proj1 Nm)), A1 in HC4. cbn [drop_compute opin_val] in HC4. injection HC4 as <- <- <-.
      rewrite SM in HS4. injection HS4 as ->. simpl in NM. injection NM as <-.
      destruct (EV _ DO) as [[xo HRo]|HK].
      2:{ destruct (skipped_result _ _ _ _ _ _ _ _ _ EX _ HK) as (? & ? & e & _ & _ & _ & Q). congruence. }
      destruct (dropout_ran xo HRo) as (xin & -> & SX). specialize (SX _ _ EX). rewrite SO in SX. injection SX as ->.
      exists xin, gin, m2. auto.
    Qed.

    (** In test mode no evaluation that gets past the dropout succeeds. *)
    Lemma test_mode_stuck : train = false -> In p targets -> In (Skipped out) (oc_log oc).
    Proof.
      intros T IT. destruct nodes as (nm & np & No & Nm & Np & A1 & A2 & B1 & B2).
      destruct (eval_events _ _ _ _ _ _ _ _ _ W I He) as (s & EX & FT & EV).
      assert (DM : needed (g' ++ rest) targets (length g)).
      { split; [eexists; exact Nm|]. exists p. split; auto. apply rt_step. exists np, (Incoming (length g) false 0). repeat split; auto; [apply Np|rewrite B2; simpl; auto]. }
      assert (DO : needed (g' ++ rest) targets out).
      { split; [eexists; exact No|]. exists p. split; auto. eapply rt_trans; [|apply rt_step; exists nm, (Incoming out false 1); repeat split; [apply Nm|rewrite A2; simpl; auto]].
        apply rt_step. exists np, (Incoming (length g) false 0). repeat split; auto; [apply Np|rewrite B2; simpl; auto]. }
      destruct (EV _ DO) as [[xo HRo]|HK]; [|exact HK]. exfalso.
      destruct (dropout_ran xo HRo) as (xin & -> & SX). specialize (SX _ _ EX). rewrite T in SX. simpl in SX.
      destruct (EV _ DM) as [[xm HRm]|HK].
      - destruct (ran_reads _ _ _ _ _ _ _ _ _ EX _ _ HRm) as (n3 & N3 & F3). rewrite (op_node_eq _ _ _ _ N3 (proj1 Nm)), A2 in F3.
        inversion F3 as [|? mi ? l3 GO F4]; subst.
        destruct GO as (yo & m2 & SO & NO & _); [exists n; exact No|]. cbn [in_id in_sel] in SO, NO. rewrite SX in SO. injection SO as <-. discriminate.
      - destruct (skipped_result _ _ _ _ _ _ _ _ _ EX _ HK) as (n' & inc' & e & N' & J & Q & _).
        rewrite (op_node_eq _ _ _ _ N' (proj1 Nm)), A2 in J. destruct J as [<-|[]]. cbn [in_id] in Q. congruence.
    Qed.
  End One.
End Graphs.
