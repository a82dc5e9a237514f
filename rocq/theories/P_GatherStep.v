(** Properties C67 and C68, continued: optimizer steps on models that look rows up
    with [gather], and on the language model of examples/lstm_lm.rs. *)
From Coq Require Import String List Arith ZArith NArith Bool Reals Lra Lia Relations.
From Coquelicot Require Import Coquelicot.
Import ListNotations.
From Verif Require Import Graph_Model Eval_Model Eval_Spec Eval_Proofs Eval_Proofs2 Graph_Proofs Eval_Update Var_Model Grad_Model Grad_Spec Grad_Proofs
  Grad_Examples Scalar_Model Scalar_Spec Scalar_Proofs.
From Verif Require Import Array_Model Array_Proofs Array_Sum Arith_Model Vjp_Spec Vjp_Proofs Dot_Spec
  Tens_Model Tens_Spec Tens_Build Tens_Lax Tens_Grad Tens_Final Tens_Joint Tens_Examples Tens_Comp.
From Verif Require Import Opt_Model Opt_Proofs Opt_Effect Opt_Steps P_Opt Num_Model Num_Spec Num_Proofs P_Num Train_Spec Train_Proofs Train_Step Train_Witness P_Gather.
From Verif Require Import Lstm_Model Lstm_Spec Lstm_Proofs P_Lstm.
Local Open Scope R_scope.
Local Set Bullet Behavior "Strict Subproofs".

(** ** C67: steps *)

(** As [C63_step_uses_gradients], for losses that look rows up. *)
Theorem C67_step_uses_gradients :
  forall (rnd : Z -> Z) (powf : R -> R -> R) (pop : tgraph -> list nat -> option (nat * list nat)) (debug : bool) (fuel fuel2 : nat)
    (ls : nat -> list nat) (ys xs : list nat) (g g' : tgraph) (l : list (nat * bool)) (log : list nat)
    (e e' : env (arr R)) (c c' : context nop) (feeder : list (ph_key * arr R)) (rho : nat -> arr R) (opt : optimizer),
  twf ls g -> attached g -> (forall g, heap_pop g (pop g)) ->
  (forall y, In y ys -> uses ls g y /\ exists sh, shaped ls g y sh) ->
  NoDup xs -> (forall x, In x xs -> t_input_leaf g x) ->
  t_grad pop debug fuel ys xs g = Ok (l, g', log) -> exact_inx true rnd ls g' ->
  conform ls rho -> leaf_arrays g' feeder (array_list e) rho ->
  (forall x y, In x xs -> In y ys -> t_smooth ls g rho x y) ->
  c_graph c = num_graph g' -> good c ->
  updatable opt e (c_graph c) xs (map fst l) -> shared_readers opt e (c_graph c) xs (map fst l) ->
  update (NTens TLeaf) NOpt (num_compute rnd powf) debug fuel2 opt e c xs (map fst l) feeder = Ok (c', e') ->
  (forall x vid, In x xs -> var_tensor (c_graph c) x vid -> exists sids svs gx p' svs',
     state_ids opt e vid sids /\ nth_error (array_list e) vid = Some (rho x) /\
     Forall2 (fun sid a => nth_error (array_list e) sid = Some a) sids svs /\
     has_shape (ls x) gx /\
     (forall v, has_shape (ls x) v ->
        derivable_pt_lim (fun t => total_loss (put rho x (Vjp_Spec.step (rho x) v t)) g ys) 0 (dot gx v)) /\
     opt_step powf opt (rho x) gx svs = Some (p', svs') /\
     nth_error (array_list e') vid = Some p' /\
     Forall2 (fun sid a => nth_error (array_list e') sid = Some a) sids svs') /\
  (forall v, (forall x vid, In x xs -> var_tensor (c_graph c) x vid -> ~ operand opt e vid v) ->
     nth_error (array_list e') v = nth_error (array_list e) v).
Proof.
  intros rnd powf pop debug fuel fuel2 ls ys xs g g' l log e e' c c' feeder rho opt W A Hp Hy Nx Hx H X C HL Hs Hc Hgd U S Hup.
  pose proof (conj W (fun _ => A) : sound true ls g) as SW.
  destruct (step_result true rnd powf pop debug fuel ls ys xs g g' l log SW Hp Hy Nx Hx H X e c feeder rho C HL Hs Hc Hgd opt fuel2 c' e' U S Hup) as [P Q].
  split; [|exact Q]. intros x vid Hin Hv. pose proof Hin as Hin2. apply In_nth_error in Hin2. destruct Hin2 as (k & Hk).
  destruct (tgrad_derivative_x true pop debug fuel ys xs ls g l g' log SW Hp Hy Nx Hx H) as (_ & _ & F).
  destruct (Forall2_nth _ _ _ _ _ F Hk) as (r & Hr & _).
  destruct (P k x r vid Hk Hr Hv) as (sids & svs & p' & svs' & P1 & P2 & P3 & P4 & P5).
  destruct (gradient_value true rnd powf pop debug fuel ls ys xs g g' l log SW Hp Hy Nx Hx H X e c feeder rho C HL Hs Hc k x r Hk Hr) as (_ & G1 & G2).
  exists sids, svs, (aval rho g' (fst r)), p', svs'. split; [exact P1|]. split.
  { exact (params_hold true pop debug fuel ls ys xs g g' l log SW Hp Hy Nx Hx H e c feeder rho HL Hc x vid Hin Hv). }
  repeat (split; [assumption|]). assumption.
Qed.
Print Assumptions C67_step_uses_gradients.

(** As [C63_step_decreases_loss]. *)
Theorem C67_step_decreases_loss :
  forall (rnd : Z -> Z) (powf : R -> R -> R) (pop : tgraph -> list nat -> option (nat * list nat)) (debug : bool) (fuel : nat)
    (ls : nat -> list nat) (ys xs : list nat) (g g' : tgraph) (l : list (nat * bool)) (log : list nat)
    (e : env (arr R)) (c : context nop) (feeder : list (ph_key * arr R)) (rho : nat -> arr R) (opt : optimizer),
  twf ls g -> attached g -> (forall g, heap_pop g (pop g)) ->
  (forall y, In y ys -> uses ls g y /\ exists sh, shaped ls g y sh) ->
  NoDup xs -> (forall x, In x xs -> t_input_leaf g x) ->
  t_grad pop debug fuel ys xs g = Ok (l, g', log) -> exact_inx true rnd ls g' ->
  conform ls rho -> leaf_arrays g' feeder (array_list e) rho ->
  (forall x y, In x xs -> In y ys -> t_smooth ls g rho x y) ->
  c_graph c = num_graph g' -> good c ->
  updatable opt e (c_graph c) xs (map fst l) -> shared_readers opt e (c_graph c) xs (map fst l) ->
  (forall x vid sids s i, In x xs -> var_tensor (c_graph c) x vid -> state_ids opt e vid sids -> In s sids ->
     ~ var_tensor (c_graph c) i s) ->
  (forall x vid, In x xs -> var_tensor (c_graph c) x vid -> exists sids svs, state_ids opt e vid sids /\
     Forall2 (fun sid a => nth_error (array_list e) sid = Some a) sids svs /\ no_momentum powf opt (ls x) svs) ->
  (exists x r i, In (x, r) (combine xs l) /\ in_bounds (ls x) i /\ aget 0 (aval rho g' (fst r)) i <> 0) ->
  exists delta, 0 < delta /\
    forall lr fuel2 c' e', 0 < lr < delta ->
      update (NTens TLeaf) NOpt (num_compute rnd powf) debug fuel2 (with_rate opt lr) e c xs (map fst l) feeder = Ok (c', e') ->
      exists before after : nat -> arr R,
        (forall y, In y ys ->
           tensor_value a_shape (num_compute rnd powf) debug (c_graph c) feeder (array_list e) y (inl (before y)) /\
           tensor_value a_shape (num_compute rnd powf) debug (c_graph c) feeder (array_list e') y (inl (after y))) /\
        fold_right Rplus 0 (map (fun y => elements_sum (after y)) ys) < fold_right Rplus 0 (map (fun y => elements_sum (before y)) ys).
Proof.
  intros rnd powf pop debug fuel ls ys xs g g' l log e c feeder rho opt W A Hp Hy Nx Hx H X C HL Hs Hc Hgd U S St Nm Nz.
  pose proof (conj W (fun _ => A) : sound true ls g) as SW.
  destruct (step_descends true rnd powf pop debug fuel ls ys xs g g' l log SW Hp Hy Nx Hx H X e c feeder rho C HL Hs Hc Hgd opt U S St Nm Nz) as (delta & Hd & K).
  exists delta. split; [exact Hd|]. intros lr fuel2 c' e' Hlr Hup. destruct (K lr fuel2 c' e' Hlr Hup) as (rho' & C' & HL' & Hlt).
  exists (aval rho g), (aval rho' g). split; [|exact Hlt]. intros y Hin. split.
  - exact (output_value true rnd powf pop debug fuel ls ys xs g g' l log SW Hp Hy Nx Hx H X c feeder Hc y e rho Hin C HL).
  - exact (output_value true rnd powf pop debug fuel ls ys xs g g' l log SW Hp Hy Nx Hx H X c feeder Hc y e' rho' Hin C' HL').
Qed.
Print Assumptions C67_step_decreases_loss.

(** And the call returns. *)
Theorem C67_step_returns :
  forall (rnd : Z -> Z) (powf : R -> R -> R) (pop : tgraph -> list nat -> option (nat * list nat)) (debug : bool) (fuel fuel2 : nat)
    (ls : nat -> list nat) (ys xs us : list nat) (g g' : tgraph) (l : list (nat * bool)) (log : list nat)
    (e : env (arr R)) (c c' : context nop) (feeder : list (ph_key * arr R)) (rho : nat -> arr R) (opt : optimizer) (lr : R),
  twf ls g -> attached g -> (forall g, heap_pop g (pop g)) ->
  (forall y, In y ys -> uses ls g y /\ exists sh, shaped ls g y sh) ->
  NoDup xs -> (forall x, In x xs -> t_input_leaf g x) ->
  t_grad pop debug fuel ys xs g = Ok (l, g', log) -> exact_inx true rnd ls g' ->
  conform ls rho -> leaf_arrays g' feeder (array_list e) rho ->
  (forall x y, In x xs -> In y ys -> t_smooth ls g rho x y) ->
  c_graph c = num_graph g' -> good c ->
  updatable opt e (c_graph c) xs (map fst l) -> shared_readers opt e (c_graph c) xs (map fst l) ->
  (forall x vid, In x xs -> var_tensor (c_graph c) x vid -> exists sids svs, state_ids opt e vid sids /\
     Forall2 (fun sid a => nth_error (array_list e) sid = Some a) sids svs /\ no_momentum powf opt (ls x) svs) ->
  compute_updates (NTens TLeaf) NOpt (with_rate opt lr) e c xs (map fst l) = Some (c', us) ->
  (2 * (length us + edge_count (c_graph c')) < fuel2)%nat ->
  exists e', update (NTens TLeaf) NOpt (num_compute rnd powf) debug fuel2 (with_rate opt lr) e c xs (map fst l) feeder = Ok (c', e').
Proof.
  intros rnd powf pop debug fuel fuel2 ls ys xs us g g' l log e c c' feeder rho opt lr W A Hp Hy Nx Hx H X C HL Hs Hc Hgd U S Nm Hcu Hf.
  pose proof (conj W (fun _ => A) : sound true ls g) as SW.
  destruct (tgrad_derivative_x true pop debug fuel ys xs ls g l g' log SW Hp Hy Nx Hx H) as ((W' & _) & _ & F).
  apply (C26_simultaneous_returns nop unit powf (NTens TLeaf) NOpt (num_compute rnd powf) debug (with_rate opt lr) e c c' xs (map fst l) us feeder fuel2); auto.
  - rewrite Hc. intros i Hcyc.
    assert (Q : forall a b, clos_trans nat (reads_from (num_graph g')) a b -> (b < a)%nat).
    { induction 1 as [a b (n & inc & Hn & Hin & <-)|a b d _ IH1 _ IH2]; [|lia].
      unfold num_graph in Hn. rewrite nth_error_map in Hn. destruct (nth_error g' a) as [n0|] eqn:En; [|discriminate].
      injection Hn as <-. exact (twf_input ls g' W' a n0 inc En Hin). }
    specialize (Q i i Hcyc). lia.
  - apply updatable_rate. exact U.
  - apply shared_rate. exact S.
  - intros k p gr vid Hk Hgr Hv. rewrite nth_error_map in Hgr. destruct (nth_error l k) as [r|] eqn:Hr; [|discriminate]. injection Hgr as <-.
    pose proof (nth_error_In _ _ Hk) as Hin. destruct (Nm p vid Hin Hv) as (sids & svs & N1 & N2 & N3).
    destruct (gradient_value true rnd powf pop debug fuel ls ys xs g g' l log SW Hp Hy Nx Hx H X e c feeder rho C HL Hs Hc k p r Hk Hr) as (G0 & G1 & _).
    destruct (downhill_step powf opt (ls p) (rho p) _ svs (C p) G1 N3) as (s & _ & D). destruct (D lr) as (p' & sts' & D1 & _).
    exists sids, (rho p), (aval rho g' (fst r)), svs, (p', sts'). split; [apply state_rate; exact N1|]. split.
    { exact (params_hold true pop debug fuel ls ys xs g g' l log SW Hp Hy Nx Hx H e c feeder rho HL Hc p vid Hin Hv). }
    split; [exact N2|]. split; [exact G0|exact D1].
Qed.
Print Assumptions C67_step_returns.

(** ** C68: training the language model *)

(** One step of an optimizer without momentum, with any sufficiently small learning
    rate, makes the summed loss of the sentences smaller, unless all gradients are
    zero. *)
Theorem C68_step_decreases_loss :
  forall (lowest : R) (ls : nat -> list nat) (v : lstm) (d vocab n : nat) (words : list (list Z)) (t : nat) (g0 g g' : tgraph)
    (rnd : Z -> Z) (powf : R -> R -> R) (pop : tgraph -> list nat -> option (nat * list nat)) (debug : bool) (fuel : nat)
    (xs : list nat) (l : list (nat * bool)) (log : list nat)
    (e : env (arr R)) (c : context nop) (feeder : list (ph_key * arr R)) (rho : nat -> arr R) (opt : optimizer),
  twf ls g0 -> attached g0 -> (forall i, In i (lm_leaves v) -> t_input_leaf g0 i) ->
  lm_sizes ls v d vocab n words -> lstm_loss lowest v d words g0 = Some (t, g) ->
  (forall g, heap_pop g (pop g)) -> NoDup xs -> (forall x, In x xs -> t_input_leaf g0 x) ->
  t_grad pop debug fuel [t] xs g = Ok (l, g', log) -> exact_inx true rnd ls g' ->
  conform ls rho -> leaf_arrays g' feeder (array_list e) rho ->
  c_graph c = num_graph g' -> good c ->
  updatable opt e (c_graph c) xs (map fst l) -> shared_readers opt e (c_graph c) xs (map fst l) ->
  (forall x vid sids s i, In x xs -> var_tensor (c_graph c) x vid -> state_ids opt e vid sids -> In s sids ->
     ~ var_tensor (c_graph c) i s) ->
  (forall x vid, In x xs -> var_tensor (c_graph c) x vid -> exists sids svs, state_ids opt e vid sids /\
     Forall2 (fun sid a => nth_error (array_list e) sid = Some a) sids svs /\ no_momentum powf opt (ls x) svs) ->
  (exists x r i, In (x, r) (combine xs l) /\ in_bounds (ls x) i /\ aget 0 (aval rho g' (fst r)) i <> 0) ->
  exists delta, 0 < delta /\
    forall lr fuel2 c' e', 0 < lr < delta ->
      update (NTens TLeaf) NOpt (num_compute rnd powf) debug fuel2 (with_rate opt lr) e c xs (map fst l) feeder = Ok (c', e') ->
      exists rho', conform ls rho' /\ leaf_arrays g' feeder (array_list e') rho' /\
        sum_below n (lm_loss v d vocab words rho') < sum_below n (lm_loss v d vocab words rho).
Proof.
  intros lowest ls v d vocab n words t g0 g g' rnd powf pop debug fuel xs l log e c feeder rho opt
    W A Hl Hs Hm Hp Nx Hx H X C HL Hc Hgd U S St Nm Nz.
  destruct (lm_graph _ _ _ _ _ _ _ _ _ _ W A Hl Hs Hm) as ((W' & A' & _) & G & T & V & Sm).
  assert (Hlt : forall x, t_input_leaf g0 x -> (x < length g0)%nat).
  { intros x (nd & Hnd & _). apply nth_error_Some. congruence. }
  assert (Hy : forall y, In y [t] -> uses ls g y /\ exists sh, shaped ls g y sh).
  { intros y [<-|[]]. split; [|exists [n; 1%nat]; exact T]. apply (Sm rho (v_table v) C). apply Hlt. apply Hl. left. reflexivity. }
  assert (Hx' : forall x, In x xs -> t_input_leaf g x).
  { intros x Hv. destruct (Hx x Hv) as (nd & Hn & Hn2). exists nd. split; [exact (grows_nth g0 g x nd G Hn)|exact Hn2]. }
  assert (Hsm : forall x y, In x xs -> In y [t] -> t_smooth ls g rho x y).
  { intros x y Hv [<-|[]]. apply (Sm rho x C). apply Hlt. auto. }
  pose proof (conj W' (fun _ => A') : sound true ls g) as SW.
  destruct (step_descends true rnd powf pop debug fuel ls [t] xs g g' l log SW Hp Hy Nx Hx' H X e c feeder rho C HL Hsm Hc Hgd opt U S St Nm Nz) as (delta & Hd & K).
  exists delta. split; [exact Hd|]. intros lr fuel2 c' e' Hlr Hup. destruct (K lr fuel2 c' e' Hlr Hup) as (rho' & C' & HL' & Hlt').
  exists rho'. split; [exact C'|]. split; [exact HL'|].
  rewrite (lm_total lowest ls v d vocab n words t g0 g rho W A Hl Hs Hm C) in Hlt'.
  rewrite (lm_total lowest ls v d vocab n words t g0 g rho' W A Hl Hs Hm C') in Hlt'. exact Hlt'.
Qed.
Print Assumptions C68_step_decreases_loss.

(** ** An example *)

(** Two sentences of three words from a vocabulary of three, vectors of dimension 2.
    Only the bias is not zero.  Word 2 never follows, so giving it a higher score
    makes the loss larger. *)
Definition tr_words : list (list Z) := [[0; 0]; [1; 1]; [1; 0]]%Z.
Notation tr_build := (lstm_loss (-1) lm_vars 2 tr_words).
Definition tr_g : tgraph := match tr_build lm_start with Some (_, g) => g | None => [] end.
Definition tr_y : nat := match tr_build lm_start with Some (y, _) => y | None => 0%nat end.
(** The last variable first, as for [C65_hypotheses_met]; in the order of
    examples/lstm_lm.rs:118-124 [update] would change the weights of the output layer
    before the other gradients read them ([tr_order], [C26_simultaneous_refuted]). *)
Definition tr_xs : list nat := [4; 3; 2; 1; 0]%nat.
Definition tr_result := t_grad (@max_pop top) true 2000 [tr_y] tr_xs tr_g.
Definition tr_g' : tgraph := res_graph tr_result.
Definition tr_ctx : context nop := Context (num_graph tr_g') (own_ids 5).
Definition tr_rho (i : nat) : arr R := tab (lm_ls i) (fun _ => if (i =? 3)%nat then 1 else 0).
Definition tr_env : env (arr R) := Env (map tr_rho (seq 0 5)) [].
Notation tr_gs := (map fst (res_tensors tr_result)).

Lemma tr_order : readers_in_time_b tr_g' tr_xs tr_gs = true /\
  let r := t_grad (@max_pop top) true 2000 [tr_y] [1; 2; 3; 0; 4]%nat tr_g in
  readers_in_time_b (res_graph r) [1; 2; 3; 0; 4]%nat (map fst (res_tensors r)) = false.
Proof. split; vm_compute; reflexivity. Qed.
Lemma tr_made : tr_build lm_start = Some (tr_y, tr_g).
Proof.
  assert (B : match tr_build lm_start with Some _ => true | None => false end = true) by (vm_compute; reflexivity).
  unfold tr_y, tr_g. destruct (tr_build lm_start) as [[y g]|]; [reflexivity|discriminate].
Qed.
Lemma tr_sizes : lm_sizes lm_ls lm_vars 2 3 2 tr_words.
Proof.
  unfold lm_sizes. do 3 (split; [lia|]). do 5 (split; [reflexivity|]). split; [cbn; lia|].
  apply Forall_forall. intros w Hw. split; [|intros z Hz]; cbn in Hw; intuition (subst; cbn in *; intuition lia).
Qed.
Lemma tr_twf : twf lm_ls lm_start.
Proof. apply twf_b_sound. vm_compute. reflexivity. Qed.
Lemma tr_attached : attached lm_start.
Proof. apply attached_b_sound. vm_compute. reflexivity. Qed.
Lemma tr_inputs v : (v < 5)%nat -> t_input_leaf lm_start v.
Proof. intros H. destruct v as [|[|[|[|[|v]]]]]; [| | | | |lia]; eexists; (split; [reflexivity|split; reflexivity]). Qed.
Lemma tr_ctx_graph : c_graph tr_ctx = num_graph tr_g'.
Proof. reflexivity. Qed.
Lemma tr_twf' : twf lm_ls tr_g'.
Proof. apply twf_b_sound. vm_compute. reflexivity. Qed.
Lemma tr_vars : var_leaves_b 5 tr_g' = true.
Proof. vm_compute. reflexivity. Qed.
Lemma tr_leaf : forall v, (v < 5)%nat -> exists n, nth_error tr_g' v = Some n /\ n_op n = TLeaf.
Proof. apply leaves_first_sound. vm_compute. reflexivity. Qed.
Lemma tr_grad_ids gr : In gr tr_gs -> (5 <= gr < length (num_graph tr_g'))%nat.
Proof. apply ids_between_sound. vm_compute. reflexivity. Qed.
Lemma tr_good : good tr_ctx.
Proof. exact (vn_good 5 lm_ls tr_g' tr_twf' tr_vars tr_leaf). Qed.
Lemma tr_params : NoDup tr_xs /\ forall p, In p tr_xs -> (p < 5)%nat.
Proof. split; [repeat constructor; cbn; intuition discriminate|]. intros p [<-|[<-|[<-|[<-|[<-|[]]]]]]; lia. Qed.
Lemma tr_updatable lr : updatable (SGD lr) tr_env (c_graph tr_ctx) tr_xs tr_gs.
Proof. exact (vn_updatable 5 lm_ls tr_g' tr_twf' tr_vars tr_leaf tr_env lr tr_xs tr_gs (proj1 tr_params) (proj2 tr_params) tr_grad_ids). Qed.
Lemma tr_shared lr : shared_readers (SGD lr) tr_env (c_graph tr_ctx) tr_xs tr_gs.
Proof. exact (vn_shared 5 lm_ls tr_g' tr_twf' tr_vars tr_env lr tr_xs tr_gs tr_grad_ids (proj1 tr_order)). Qed.
Lemma tr_conform : conform lm_ls tr_rho.
Proof. intros i. apply tab_has_shape. Qed.
Lemma tr_leaves : leaf_arrays tr_g' [] (array_list tr_env) tr_rho.
Proof.
  apply arrays_of_leaves. change (map (fun a => TA a) (array_list tr_env)) with (map (fun i => TA (tr_rho i)) (seq 0 5)).
  apply var_leaves_sound. vm_compute. reflexivity.
Qed.
Lemma tr_ok : exists log, t_grad (@max_pop top) true 2000 [tr_y] tr_xs tr_g = Ok (res_tensors tr_result, tr_g', log).
Proof.
  assert (B : is_ok tr_result = true) by (vm_compute; reflexivity).
  assert (Q : tr_result = t_grad (@max_pop top) true 2000 [tr_y] tr_xs tr_g) by reflexivity.
  rewrite <- Q. unfold tr_g'. apply is_ok_sound. exact B.
Qed.
Definition exact_xb (lax : bool) (rnd : Z -> Z) (ls : nat -> list nat) (g : tgraph) : bool :=
  forallb (fun t => match t with Some (TyI l) => forallb (fun z => (rnd z =? z)%Z) l | _ => true end) (wtypes lax ls g) &&
  forallb (fun n => match n_op n with TSize => false | _ => true end) g.
Lemma exact_xb_sound lax rnd ls g : exact_xb lax rnd ls g = true -> exact_inx lax rnd ls g.
Proof.
  unfold exact_xb. rewrite andb_true_iff, !forallb_forall. intros [A B]. split.
  - intros i l Hl z Hz. specialize (A _ (nth_error_In _ _ Hl)). cbn in A. rewrite forallb_forall in A.
    apply Z.eqb_eq. apply A. exact Hz.
  - intros i n inc sh Hn Ho. specialize (B n (nth_error_In _ _ Hn)). rewrite Ho in B. discriminate.
Qed.
Lemma tr_exact : exact_inx true (float_int 24) lm_ls tr_g'.
Proof. apply exact_xb_sound. vm_compute. reflexivity. Qed.
Lemma tr_states : forall x vid, In x tr_xs -> var_tensor (c_graph tr_ctx) x vid -> exists sids svs, state_ids (SGD 1) tr_env vid sids /\
     Forall2 (fun sid a => nth_error (array_list tr_env) sid = Some a) sids svs /\ no_momentum Rpower (SGD 1) (lm_ls x) svs.
Proof. intros x vid _ _. exists [], []. split; [constructor|]. split; [constructor|]. exact I. Qed.

(** The outputs of both steps are positive. *)
Lemma sigma_pos x : 0 < sigma x.
Proof. unfold sigma. pose proof (exp_pos (- x)). apply Rinv_0_lt_compat. lra. Qed.
Lemma tanh_pos x : 0 < x -> 0 < tanh x.
Proof.
  intros H. unfold tanh, sinh, cosh. pose proof (exp_pos x). pose proof (exp_pos (- x)).
  assert (exp (- x) < exp x) by (apply exp_increasing; lra). apply Rdiv_lt_0_compat; lra.
Qed.
Lemma zeros_get sh i : aget 0 (tab sh (fun _ => 0)) i = 0.
Proof.
  unfold aget, tab. cbn [a_data a_shape]. generalize (ravel sh i) as q. generalize (indices sh) as l.
  induction l as [|x l IH]; intros [|q]; cbn; auto.
Qed.
Lemma tr_pre q x h i : (q < 4)%nat -> pre (tr_rho 1) (tr_rho 2) (tr_rho 3) 2 q x h i 0 = 1.
Proof.
  intros Hq. unfold pre, tr_rho. cbn [Nat.eqb sum_below]. rewrite !zeros_get. rewrite aget_tab; [ring|].
  cbn [lm_ls]. constructor; [lia|]. constructor; [lia|constructor].
Qed.
Notation tr_x w := (fun i k => aget 0 (tr_rho 0) [word w i; k]).
Notation tr_cell := (new_cell (tr_rho 1) (tr_rho 2) (tr_rho 3) 2).
Notation tr_out := (new_output (tr_rho 1) (tr_rho 2) (tr_rho 3) 2).
Lemma tr_cell_pos x h c i : 0 <= c i 0%nat -> 0 < tr_cell x h c i 0.
Proof.
  intros Hc. unfold new_cell. rewrite !tr_pre by lia. pose proof (sigma_pos 1) as S. pose proof (tanh_pos 1 ltac:(lra)) as T.
  pose proof (Rmult_lt_0_compat _ _ S T). pose proof (Rmult_le_pos _ _ (Rlt_le _ _ S) Hc). lra.
Qed.
Lemma tr_out_pos x h c i : 0 <= c i 0%nat -> 0 < tr_out x h c i 0.
Proof.
  intros Hc. unfold new_output. apply Rmult_lt_0_compat; [apply sigma_pos|]. apply tanh_pos. apply tr_cell_pos. exact Hc.
Qed.
(** The loss as a function of the first weight of word 2. *)
Definition tr_h1 (i : nat) : R := tr_out (tr_x [0; 0]%Z) (fun _ _ => 0) (fun _ _ => 0) i 0.
Definition tr_h2 (i : nat) : R :=
  tr_out (tr_x [1; 1]%Z) (tr_out (tr_x [0; 0]%Z) (fun _ _ => 0) (fun _ _ => 0)) (tr_cell (tr_x [0; 0]%Z) (fun _ _ => 0) (fun _ _ => 0)) i 0.
Lemma tr_surprise h i w s : (w < 2)%nat -> surprise (Arr [2; 3]%nat [0; 0; s; 0; 0; 0]) 2 3 h i w = ln (2 + exp (h i 0%nat * s)).
Proof.
  intros Hw. unfold surprise, score. cbn [sum_below].
  assert (G : forall k v, aget 0 (Arr [2; 3]%nat [0; 0; s; 0; 0; 0]) [k; v] = nth (ravel [2; 3]%nat [k; v]) [0; 0; s; 0; 0; 0] 0) by reflexivity.
  rewrite !G. destruct w as [|[|w]]; [| |lia]; cbn [ravel nth Nat.mul Nat.add prod fold_right];
    rewrite !Rmult_0_r, !Rplus_0_l, !Rplus_0_r, exp_0; (replace (1 + 1) with 2 by ring); ring.
Qed.
Lemma tr_loss_along rho s i : (i < 2)%nat -> (forall j, j <> 4%nat -> rho j = tr_rho j) -> rho 4%nat = Arr [2; 3]%nat [0; 0; s; 0; 0; 0] ->
  lm_loss lm_vars 2 3 tr_words rho i = ln (2 + exp (tr_h1 i * s)) + ln (2 + exp (tr_h2 i * s)).
Proof.
  intros Hi E E4. unfold lm_loss, tr_words. cbn [sentence_loss lm_vars v_table v_wx v_wh v_b v_pred].
  rewrite E4, !(E 0%nat), !(E 1%nat), !(E 2%nat), !(E 3%nat) by lia.
  rewrite !tr_surprise by (destruct i as [|[|i]]; [| |lia]; cbn; lia). unfold tr_h1, tr_h2. ring.
Qed.
Definition tr_slope : R := tr_h1 0 / 3 + tr_h2 0 / 3 + (tr_h1 1 / 3 + tr_h2 1 / 3).
Lemma tr_h_pos i : 0 < tr_h1 i /\ 0 < tr_h2 i.
Proof. split; apply tr_out_pos; [lra|]. apply Rlt_le. apply tr_cell_pos. lra. Qed.
Lemma tr_derive : derivable_pt_lim (fun s => ln (2 + exp (tr_h1 0 * s)) + ln (2 + exp (tr_h2 0 * s)) + (ln (2 + exp (tr_h1 1 * s)) + ln (2 + exp (tr_h2 1 * s)))) 0 tr_slope.
Proof.
  unfold tr_slope. generalize (tr_h1 0) (tr_h2 0) (tr_h1 1) (tr_h2 1). intros a b c d. apply is_derive_Reals. auto_derive.
  - rewrite !Rmult_0_r, exp_0. repeat split; lra.
  - rewrite !Rmult_0_r, exp_0. field.
Qed.
Definition tr_dir (i : nat) : arr R := if (i =? 4)%nat then Arr [2; 3]%nat [0; 0; 1; 0; 0; 0] else full (lm_ls i) 0.
Lemma tr_dir_shape v : has_shape (lm_ls v) (tr_dir v).
Proof. destruct v as [|[|[|[|[|v]]]]]; split; reflexivity. Qed.
Lemma tr_moved i h : i <> 4%nat -> move tr_rho tr_xs tr_dir h i = tr_rho i.
Proof.
  intros Hi. unfold move. destruct (existsb (Nat.eqb i) tr_xs); [|reflexivity].
  destruct i as [|[|[|[|[|i]]]]]; try congruence; cbv -[Rplus Rmult Rdiv Rinv Ropp IZR]; f_equal; repeat (apply f_equal2; [lra|]); reflexivity.
Qed.
Lemma tr_moved4 h : move tr_rho tr_xs tr_dir h 4 = Arr [2; 3]%nat [0; 0; h; 0; 0; 0].
Proof. cbv -[Rplus Rmult Rdiv Rinv Ropp IZR]; f_equal; repeat (apply f_equal2; [lra|]); reflexivity. Qed.
Lemma dot_full0 a sh : dot a (full sh 0) = 0.
Proof.
  unfold dot, full, tab. cbn [a_data]. generalize (indices sh). induction (a_data a) as [|x l IH]; intros [|n m]; cbn; try reflexivity. rewrite IH. ring.
Qed.
Lemma tr_tensors : exists t4 b4 l, res_tensors tr_result = (t4, b4) :: l.
Proof. eexists _, _, _. vm_compute. reflexivity. Qed.
Lemma tr_lv i : In i (lm_leaves lm_vars) -> t_input_leaf lm_start i.
Proof. intros H. apply tr_inputs. cbn in H. lia. Qed.
Lemma tr_gradient : exists v r i, In (v, r) (combine tr_xs (res_tensors tr_result)) /\ in_bounds (lm_ls v) i /\ aget 0 (aval tr_rho tr_g' (fst r)) i <> 0.
Proof.
  destruct tr_ok as (log & Hg). pose proof tr_params as [Nx Hx].
  destruct (C68_gradients (-1) lm_ls lm_vars 2 3 2 tr_words tr_y lm_start tr_g tr_g' (@max_pop top) true 2000
    tr_xs (res_tensors tr_result) log tr_rho tr_dir tr_twf tr_attached tr_lv tr_sizes tr_made (fun g => max_pop_ok g) Nx
    (fun v Hv => tr_inputs v (Hx v Hv)) Hg tr_conform (fun v _ => tr_dir_shape v)) as [F D].
  destruct tr_tensors as (t4 & b4 & l & E). rewrite E in *.
  assert (D' : derivable_pt_lim (fun s => ln (2 + exp (tr_h1 0 * s)) + ln (2 + exp (tr_h2 0 * s)) + (ln (2 + exp (tr_h1 1 * s)) + ln (2 + exp (tr_h2 1 * s)))) 0
    (dot (aval tr_rho tr_g' t4) (Arr [2; 3]%nat [0; 0; 1; 0; 0; 0]))).
  { revert D. change (combine tr_xs ((t4, b4) :: l)) with ((4%nat, (t4, b4)) :: combine [3; 2; 1; 0]%nat l). rewrite map_cons. cbn [fold_right]. cbn [fst snd].
    assert (Z : forall xs, ~ In 4%nat xs -> fold_right Rplus 0 (map (fun p => dot (aval tr_rho tr_g' (fst (snd p))) (tr_dir (fst p))) (combine xs l)) = 0).
    { clear. intros xs. revert l. induction xs as [|x xs IH]; intros [|r l] H; try reflexivity. cbn [combine map fold_right fst snd]. rewrite IH by (intros K; apply H; right; exact K).
      unfold tr_dir. destruct (x =? 4)%nat eqn:Q; [apply Nat.eqb_eq in Q; subst; exfalso; apply H; left; reflexivity|]. rewrite dot_full0. ring. }
    rewrite Z by (cbn; lia). rewrite Rplus_0_r. apply lim_ext. intros h. cbn [sum_below].
    rewrite !(tr_loss_along _ h) by (try lia; try (intros j Hj; apply tr_moved; exact Hj); apply tr_moved4). ring. }
  pose proof (uniqueness_limite _ _ _ _ D' tr_derive) as Q.
  exists 4%nat, (t4, b4), [0; 2]%nat. split; [left; reflexivity|]. split; [repeat constructor|].
  cbn [fst]. intros K. inversion F as [|? ? ? ? F1 _]; subst. cbn [fst] in F1.
  destruct (wtyped_aval lm_ls true tr_rho tr_g' t4 [2; 3]%nat tr_conform F1) as (_ & Hs & Hl).
  revert K Q Hs Hl. generalize (aval tr_rho tr_g' t4). intros [sh d] K Q Hs Hl. cbn [a_shape a_data] in *. subst sh.
  destruct d as [|u0 [|u1 [|u2 [|u3 [|u4 [|u5 [|? ?]]]]]]]; try discriminate Hl. cbn in K. subst u2. unfold dot in Q. cbn [a_data map2 fold_right] in Q.
  unfold tr_slope in Q. pose proof (tr_h_pos 0). pose proof (tr_h_pos 1). lra.
Qed.
(** All hypotheses of the theorems on steps hold, [update] returns, and small rates
    decrease the loss, which is 4 ln 3. *)
Example C68_step_hypotheses_met :
  twf lm_ls lm_start /\ attached lm_start /\ lm_sizes lm_ls lm_vars 2 3 2 tr_words /\
  lstm_loss (-1) lm_vars 2 tr_words lm_start = Some (tr_y, tr_g) /\
  sum_below 2 (lm_loss lm_vars 2 3 tr_words tr_rho) = 4 * ln 3 /\
  leaf_arrays tr_g' [] (array_list tr_env) tr_rho /\ exact_inx true (float_int 24) lm_ls tr_g' /\ good tr_ctx /\
  updatable (SGD 1) tr_env (c_graph tr_ctx) tr_xs tr_gs /\ shared_readers (SGD 1) tr_env (c_graph tr_ctx) tr_xs tr_gs /\
  exists delta, 0 < delta /\ forall lr, 0 < lr < delta ->
    exists c' e' rho',
      update (NTens TLeaf) NOpt (num_compute (float_int 24) Rpower) true 2000 (SGD lr) tr_env tr_ctx tr_xs tr_gs [] = Ok (c', e') /\
      leaf_arrays tr_g' [] (array_list e') rho' /\
      sum_below 2 (lm_loss lm_vars 2 3 tr_words rho') < 4 * ln 3.
Proof.
  assert (Lx : forall v, In v tr_xs -> t_input_leaf lm_start v) by (intros v Hv; apply tr_inputs; apply (proj2 tr_params); exact Hv).
  assert (V : sum_below 2 (lm_loss lm_vars 2 3 tr_words tr_rho) = 4 * ln 3).
  { cbn [sum_below]. rewrite !(tr_loss_along tr_rho 0) by (try lia; reflexivity). rewrite !Rmult_0_r, exp_0. replace (2 + 1) with 3 by ring. ring. }
  destruct tr_ok as (log & Hg).
  split; [exact tr_twf|]. split; [exact tr_attached|]. split; [exact tr_sizes|]. split; [exact tr_made|]. split; [exact V|].
  split; [exact tr_leaves|]. split; [exact tr_exact|]. split; [exact tr_good|].
  split; [apply tr_updatable|]. split; [apply tr_shared|].
  destruct (C68_step_decreases_loss (-1) lm_ls lm_vars 2 3 2 tr_words tr_y lm_start tr_g tr_g' (float_int 24) Rpower (@max_pop top) true 2000
    tr_xs (res_tensors tr_result) log tr_env tr_ctx [] tr_rho (SGD 1) tr_twf tr_attached tr_lv tr_sizes tr_made (fun g => max_pop_ok g) (proj1 tr_params) Lx Hg tr_exact
    tr_conform tr_leaves tr_ctx_graph tr_good (tr_updatable 1) (tr_shared 1)) as (delta & Hd & K).
  - intros x vid sids s i _ _ Hs Hin. inversion Hs; subst. destruct Hin.
  - exact tr_states.
  - exact tr_gradient.
  - exists delta. split; [exact Hd|]. intros lr Hlr.
    assert (HC : exists c' us, compute_updates (NTens TLeaf) NOpt (SGD lr) tr_env tr_ctx tr_xs tr_gs = Some (c', us) /\
      (2 * (length us + edge_count (c_graph c')) < 2000)%nat).
    { eexists _, _. split; [vm_compute; reflexivity|]. apply Nat.ltb_lt. vm_compute. reflexivity. }
    destruct HC as (c' & us & HC & Hf).
    destruct (lm_graph _ _ _ _ _ _ _ _ _ _ tr_twf tr_attached tr_lv tr_sizes tr_made) as ((W' & A' & _) & G & T & _ & Sm).
    assert (Hy : forall y, In y [tr_y] -> uses lm_ls tr_g y /\ exists sh, shaped lm_ls tr_g y sh).
    { intros y [<-|[]]. split; [|exists [2; 1]%nat; exact T]. apply (Sm tr_rho 0%nat tr_conform). cbn. lia. }
    assert (Hsm : forall v y, In v tr_xs -> In y [tr_y] -> t_smooth lm_ls tr_g tr_rho v y).
    { intros v y Hv [<-|[]]. apply (Sm tr_rho v tr_conform). exact (proj2 tr_params v Hv). }
    assert (Hx' : forall v, In v tr_xs -> t_input_leaf tr_g v).
    { intros v Hv. destruct (Lx v Hv) as (n & Hn & Hn2). exists n. split; [exact (grows_nth lm_start tr_g v n G Hn)|exact Hn2]. }
    destruct (C67_step_returns (float_int 24) Rpower (@max_pop top) true 2000 2000 lm_ls [tr_y] tr_xs us tr_g tr_g'
      (res_tensors tr_result) log tr_env tr_ctx c' [] tr_rho (SGD 1) lr W' A' (fun g => max_pop_ok g) Hy (proj1 tr_params) Hx' Hg tr_exact tr_conform tr_leaves
      Hsm tr_ctx_graph tr_good (tr_updatable 1) (tr_shared 1) tr_states HC Hf) as (e' & Hup).
    destruct (K lr 2000%nat c' e' Hlr Hup) as (rho' & _ & HL & Hlt).
    exists c', e', rho'. split; [exact Hup|]. split; [exact HL|]. rewrite V in Hlt. exact Hlt.
Qed.
