(** Property C63: training steps end to end. *)
From Coq Require Import String List Arith ZArith Bool Reals Lra Lia Relations.
From Coquelicot Require Import Coquelicot.
Import ListNotations.
From Verif Require Import Graph_Model Eval_Model Eval_Spec Eval_Proofs Eval_Proofs2 Graph_Proofs Eval_Update Var_Model Grad_Model Grad_Spec Grad_Examples Scalar_Proofs.
From Verif Require Import Array_Model Array_Proofs Arith_Model Vjp_Spec Vjp_Proofs Scalar_Model
  Tens_Model Tens_Spec Tens_Build Tens_Grad Tens_Final Tens_Joint Tens_Examples.
From Verif Require Import Opt_Model Opt_Proofs Opt_Effect P_Opt Num_Model Num_Spec Num_Proofs P_Num Train_Spec Train_Proofs Train_Step Train_Witness.
Local Open Scope R_scope.
Local Set Bullet Behavior "Strict Subproofs".

(** ** C63: training steps *)

(** The gradients for several variables together are the derivative of the loss
    when all of them move at once. *)
Theorem C63_total_derivative :
  forall (pop : tgraph -> list nat -> option (nat * list nat)) (debug : bool) (fuel : nat)
    (ls : nat -> list nat) (ys xs : list nat) (g g' : tgraph) (l : list (nat * bool)) (log : list nat)
    (rho dir : nat -> arr R),
  twf ls g -> (forall g, heap_pop g (pop g)) ->
  (forall y, In y ys -> fits ls g y /\ exists sh, shaped ls g y sh) ->
  NoDup xs -> (forall x, In x xs -> t_input_leaf g x) ->
  t_grad pop debug fuel ys xs g = Ok (l, g', log) ->
  conform ls rho -> (forall x y, In x xs -> In y ys -> t_smooth ls g rho x y) ->
  (forall x, In x xs -> has_shape (ls x) (dir x)) ->
  derivable_pt_lim (fun t => total_loss (move rho xs dir t) g ys) 0
    (fold_right Rplus 0 (map (fun p => dot (aval rho g' (fst (snd p))) (dir (fst p))) (combine xs l))).
Proof.
  intros pop debug fuel ls ys xs g g' l log rho dir W Hp Hy Nx Hx H C Hs Hd.
  exact (total_derivative pop debug fuel ls ys xs g g' l log W Hp Hy Nx Hx H rho C Hs dir Hd).
Qed.
Print Assumptions C63_total_derivative.

(** A call of [update] with the tensors returned by [grad]: every parameter and
    its state become what the optimizer's rule makes of them and of the exact
    gradient of the loss at the parameters before the call; nothing else changes. *)
Theorem C63_step_uses_gradients :
  forall (rnd : Z -> Z) (powf : R -> R -> R) (pop : tgraph -> list nat -> option (nat * list nat)) (debug : bool) (fuel fuel2 : nat)
    (ls : nat -> list nat) (ys xs : list nat) (g g' : tgraph) (l : list (nat * bool)) (log : list nat)
    (e e' : env (arr R)) (c c' : context nop) (feeder : list (ph_key * arr R)) (rho : nat -> arr R) (opt : optimizer),
  twf ls g -> (forall g, heap_pop g (pop g)) ->
  (forall y, In y ys -> fits ls g y /\ exists sh, shaped ls g y sh) ->
  NoDup xs -> (forall x, In x xs -> t_input_leaf g x) ->
  t_grad pop debug fuel ys xs g = Ok (l, g', log) -> exact_in rnd ls g' ->
  conform ls rho -> leaf_arrays g' feeder (array_list e) rho ->
  (forall x y, In x xs -> In y ys -> t_smooth ls g rho x y) ->
  c_graph c = num_graph g' -> good c ->
  updatable opt e (c_graph c) xs (map fst l) -> shared_readers opt e (c_graph c) xs (map fst l) ->
  update (NTens TLeaf) NOpt (num_compute rnd powf) debug fuel2 opt e c xs (map fst l) feeder = Ok (c', e') ->
  (forall x vid, In x xs -> var_tensor (c_graph c) x vid -> exists sids svs gx p' svs',
     state_ids opt e vid sids /\ nth_error (array_list e) vid = Some (rho x) /\
     Forall2 (fun sid a => nth_error (array_list e) sid = Some a) sids svs /\
     has_shape (ls x) gx /\
     (forall v, has_shape (ls x) v ->
        derivable_pt_lim (fun t => total_loss (put rho x (Vjp_Spec.step (rho x) v t)) g ys) 0 (dot gx v)) /\
     opt_step powf opt (rho x) gx svs = Some (p', svs') /\
     nth_error (array_list e') vid = Some p' /\
     Forall2 (fun sid a => nth_error (array_list e') sid = Some a) sids svs') /\
  (forall v, (forall x vid, In x xs -> var_tensor (c_graph c) x vid -> ~ operand opt e vid v) ->
     nth_error (array_list e') v = nth_error (array_list e) v).
Proof.
  intros rnd powf pop debug fuel fuel2 ls ys xs g g' l log e e' c c' feeder rho opt W Hp Hy Nx Hx H X C HL Hs Hc Hgd U S Hup.
  destruct (step_result false rnd powf pop debug fuel ls ys xs g g' l log (sound_false ls g W) Hp Hy Nx Hx H (proj1 (exact_in_x rnd ls g') X) e c feeder rho C HL Hs Hc Hgd opt fuel2 c' e' U S Hup) as [P Q].
  split; [|exact Q]. intros x vid Hin Hv. pose proof Hin as Hin2. apply In_nth_error in Hin2. destruct Hin2 as (k & Hk).
  destruct (tgrad_derivative pop debug fuel ys xs ls g l g' log W Hp Hy Nx Hx H) as (_ & _ & F).
  destruct (Forall2_nth _ _ _ _ _ F Hk) as (r & Hr & _).
  destruct (P k x r vid Hk Hr Hv) as (sids & svs & p' & svs' & P1 & P2 & P3 & P4 & P5).
  destruct (gradient_value false rnd powf pop debug fuel ls ys xs g g' l log (sound_false ls g W) Hp Hy Nx Hx H (proj1 (exact_in_x rnd ls g') X) e c feeder rho C HL Hs Hc k x r Hk Hr) as (_ & G1 & G2).
  exists sids, svs, (aval rho g' (fst r)), p', svs'. split; [exact P1|]. split.
  { exact (params_hold false pop debug fuel ls ys xs g g' l log (sound_false ls g W) Hp Hy Nx Hx H e c feeder rho HL Hc x vid Hin Hv). }
  repeat (split; [assumption|]). assumption.
Qed.
Print Assumptions C63_step_uses_gradients.

(** Starting without momentum (SGD and AdaGrad at any time, the others at their
    first step), every sufficiently small learning rate makes the loss smaller,
    unless all gradients are zero.  [before] and [after] are the values of the
    outputs as evaluated before and after the call. *)
Theorem C63_step_decreases_loss :
  forall (rnd : Z -> Z) (powf : R -> R -> R) (pop : tgraph -> list nat -> option (nat * list nat)) (debug : bool) (fuel : nat)
    (ls : nat -> list nat) (ys xs : list nat) (g g' : tgraph) (l : list (nat * bool)) (log : list nat)
    (e : env (arr R)) (c : context nop) (feeder : list (ph_key * arr R)) (rho : nat -> arr R) (opt : optimizer),
  twf ls g -> (forall g, heap_pop g (pop g)) ->
  (forall y, In y ys -> fits ls g y /\ exists sh, shaped ls g y sh) ->
  NoDup xs -> (forall x, In x xs -> t_input_leaf g x) ->
  t_grad pop debug fuel ys xs g = Ok (l, g', log) -> exact_in rnd ls g' ->
  conform ls rho -> leaf_arrays g' feeder (array_list e) rho ->
  (forall x y, In x xs -> In y ys -> t_smooth ls g rho x y) ->
  c_graph c = num_graph g' -> good c ->
  updatable opt e (c_graph c) xs (map fst l) -> shared_readers opt e (c_graph c) xs (map fst l) ->
  (forall x vid sids s i, In x xs -> var_tensor (c_graph c) x vid -> state_ids opt e vid sids -> In s sids ->
     ~ var_tensor (c_graph c) i s) ->
  (forall x vid, In x xs -> var_tensor (c_graph c) x vid -> exists sids svs, state_ids opt e vid sids /\
     Forall2 (fun sid a => nth_error (array_list e) sid = Some a) sids svs /\ no_momentum powf opt (ls x) svs) ->
  (exists x r i, In (x, r) (combine xs l) /\ in_bounds (ls x) i /\ aget 0 (aval rho g' (fst r)) i <> 0) ->
  exists delta, 0 < delta /\
    forall lr fuel2 c' e', 0 < lr < delta ->
      update (NTens TLeaf) NOpt (num_compute rnd powf) debug fuel2 (with_rate opt lr) e c xs (map fst l) feeder = Ok (c', e') ->
      exists before after : nat -> arr R,
        (forall y, In y ys ->
           tensor_value a_shape (num_compute rnd powf) debug (c_graph c) feeder (array_list e) y (inl (before y)) /\
           tensor_value a_shape (num_compute rnd powf) debug (c_graph c) feeder (array_list e') y (inl (after y))) /\
        fold_right Rplus 0 (map (fun y => elements_sum (after y)) ys) < fold_right Rplus 0 (map (fun y => elements_sum (before y)) ys).
Proof.
  intros rnd powf pop debug fuel ls ys xs g g' l log e c feeder rho opt W Hp Hy Nx Hx H X C HL Hs Hc Hgd U S St Nm Nz.
  destruct (step_descends false rnd powf pop debug fuel ls ys xs g g' l log (sound_false ls g W) Hp Hy Nx Hx H (proj1 (exact_in_x rnd ls g') X) e c feeder rho C HL Hs Hc Hgd opt U S St Nm Nz) as (delta & Hd & K).
  exists delta. split; [exact Hd|]. intros lr fuel2 c' e' Hlr Hup. destruct (K lr fuel2 c' e' Hlr Hup) as (rho' & C' & HL' & Hlt).
  exists (aval rho g), (aval rho' g). split; [|exact Hlt]. intros y Hin. split.
  - exact (output_value false rnd powf pop debug fuel ls ys xs g g' l log (sound_false ls g W) Hp Hy Nx Hx H (proj1 (exact_in_x rnd ls g') X) c feeder Hc y e rho Hin C HL).
  - exact (output_value false rnd powf pop debug fuel ls ys xs g g' l log (sound_false ls g W) Hp Hy Nx Hx H (proj1 (exact_in_x rnd ls g') X) c feeder Hc y e' rho' Hin C' HL').
Qed.
Print Assumptions C63_step_decreases_loss.

(** And the call returns. *)
Theorem C63_step_returns :
  forall (rnd : Z -> Z) (powf : R -> R -> R) (pop : tgraph -> list nat -> option (nat * list nat)) (debug : bool) (fuel fuel2 : nat)
    (ls : nat -> list nat) (ys xs us : list nat) (g g' : tgraph) (l : list (nat * bool)) (log : list nat)
    (e : env (arr R)) (c c' : context nop) (feeder : list (ph_key * arr R)) (rho : nat -> arr R) (opt : optimizer) (lr : R),
  twf ls g -> (forall g, heap_pop g (pop g)) ->
  (forall y, In y ys -> fits ls g y /\ exists sh, shaped ls g y sh) ->
  NoDup xs -> (forall x, In x xs -> t_input_leaf g x) ->
  t_grad pop debug fuel ys xs g = Ok (l, g', log) -> exact_in rnd ls g' ->
  conform ls rho -> leaf_arrays g' feeder (array_list e) rho ->
  (forall x y, In x xs -> In y ys -> t_smooth ls g rho x y) ->
  c_graph c = num_graph g' -> good c ->
  updatable opt e (c_graph c) xs (map fst l) -> shared_readers opt e (c_graph c) xs (map fst l) ->
  (forall x vid, In x xs -> var_tensor (c_graph c) x vid -> exists sids svs, state_ids opt e vid sids /\
     Forall2 (fun sid a => nth_error (array_list e) sid = Some a) sids svs /\ no_momentum powf opt (ls x) svs) ->
  compute_updates (NTens TLeaf) NOpt (with_rate opt lr) e c xs (map fst l) = Some (c', us) ->
  (2 * (length us + edge_count (c_graph c')) < fuel2)%nat ->
  exists e', update (NTens TLeaf) NOpt (num_compute rnd powf) debug fuel2 (with_rate opt lr) e c xs (map fst l) feeder = Ok (c', e').
Proof.
  intros rnd powf pop debug fuel fuel2 ls ys xs us g g' l log e c c' feeder rho opt lr W Hp Hy Nx Hx H X C HL Hs Hc Hgd U S Nm Hcu Hf.
  destruct (tgrad_derivative pop debug fuel ys xs ls g l g' log W Hp Hy Nx Hx H) as (W' & _ & F).
  apply (C26_simultaneous_returns nop unit powf (NTens TLeaf) NOpt (num_compute rnd powf) debug (with_rate opt lr) e c c' xs (map fst l) us feeder fuel2); auto.
  - rewrite Hc. intros i Hcyc.
    assert (Q : forall a b, clos_trans nat (reads_from (num_graph g')) a b -> (b < a)%nat).
    { induction 1 as [a b (n & inc & Hn & Hin & <-)|a b d _ IH1 _ IH2]; [|lia].
      unfold num_graph in Hn. rewrite nth_error_map in Hn. destruct (nth_error g' a) as [n0|] eqn:En; [|discriminate].
      injection Hn as <-. exact (twf_input ls g' W' a n0 inc En Hin). }
    specialize (Q i i Hcyc). lia.
  - apply updatable_rate. exact U.
  - apply shared_rate. exact S.
  - intros k p gr vid Hk Hgr Hv. rewrite nth_error_map in Hgr. destruct (nth_error l k) as [r|] eqn:Hr; [|discriminate]. injection Hgr as <-.
    pose proof (nth_error_In _ _ Hk) as Hin. destruct (Nm p vid Hin Hv) as (sids & svs & N1 & N2 & N3).
    destruct (gradient_value false rnd powf pop debug fuel ls ys xs g g' l log (sound_false ls g W) Hp Hy Nx Hx H (proj1 (exact_in_x rnd ls g') X) e c feeder rho C HL Hs Hc k p r Hk Hr) as (G0 & G1 & _).
    destruct (downhill_step powf opt (ls p) (rho p) _ svs (C p) G1 N3) as (s & _ & D). destruct (D lr) as (p' & sts' & D1 & _).
    exists sids, (rho p), (aval rho g' (fst r)), svs, (p', sts'). split; [apply state_rate; exact N1|]. split.
    { exact (params_hold false pop debug fuel ls ys xs g g' l log (sound_false ls g W) Hp Hy Nx Hx H e c feeder rho HL Hc p vid Hin Hv). }
    split; [exact N2|]. split; [exact G0|exact D1].
Qed.
Print Assumptions C63_step_returns.

(** ** An example: one step of linear regression *)

(** The square of [x w + b]; variables 0 (inputs), 1 (weights), 2 (bias). *)
Definition reg_ls (i : nat) : list nat := match i with 0%nat => [1%nat; 2%nat] | 1%nat => [2%nat; 1%nat] | 2%nat => [1%nat; 1%nat] | _ => [] end.
Definition reg_build : tbld nat :=
  tbind (tmk [0%nat; 1%nat] None true (TMatMul false false)) (fun h => tbind (a_bin Add h 2) (fun z => a_un Square z)).
Definition reg_start : tgraph := [t_var 0; t_var 1; t_var 2].
Definition reg_graph : tgraph := match reg_build reg_start with Some (_, g) => g | None => [] end.
Definition reg_y : nat := match reg_build reg_start with Some (y, _) => y | None => 0%nat end.
Definition reg_result := t_grad (@max_pop top) true 200 [reg_y] [1%nat; 2%nat] reg_graph.
Definition reg_g' : tgraph := res_graph reg_result.
Definition reg_ctx : context nop := Context (num_graph reg_g') (own_ids 3).
Definition reg_rho (i : nat) : arr R :=
  match i with
  | 0%nat => Arr [1%nat; 2%nat] [1; 2]
  | 1%nat => Arr [2%nat; 1%nat] [1; 1]
  | 2%nat => Arr [1%nat; 1%nat] [1]
  | _ => Arr [] [0]
  end.
Definition reg_env : env (arr R) := Env (map reg_rho (seq 0 3)) [].
Notation reg_gs := (map fst (res_tensors reg_result)).
Lemma reg_ctx_graph : c_graph reg_ctx = num_graph reg_g'.
Proof. reflexivity. Qed.
Lemma reg_twf' : twf reg_ls reg_g'.
Proof. apply twf_b_sound. vm_compute. reflexivity. Qed.
Lemma reg_vars3 : var_leaves_b 3 reg_g' = true.
Proof. vm_compute. reflexivity. Qed.
Lemma reg_leaf3 : forall v, (v < 3)%nat -> exists n, nth_error reg_g' v = Some n /\ n_op n = TLeaf.
Proof. apply leaves_first_sound. vm_compute. reflexivity. Qed.
Lemma reg_grad_ids gr : In gr reg_gs -> (3 <= gr < length (num_graph reg_g'))%nat.
Proof. apply ids_between_sound. vm_compute. reflexivity. Qed.
Lemma reg_good : good reg_ctx.
Proof. exact (vn_good 3 reg_ls reg_g' reg_twf' reg_vars3 reg_leaf3). Qed.
Lemma reg_params : NoDup [1; 2]%nat /\ forall p, In p [1; 2]%nat -> (p < 3)%nat.
Proof. split; [repeat constructor; cbn; intuition discriminate|]. intros p [<-|[<-|[]]]; lia. Qed.
Lemma reg_updatable lr : updatable (SGD lr) reg_env (c_graph reg_ctx) [1; 2]%nat reg_gs.
Proof. exact (vn_updatable 3 reg_ls reg_g' reg_twf' reg_vars3 reg_leaf3 reg_env lr [1; 2]%nat reg_gs (proj1 reg_params) (proj2 reg_params) reg_grad_ids). Qed.
Lemma reg_shared lr : shared_readers (SGD lr) reg_env (c_graph reg_ctx) [1; 2]%nat reg_gs.
Proof.
  assert (B : readers_in_time_b reg_g' [1; 2]%nat reg_gs = true) by (vm_compute; reflexivity).
  exact (vn_shared 3 reg_ls reg_g' reg_twf' reg_vars3 reg_env lr [1; 2]%nat reg_gs reg_grad_ids B).
Qed.
Lemma reg_gradients : exists t1 t2 b1 b2, res_tensors reg_result = [(t1, b1); (t2, b2)] /\
  aval reg_rho reg_g' t2 = Arr [1%nat; 1%nat] [8].
Proof.
  eexists _, _, _, _. split; [vm_compute; reflexivity|]. cbv -[Rplus Rmult IZR]. f_equal. apply f_equal2; [ring|reflexivity].
Qed.
Lemma reg_conform : conform reg_ls reg_rho.
Proof. intros i. destruct i as [|[|[|i]]]; split; reflexivity. Qed.
Lemma reg_leaves : leaf_arrays reg_g' [] (array_list reg_env) reg_rho.
Proof.
  apply arrays_of_leaves. change (map (fun a => TA a) (array_list reg_env)) with (map (fun i => TA (reg_rho i)) (seq 0 3)).
  apply var_leaves_sound. vm_compute. reflexivity.
Qed.
Lemma reg_ok : exists log, t_grad (@max_pop top) true 200 [reg_y] [1%nat; 2%nat] reg_graph = Ok (res_tensors reg_result, reg_g', log).
Proof.
  assert (B : is_ok reg_result = true) by (vm_compute; reflexivity).
  assert (Q : reg_result = t_grad (@max_pop top) true 200 [reg_y] [1%nat; 2%nat] reg_graph) by reflexivity.
  rewrite <- Q. unfold reg_g'. apply is_ok_sound. exact B.
Qed.
Lemma reg_exact : exact_in (float_int 24) reg_ls reg_g'.
Proof. apply exact_b_sound. vm_compute. reflexivity. Qed.
Lemma reg_smooth x y : In x [1; 2]%nat -> In y [reg_y] -> t_smooth reg_ls reg_graph reg_rho x y.
Proof. intros _ [<-|[]]. apply t_smooth_b_sound. vm_compute. reflexivity. Qed.
Lemma reg_outputs y : In y [reg_y] -> fits reg_ls reg_graph y /\ exists sh, shaped reg_ls reg_graph y sh.
Proof. intros [<-|[]]. split; [apply fits_b_sound; vm_compute; reflexivity|]. exists [1%nat; 1%nat]. vm_compute. reflexivity. Qed.
Lemma reg_states : forall x vid, In x [1; 2]%nat -> var_tensor (c_graph reg_ctx) x vid -> exists sids svs, state_ids (SGD 1) reg_env vid sids /\
     Forall2 (fun sid a => nth_error (array_list reg_env) sid = Some a) sids svs /\ no_momentum Rpower (SGD 1) (reg_ls x) svs.
Proof. intros x vid _ _. exists [], []. split; [constructor|]. split; [constructor|]. exact I. Qed.
(** Inputs (1, 2), weights (1, 1), bias 1: the loss is 16 and its gradient with
    respect to the bias is 8.  All hypotheses hold, every call returns, and small
    rates decrease the loss. *)
Example C63_hypotheses_met :
  twf reg_ls reg_graph /\ exact_in (float_int 24) reg_ls reg_g' /\ conform reg_ls reg_rho /\
  leaf_arrays reg_g' [] (array_list reg_env) reg_rho /\ good reg_ctx /\
  updatable (SGD 1) reg_env (c_graph reg_ctx) [1; 2]%nat reg_gs /\ shared_readers (SGD 1) reg_env (c_graph reg_ctx) [1; 2]%nat reg_gs /\
  exists delta, 0 < delta /\ forall lr, 0 < lr < delta ->
    exists c' e' before after,
      update (NTens TLeaf) NOpt (num_compute (float_int 24) Rpower) true 1000 (SGD lr) reg_env reg_ctx [1; 2]%nat reg_gs [] = Ok (c', e') /\
      tensor_value a_shape (num_compute (float_int 24) Rpower) true (c_graph reg_ctx) [] (array_list reg_env) reg_y (inl before) /\
      tensor_value a_shape (num_compute (float_int 24) Rpower) true (c_graph reg_ctx) [] (array_list e') reg_y (inl after) /\
      elements_sum after < elements_sum before.
Proof.
  assert (Wf : twf reg_ls reg_graph) by (apply twf_b_sound; vm_compute; reflexivity).
  assert (Nx : NoDup [1; 2]%nat) by (repeat constructor; cbn; intuition discriminate).
  assert (Lf : forall x, In x [1; 2]%nat -> t_input_leaf reg_graph x).
  { intros x [<-|[<-|[]]]; eexists; (split; [reflexivity|split; reflexivity]). }
  destruct reg_ok as (log & Hg).
  split; [exact Wf|]. split; [exact reg_exact|]. split; [exact reg_conform|]. split; [exact reg_leaves|]. split; [exact reg_good|].
  split; [apply reg_updatable|]. split; [apply reg_shared|].
  destruct (C63_step_decreases_loss (float_int 24) Rpower (@max_pop top) true 200 reg_ls [reg_y] [1; 2]%nat reg_graph reg_g'
    (res_tensors reg_result) log reg_env reg_ctx [] reg_rho (SGD 1) Wf (fun g => max_pop_ok g) reg_outputs Nx Lf Hg reg_exact reg_conform reg_leaves
    reg_smooth reg_ctx_graph reg_good (reg_updatable 1) (reg_shared 1)) as (delta & Hd & K).
  - intros x vid sids s i _ _ Hs Hin. inversion Hs; subst. destruct Hin.
  - exact reg_states.
  - destruct reg_gradients as (t1 & t2 & b1 & b2 & E & V). exists 2%nat, (t2, b2), [0%nat; 0%nat]. rewrite E. split; [right; left; reflexivity|].
    split; [vm_compute; auto|]. cbn [fst]. rewrite V. cbn. lra.
  - exists delta. split; [exact Hd|]. intros lr Hlr.
    assert (HC : exists c' us, compute_updates (NTens TLeaf) NOpt (SGD lr) reg_env reg_ctx [1; 2]%nat reg_gs = Some (c', us) /\
      (2 * (length us + edge_count (c_graph c')) < 1000)%nat).
    { eexists _, _. split; [vm_compute; reflexivity|]. apply Nat.ltb_lt. vm_compute. reflexivity. }
    destruct HC as (c' & us & HC & Hf).
    destruct (C63_step_returns (float_int 24) Rpower (@max_pop top) true 200 1000 reg_ls [reg_y] [1; 2]%nat us reg_graph reg_g'
      (res_tensors reg_result) log reg_env reg_ctx c' [] reg_rho (SGD 1) lr Wf (fun g => max_pop_ok g) reg_outputs Nx Lf Hg reg_exact reg_conform reg_leaves
      reg_smooth reg_ctx_graph reg_good (reg_updatable 1) (reg_shared 1) reg_states HC Hf) as (e' & Hup).
    destruct (K lr 1000%nat c' e' Hlr Hup) as (before & after & V & Hlt). destruct (V reg_y (or_introl eq_refl)) as [V1 V2].
    exists c', e', (before reg_y), (after reg_y). split; [exact Hup|]. split; [exact V1|]. split; [exact V2|]. cbn [map fold_right] in Hlt. lra.
Qed.
