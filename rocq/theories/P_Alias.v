(** Property C64: borrowed and aliased variables. *)
From Coq Require Import String List Arith ZArith Bool Lia Reals Lra.
Import ListNotations.
From Verif Require Import Graph_Model Eval_Model Eval_Spec Eval_Proofs Array_Model Array_Proofs Arith_Model Opt_Model Hook_Model
  Alias_Model Alias_Spec Alias_Proofs.

(** ** C64: guards held by the caller, and operations that see a variable twice *)

(** If no guard is in the way of an operand of a needed operation or of a
    requested variable, the evaluation does what it does without guards and
    leaves all guards as they were. *)
Theorem C64_guards_out_of_the_way :
  forall (O V E : Type) (shape_of : V -> list nat) (compute : O -> list (opin V) -> cout V E)
    (debug : bool) (g : graph O) (feeds : list (ph_key * V)) (fuel : nat) (targets : list nat) (env : list V) (fs : list flag),
  (forall t n vid, nth_error g t = Some n -> n_var n = Some vid -> vid < length fs) ->
  (forall i n inc vid f, needed g targets i -> nth_error g i = Some n -> In inc (n_inputs n) ->
     variable_operand g inc vid -> nth_error fs vid = Some f -> conflict (in_mut inc) f = false) ->
  (forall t n vid, In t targets -> nth_error g t = Some n -> n_var n = Some vid -> nth_error fs vid <> Some Exclusive) ->
  beval shape_of compute debug g feeds fuel targets env fs =
  match eval shape_of compute debug g feeds fuel targets env with
  | Ok oc => Ok (oc, fs)
  | Panic => Panic
  | OutOfFuel => OutOfFuel
  end.
Proof.
  intros O V E shape_of compute debug g feeds fuel targets env fs Hlen Hin Ht.
  destruct (beval_cases shape_of compute debug g feeds fs fuel targets env) as [[_ [(i & n & Hi & Hn & Hna) | Hn]] | [H _]].
  - exfalso. apply Hna, Forall_forall. intros inc Hinc vid Hv.
    destruct Hv as (m & Hm & Hp & Hvv). pose proof (Hlen _ _ _ Hm Hvv) as Hl.
    destruct (nth_error fs vid) as [f|] eqn:Ef; [|apply nth_error_None in Ef; lia].
    exists f. split; [reflexivity|]. apply (Hin i n inc vid f Hi Hn Hinc); [exists m; auto | exact Ef].
  - exfalso. apply Hn, Forall_forall. intros t Hit n vid Hn' Hv.
    pose proof (Hlen _ _ _ Hn' Hv) as Hl.
    destruct (nth_error fs vid) as [f|] eqn:Ef; [|apply nth_error_None in Ef; lia].
    exists f. split; [reflexivity|]. pose proof (Ht t n vid Hit Hn' Hv) as Hne. rewrite Ef in Hne.
    destruct f; try reflexivity. exfalso. apply Hne. reflexivity.
  - exact H.
Qed.
Print Assumptions C64_guards_out_of_the_way.

(** A guard in the way of an operand of an operation that would run, or of a
    requested variable, makes the evaluation panic. *)
Theorem C64_conflict_panics :
  forall (O V E : Type) (shape_of : V -> list nat) (compute : O -> list (opin V) -> cout V E)
    (debug : bool) (g : graph O) (feeds : list (ph_key * V)) (fuel : nat) (targets : list nat) (env : list V) (fs : list flag)
    (oc : @outcome V E),
  eval shape_of compute debug g feeds fuel targets env = Ok oc ->
  (exists i xs n inc vid f, In (Ran i xs) (oc_log oc) /\ nth_error g i = Some n /\ In inc (n_inputs n) /\
     variable_operand g inc vid /\ nth_error fs vid = Some f /\ conflict (in_mut inc) f = true) \/
  (exists t n vid, In t targets /\ nth_error g t = Some n /\ n_var n = Some vid /\ nth_error fs vid = Some Exclusive) ->
  beval shape_of compute debug g feeds fuel targets env fs = Panic.
Proof.
  intros O V E shape_of compute debug g feeds fuel targets env fs oc Hoc Hc.
  destruct (beval_cases shape_of compute debug g feeds fs fuel targets env) as [[H _] | [_ H]]; [exact H|].
  exfalso. destruct (H oc Hoc) as [Hf Ht].
  destruct Hc as [(i & xs & n & inc & vid & f & Hi & Hn & Hinc & Hv & Hfl & Hc) | (t & n & vid & Hit & Hn & Hv & Hfl)].
  - pose proof (proj1 (Forall_forall _ _) (Hf i xs n Hi Hn) inc Hinc vid Hv) as (f' & Hf' & Hc'). congruence.
  - pose proof (proj1 (Forall_forall _ _) Ht t Hit n vid Hn Hv) as (f' & Hf' & Hc'). rewrite Hfl in Hf'.
    injection Hf' as <-. discriminate.
Qed.
Print Assumptions C64_conflict_panics.

(** The evaluator's own borrows never conflict, whatever the graph: ... *)
Theorem C64_own_borrows_never_conflict :
  forall (O V E : Type) (shape_of : V -> list nat) (compute : O -> list (opin V) -> cout V E)
    (debug : bool) (g : graph O) (feeds : list (ph_key * V)) (fuel : nat) (targets : list nat) (env : list V) (k : nat),
  (forall t n vid, nth_error g t = Some n -> n_var n = Some vid -> vid < k) ->
  beval shape_of compute debug g feeds fuel targets env (repeat Free k) =
  match eval shape_of compute debug g feeds fuel targets env with
  | Ok oc => Ok (oc, repeat Free k)
  | Panic => Panic
  | OutOfFuel => OutOfFuel
  end.
Proof.
  intros O V E shape_of compute debug g feeds fuel targets env k Hk.
  assert (Hfree : forall vid f, nth_error (repeat Free k) vid = Some f -> f = Free).
  { intros vid f H. apply nth_error_In, repeat_spec in H. exact H. }
  apply C64_guards_out_of_the_way.
  - intros t n vid Hn Hv. rewrite repeat_length. apply (Hk t n vid Hn Hv).
  - intros i n inc vid f _ _ _ _ Hf. rewrite (Hfree _ _ Hf). reflexivity.
  - intros t n vid _ _ _ Hf. apply Hfree in Hf. discriminate.
Qed.
Print Assumptions C64_own_borrows_never_conflict.

(** ... so that the check of [RefCell] does not keep an operation from holding a
    mutable view of an array together with another view of it. *)
Notation alias_compute := (@hop_compute nat (arr Z) unit unit (assign_arr 0%Z) (Arr [] [0%Z]) (fun _ _ => CPanic)).
Notation alias_graph := [Node (HHook 0%nat) [] 0 None None true None None (Some 0%nat);
                         Node HAssign [Incoming 0 true 0; Incoming 0 false 0] 1 None None true None None None].
Theorem C64_exclusive_views_refuted :
  ~ (forall (O V E : Type) (shape_of : V -> list nat) (compute : O -> list (opin V) -> cout V E)
       (debug : bool) (g : graph O) (feeds : list (ph_key * V)) (fuel : nat) (targets : list nat) (env : list V)
       (fs : list flag) (oc : @outcome V E),
     beval shape_of compute debug g feeds fuel targets env fs = Ok (oc, fs) ->
     forall i xs n vid k j inc inc', In (Ran i xs) (oc_log oc) -> nth_error g i = Some n ->
     k <> j -> nth_error (n_inputs n) k = Some inc -> nth_error (n_inputs n) j = Some inc' ->
     in_mut inc = true -> variable_operand g inc vid -> variable_operand g inc' vid -> False).
Proof.
  intros H.
  apply (H (hop nat (arr Z) unit) (arr Z) unit (fun a => a_shape a) alias_compute true alias_graph [] 10%nat [1%nat]
           [Arr [2] [3; 4]%Z] [Free]
           (Outcome [inl (Arr [] [0%Z])] [Arr [2] [3; 4]%Z] [Ran 1 [RdWr (Arr [2] [3; 4]%Z); RdOnly (Arr [2] [3; 4]%Z)]])
           eq_refl 1%nat [RdWr (Arr [2] [3; 4]%Z); RdOnly (Arr [2] [3; 4]%Z)]
           (Node HAssign [Incoming 0 true 0; Incoming 0 false 0] 1 None None true None None None)
           0%nat 0%nat 1%nat (Incoming 0 true 0) (Incoming 0 false 0)); simpl; auto;
    eexists; repeat split.
Qed.
Print Assumptions C64_exclusive_views_refuted.

(** ** Operations on live views *)
Local Open Scope R_scope.

(** [assign], SGD, momentum SGD and Adam compute the same on live views as on
    copies of their operands, even if the gradient is a view of the parameter or
    of one of the operation's own state variables; AdaGrad does unless the
    gradient is its accumulator. *)
Theorem C64_live_updates :
  forall (powf : R -> R -> R) (env : list (arr R)) (p : nat) (gr : live) (pa ga : arr R),
  (forall a, In a env -> wf a) -> nth_error env p = Some pa -> see env gr = Some ga ->
  live_assign p gr env = option_map (fun p' => set_at p p' env) (assign_arr 0 pa ga) /\
  (forall alpha, live_sgd alpha p gr env = option_map (fun p' => set_at p p' env) (sgd_step alpha pa ga)) /\
  (forall lr mu v va, p <> v -> nth_error env v = Some va ->
     live_momentum lr mu p gr v env =
     option_map (fun r => set_at p (fst r) (set_at v (snd r) env)) (momentum_step lr mu pa ga va)) /\
  (forall lr h ha, p <> h -> gr <> LVar h -> nth_error env h = Some ha ->
     live_adagrad lr p gr h env =
     option_map (fun r => set_at p (fst r) (set_at h (snd r) env)) (adagrad_step lr pa ga ha)) /\
  (forall alpha eps b1 b2 m v t ma va ta, NoDup [p; m; v; t] ->
     nth_error env m = Some ma -> nth_error env v = Some va -> nth_error env t = Some ta ->
     live_adam powf alpha eps b1 b2 p gr m v t env =
     option_map (fun r => match r with (p', m', v', t') =>
                   set_at t t' (set_at p p' (set_at v v' (set_at m m' env))) end)
                (adam_step powf alpha eps b1 b2 pa ga ma va ta)).
Proof.
  intros powf env p gr pa ga Hw Hp Hg.
  assert (Hwf : forall k a, nth_error env k = Some a -> wf a) by (intros k a H; apply Hw; eapply nth_error_In, H).
  split; [|split; [|split; [|split]]].
  - apply live_zip_spec; [exact Hp | exact (Hwf _ _ Hp) | exact Hg].
  - intros alpha. apply sgd_live; [exact Hp | exact (Hwf _ _ Hp) | exact Hg].
  - intros lr mu v va Hne Hv. apply momentum_live; try assumption; eapply Hwf; eassumption.
  - intros lr h ha Hne Hgh Hh. apply adagrad_live; try assumption; eapply Hwf; eassumption.
  - intros alpha eps b1 b2 m v t ma va ta Hnd Hm Hv Ht.
    apply adam_live; try assumption; eapply Hwf; eassumption.
Qed.
Print Assumptions C64_live_updates.

(** For AdaGrad the exception is real: with the accumulator [h > 0] as gradient
    the parameter moves by [lr (h + h^2) / (sqrt (h + h^2) + eps)] instead of
    [lr h / (sqrt (h + h^2) + eps)]. *)
Theorem C64_adagrad_accumulator_refuted :
  forall (lr x h : R), 0 < h -> lr <> 0 ->
  let env := [Arr [] [x]; Arr [] [h]] in
  exists a b, live_adagrad lr 0 (LVar 1) 1 env = Some [Arr [] [a]; Arr [] [h + h * h]] /\
    adagrad_step lr (Arr [] [x]) (Arr [] [h]) (Arr [] [h]) = Some (Arr [] [b], Arr [] [h + h * h]) /\
    a = x - lr * (h + h * h) / (sqrt (h + h * h) + adagrad_eps) /\
    b = x - lr * h / (sqrt (h + h * h) + adagrad_eps) /\ a <> b.
Proof.
  intros lr x h Hh Hlr env. eexists _, _. split; [reflexivity|]. split; [reflexivity|].
  unfold aget; simpl. split; [reflexivity|]. split; [reflexivity|].
  set (q := sqrt (h + h * h) + adagrad_eps).
  assert (Hq : 0 < q).
  { unfold q, adagrad_eps. pose proof (sqrt_pos (h + h * h)). lra. }
  intros Heq.
  assert (H : lr * (h + h * h) / q - lr * h / q = 0) by lra.
  assert (H1 : lr * (h * h) = 0).
  { replace (lr * (h * h)) with ((lr * (h + h * h) / q - lr * h / q) * q) by (field; lra). rewrite H. ring. }
  apply Rmult_integral in H1 as [H1 | H1]; [contradiction|].
  apply Rmult_integral in H1 as [H1 | H1]; lra.
Qed.
Print Assumptions C64_adagrad_accumulator_refuted.

(** Guards on the variable of [alias_graph]: none, two readers, a writer; the
    assignment needs exclusive access, reading the variable does not. *)
Example C64_hypotheses_met :
  (exists oc, beval (fun a => a_shape a) alias_compute true alias_graph [] 10%nat [1; 0]%nat [Arr [2%nat] [3; 4]%Z] [Free] = Ok (oc, [Free]) /\
     oc_results oc = [inl (Arr [] [0%Z]); inl (Arr [2%nat] [3; 4]%Z)]) /\
  beval (fun a => a_shape a) alias_compute true alias_graph [] 10%nat [1]%nat [Arr [2%nat] [3; 4]%Z] [Shared 1%nat] = Panic /\
  (exists oc, beval (fun a => a_shape a) alias_compute true alias_graph [] 10%nat [0]%nat [Arr [2%nat] [3; 4]%Z] [Shared 1%nat] = Ok (oc, [Shared 1%nat]) /\
     oc_results oc = [inl (Arr [2%nat] [3; 4]%Z)]) /\
  beval (fun a => a_shape a) alias_compute true alias_graph [] 10%nat [0]%nat [Arr [2%nat] [3; 4]%Z] [Exclusive] = Panic /\
  (exists b, live_sgd (/ 2) 0%nat (LVar 0%nat) [Arr [2%nat] [3; 4]] = Some [b] /\
     map (fun r => 2 * r) (a_data b) = [3; 4]).
Proof.
  split; [eexists; split; reflexivity|]. split; [reflexivity|]. split; [eexists; split; reflexivity|]. split; [reflexivity|].
  eexists. split; [reflexivity|]. unfold aget. simpl. f_equal; [field|]. f_equal. field.
Qed.
