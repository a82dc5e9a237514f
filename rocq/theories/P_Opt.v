(** Properties C24-C26 and C45: optimizers. *)
From Coq Require Import String List Arith ZArith Bool Relations Reals Lia Lra.
Import ListNotations.
From Verif Require Import Graph_Model Eval_Model Eval_Spec Eval_Proofs Eval_Proofs2 Eval_Update Graph_Proofs Eval_Examples Var_Model Var_Proofs Array_Model Array_Proofs Arith_Model Arith_Proofs Vjp_Spec Vjp_Proofs Opt_Model Opt_Proofs Opt_Effect Opt_Spec Opt_Steps Opt_State Opt_Train Opt_Witness.
Local Open Scope R_scope.

(** ** A single parameter *)
Lemma updatable_single {O} opt e (g : graph O) p vid gr : var_tensor g p vid -> (gr < length g)%nat ->
  (forall i x, depends g gr i -> ~ changes g i x) ->
  (forall sids, state_ids opt e vid sids -> NoDup (vid :: sids)) ->
  (forall x, operand opt e vid x -> ~ var_tensor g gr x) -> updatable opt e g [p] [gr].
Proof.
  intros Hp Hgr Hpure Hwithin Hnot.
  assert (Hone : forall q, In q [p] -> q = p) by (intros q [|[]]; auto).
  assert (Hone' : forall q, In q [gr] -> q = gr) by (intros q [|[]]; auto).
  assert (Hv : forall v, var_tensor g p v -> v = vid).
  { intros v (n & ? & ? & ?). destruct Hp as (m & ? & ? & ?). congruence. }
  split.
  - intros q Hq. apply Hone in Hq. subst. eauto.
  - intros q Hq. apply Hone' in Hq. subst. auto.
  - intros q i x Hq. apply Hone' in Hq. subst. auto.
  - intros k l q r v w x Hk Hl. destruct k as [|[|]], l as [|[|]]; try discriminate. auto.
  - intros q v sids Hq. apply Hone in Hq. subst. intros Hqv. apply Hv in Hqv. subst. auto.
  - intros q r v x Hq Hr. apply Hone' in Hq. apply Hone in Hr. subst. intros Hqv. apply Hv in Hqv. subst. auto.
Qed.
Lemma shared_single {O} opt e (g : graph O) p gr : shared_readers opt e g [p] [gr].
Proof.
  intros k l q gr1 v j x Hkl Hl Hk. destruct k as [|[|]], l as [|[|]]; try discriminate. lia.
Qed.
Lemma update_cu {O E} (var_op : O) inj (compute : O -> list (opin (arr R)) -> cout (arr R) E) debug fuel opt e c ps gs feeder c' e' :
  update var_op inj compute debug fuel opt e c ps gs feeder = Ok (c', e') ->
  exists us, compute_updates var_op inj opt e c ps gs = Some (c', us).
Proof.
  unfold update. destruct (compute_updates var_op inj opt e c ps gs) as [[c1 us]|]; [|discriminate].
  destruct (ev_run _ _ _ _ _ _ _) as [oc| |]; try discriminate. destruct (all_ok _); [|discriminate].
  intros H. injection H as <- <-. eauto.
Qed.

(** One update call for one parameter, with any of the optimizers: it returns
    when the step is possible, makes that step from the values before the call,
    and changes nothing else. *)
Theorem C24_single_parameter_update :
  forall (O E : Type) (powf : R -> R -> R) (var_op : O) (inj : opt_op -> O)
    (compute : O -> list (opin (arr R)) -> cout (arr R) E) (debug : bool)
    (opt : optimizer) (e : env (arr R)) (c c' : context O) (us : list nat) (p vid gr : nat)
    (feeder : list (ph_key * arr R)) (pv gv p' : arr R) (sids : list nat) (svs svs' : list (arr R)) (fuel : nat),
  (forall o xs, compute (inj o) xs = opt_compute powf o xs) ->
  good c -> acyclic (c_graph c) -> var_tensor (c_graph c) p vid -> (gr < length (c_graph c))%nat ->
  (forall i x, depends (c_graph c) gr i -> ~ changes (c_graph c) i x) ->
  state_ids opt e vid sids -> NoDup (vid :: sids) -> (forall x, In x (vid :: sids) -> ~ var_tensor (c_graph c) gr x) ->
  nth_error (array_list e) vid = Some pv ->
  Forall2 (fun sid a => nth_error (array_list e) sid = Some a) sids svs ->
  tensor_value a_shape compute debug (c_graph c) feeder (array_list e) gr (inl gv) ->
  opt_step powf opt pv gv svs = Some (p', svs') ->
  compute_updates var_op inj opt e c [p] [gr] = Some (c', us) ->
  (2 * (length us + edge_count (c_graph c')) < fuel)%nat ->
  exists e', update var_op inj compute debug fuel opt e c [p] [gr] feeder = Ok (c', e') /\
    name_to_id e' = name_to_id e /\
    nth_error (array_list e') vid = Some p' /\
    Forall2 (fun sid a => nth_error (array_list e') sid = Some a) sids svs' /\
    (forall x, ~ In x (vid :: sids) -> nth_error (array_list e') x = nth_error (array_list e) x).
Proof.
  intros O E powf var_op inj compute debug opt e c c' us p vid gr feeder pv gv p' sids svs svs' fuel
    Hc Hg Hac Hp Hgr Hpure Hids Hnd Hnot Hpv Hsv Hgv Hst Hcu Hf.
  assert (Hops : forall x, operand opt e vid x <-> In x (vid :: sids)).
  { intros x. split.
    - intros [->|(s & Hs & Hin)]; [left; auto|]. assert (s = sids) by (eapply ids_fun; eauto). subst. right; auto.
    - intros [->|Hin]; [left; auto | right; eauto]. }
  assert (Hu : updatable opt e (c_graph c) [p] [gr]).
  { apply (updatable_single opt e (c_graph c) p vid gr); auto.
    - intros s Hs. assert (s = sids) by (eapply ids_fun; eauto). subst. auto.
    - intros x Hx. apply Hnot. apply Hops. exact Hx. }
  assert (Hv : forall v, var_tensor (c_graph c) p v -> v = vid).
  { intros v (n & ? & ? & ?). destruct Hp as (m & ? & ? & ?). congruence. }
  pose proof (shared_single opt e (c_graph c) p gr) as Hs.
  destruct (update_returns powf var_op inj compute debug Hc opt e c c' [p] [gr] us Hg Hu Hs Hcu feeder fuel Hac) as (e' & He'); auto.
  { intros k q gr' v Hk Hk' Hq. destruct k as [|[|]]; try discriminate. simpl in Hk, Hk'. injection Hk as <-. injection Hk' as <-.
    apply Hv in Hq. subst v. exists sids, pv, gv, svs, (p', svs'). auto. }
  exists e'. split; auto.
  destruct (update_sound powf var_op inj compute debug Hc opt e c c' [p] [gr] us Hg Hu Hs Hcu feeder fuel e' He') as (H1 & _ & H3 & H4).
  split; auto.
  destruct (H3 0%nat p gr vid eq_refl eq_refl Hp) as (s1 & pv1 & gv1 & svs1 & p1 & svs1' & S1 & S2 & S3 & S4 & S5 & S6 & S7).
  assert (s1 = sids) by (eapply ids_fun; eauto). subst s1.
  assert (pv1 = pv) by congruence. subst pv1.
  assert (svs1 = svs) by (eapply holds_fun; eauto). subst svs1.
  assert (gv1 = gv) by (pose proof (tensor_value_fun _ _ _ _ _ _ _ _ _ S4 Hgv) as Heq; injection Heq; auto). subst gv1.
  rewrite Hst in S5. injection S5 as <- <-. split; auto. split; auto.
  intros x Hx. apply H4. intros q v [<-|[]] Hq Hop. apply Hv in Hq. subst v. apply Hx. apply Hops. exact Hop.
Qed.
Print Assumptions C24_single_parameter_update.

(** SGD: after any history of update calls the parameter has moved by the
    learning rate times the sum of its gradients. *)
Theorem C24_sgd_training :
  forall (O E : Type) (powf : R -> R -> R) (var_op : O) (inj : opt_op -> O)
    (compute : O -> list (opin (arr R)) -> cout (arr R) E) (debug : bool) (alpha : R)
    (sh vids : list nat) (vid : nat) (p0 : arr R) (e0 e e' : env (arr R)) (gvs : list (arr R)),
  (forall o xs, compute (inj o) xs = opt_compute powf o xs) ->
  has_shape sh p0 -> Forall (has_shape sh) gvs -> In vid vids -> nth_error (array_list e0) vid = Some p0 ->
  (forall v, In v vids -> (v < length (array_list e0))%nat) ->
  opt_new (SGD alpha) vids e0 = Some e ->
  training var_op inj compute debug (SGD alpha) vid e gvs e' ->
  exists p, nth_error (array_list e') vid = Some p /\ has_shape sh p /\
    forall i, in_bounds sh i -> aget 0 p i = aget 0 p0 i - alpha * sigma (length gvs) (fun k => grad_at gvs k i).
Proof. intros; eapply sgd_training; eauto. Qed.
Print Assumptions C24_sgd_training.

Theorem C24_momentum_training :
  forall (O E : Type) (powf : R -> R -> R) (var_op : O) (inj : opt_op -> O)
    (compute : O -> list (opin (arr R)) -> cout (arr R) E) (debug : bool) (lr mu : R) (ns : string)
    (sh vids : list nat) (vid : nat) (p0 : arr R) (e0 e e' : env (arr R)) (gvs : list (arr R)),
  (forall o xs, compute (inj o) xs = opt_compute powf o xs) ->
  has_shape sh p0 -> Forall (has_shape sh) gvs -> In vid vids -> nth_error (array_list e0) vid = Some p0 ->
  (forall v, In v vids -> (v < length (array_list e0))%nat) ->
  opt_new (MomentumSGD lr mu ns) vids e0 = Some e ->
  training var_op inj compute debug (MomentumSGD lr mu ns) vid e gvs e' ->
  exists p v, nth_error (array_list e') vid = Some p /\ has_shape sh p /\
    get_array_by_name e' ns (decimal vid) = Some (Some v) /\ has_shape sh v /\
    forall i, in_bounds sh i ->
      aget 0 v i = velocity lr mu gvs (length gvs) i /\
      aget 0 p i = aget 0 p0 i + sigma (length gvs) (fun k => velocity lr mu gvs (S k) i).
Proof. intros; eapply momentum_training; eauto. Qed.
Print Assumptions C24_momentum_training.

(** ** C25 *)
Theorem C25_adagrad_training :
  forall (O E : Type) (powf : R -> R -> R) (var_op : O) (inj : opt_op -> O)
    (compute : O -> list (opin (arr R)) -> cout (arr R) E) (debug : bool) (lr : R) (ns : string)
    (sh vids : list nat) (vid : nat) (p0 : arr R) (e0 e e' : env (arr R)) (gvs : list (arr R)),
  (forall o xs, compute (inj o) xs = opt_compute powf o xs) ->
  has_shape sh p0 -> Forall (has_shape sh) gvs -> In vid vids -> nth_error (array_list e0) vid = Some p0 ->
  (forall v, In v vids -> (v < length (array_list e0))%nat) ->
  opt_new (AdaGrad lr ns) vids e0 = Some e ->
  training var_op inj compute debug (AdaGrad lr ns) vid e gvs e' ->
  exists p h, nth_error (array_list e') vid = Some p /\ has_shape sh p /\
    get_array_by_name e' ns (decimal vid) = Some (Some h) /\ has_shape sh h /\
    forall i, in_bounds sh i ->
      aget 0 h i = squares gvs (length gvs) i /\
      aget 0 p i = aget 0 p0 i + sigma (length gvs) (fun k => adagrad_move lr gvs k i).
Proof. intros; eapply adagrad_training; eauto. Qed.
Print Assumptions C25_adagrad_training.

Theorem C25_adam_training :
  forall (O E : Type) (powf : R -> R -> R) (var_op : O) (inj : opt_op -> O)
    (compute : O -> list (opin (arr R)) -> cout (arr R) E) (debug : bool) (alpha eps b1 b2 : R) (ns : string)
    (sh vids : list nat) (vid : nat) (p0 : arr R) (e0 e e' : env (arr R)) (gvs : list (arr R)),
  (forall o xs, compute (inj o) xs = opt_compute powf o xs) ->
  (forall n, powf b1 (INR (S n)) = b1 ^ S n) -> (forall n, powf b2 (INR (S n)) = b2 ^ S n) ->
  has_shape sh p0 -> Forall (has_shape sh) gvs -> In vid vids -> nth_error (array_list e0) vid = Some p0 ->
  (forall v, In v vids -> (v < length (array_list e0))%nat) ->
  opt_new (Adam alpha eps b1 b2 ns) vids e0 = Some e ->
  training var_op inj compute debug (Adam alpha eps b1 b2 ns) vid e gvs e' ->
  exists p m v, nth_error (array_list e') vid = Some p /\ has_shape sh p /\
    get_array_by_name e' ns (decimal vid ++ "m") = Some (Some m) /\ has_shape sh m /\
    get_array_by_name e' ns (decimal vid ++ "v") = Some (Some v) /\ has_shape sh v /\
    get_array_by_name e' ns (decimal vid ++ "t") = Some (Some (Arr [] [INR (S (length gvs))])) /\
    forall i, in_bounds sh i ->
      aget 0 m i = first_moment b1 gvs (length gvs) i /\
      aget 0 v i = second_moment b2 gvs (length gvs) i /\
      aget 0 p i = aget 0 p0 i + sigma (length gvs) (fun k => adam_move alpha eps b1 b2 gvs k i).
Proof. intros; eapply adam_training; eauto. Qed.
Print Assumptions C25_adam_training.

(** No update divides by zero or takes the root of a negative number. *)
Theorem C25_divisions_proper :
  forall (gs : list (arr R)) (k : nat) (i : list nat) (b1 b2 eps : R),
  (0 <= squares gs k i /\ 0 < sqrt (squares gs k i) + / 10000000) /\
  (0 <= b1 < 1 -> 0 <= b2 < 1 -> 0 < eps ->
   0 < 1 - b1 ^ S k /\ 0 < 1 - b2 ^ S k /\ 0 <= second_moment b2 gs (S k) i / (1 - b2 ^ S k) /\
   0 < sqrt (second_moment b2 gs (S k) i / (1 - b2 ^ S k)) + eps).
Proof. intros. split; [apply adagrad_denominator | intros; apply adam_denominators; auto]. Qed.
Print Assumptions C25_divisions_proper.

(** ** C26 *)
(** When whoever reads a parameter for another parameter's gradient is also used
    for its own gradient, one call makes all steps from the values before it. *)
Theorem C26_simultaneous_when_shared :
  forall (O E : Type) (powf : R -> R -> R) (var_op : O) (inj : opt_op -> O)
    (compute : O -> list (opin (arr R)) -> cout (arr R) E) (debug : bool)
    (opt : optimizer) (e e' : env (arr R)) (c c' : context O) (ps gs : list nat)
    (feeder : list (ph_key * arr R)) (fuel : nat),
  (forall o xs, compute (inj o) xs = opt_compute powf o xs) ->
  good c -> updatable opt e (c_graph c) ps gs -> shared_readers opt e (c_graph c) ps gs ->
  update var_op inj compute debug fuel opt e c ps gs feeder = Ok (c', e') ->
  name_to_id e' = name_to_id e /\ length (array_list e') = length (array_list e) /\
  (forall k p gr vid, nth_error ps k = Some p -> nth_error gs k = Some gr -> var_tensor (c_graph c) p vid ->
     exists sids pv gv svs p' svs',
       state_ids opt e vid sids /\ nth_error (array_list e) vid = Some pv /\
       Forall2 (fun sid a => nth_error (array_list e) sid = Some a) sids svs /\
       tensor_value a_shape compute debug (c_graph c) feeder (array_list e) gr (inl gv) /\
       opt_step powf opt pv gv svs = Some (p', svs') /\
       nth_error (array_list e') vid = Some p' /\
       Forall2 (fun sid a => nth_error (array_list e') sid = Some a) sids svs') /\
  (forall x, (forall p vid, In p ps -> var_tensor (c_graph c) p vid -> ~ operand opt e vid x) ->
     nth_error (array_list e') x = nth_error (array_list e) x).
Proof.
  intros O E powf var_op inj compute debug opt e e' c c' ps gs feeder fuel Hc Hg Hu Hs H.
  destruct (update_cu _ _ _ _ _ _ _ _ _ _ _ _ _ H) as (us & Hcu).
  exact (update_sound powf var_op inj compute debug Hc opt e c c' ps gs us Hg Hu Hs Hcu feeder fuel e' H).
Qed.
Print Assumptions C26_simultaneous_when_shared.

(** Such a call also returns, when every step is possible. *)
Theorem C26_simultaneous_returns :
  forall (O E : Type) (powf : R -> R -> R) (var_op : O) (inj : opt_op -> O)
    (compute : O -> list (opin (arr R)) -> cout (arr R) E) (debug : bool)
    (opt : optimizer) (e : env (arr R)) (c c' : context O) (ps gs us : list nat)
    (feeder : list (ph_key * arr R)) (fuel : nat),
  (forall o xs, compute (inj o) xs = opt_compute powf o xs) ->
  good c -> acyclic (c_graph c) -> updatable opt e (c_graph c) ps gs -> shared_readers opt e (c_graph c) ps gs ->
  compute_updates var_op inj opt e c ps gs = Some (c', us) ->
  (forall k p gr vid, nth_error ps k = Some p -> nth_error gs k = Some gr -> var_tensor (c_graph c) p vid ->
     exists sids pv gv svs r,
       state_ids opt e vid sids /\ nth_error (array_list e) vid = Some pv /\
       Forall2 (fun sid a => nth_error (array_list e) sid = Some a) sids svs /\
       tensor_value a_shape compute debug (c_graph c) feeder (array_list e) gr (inl gv) /\
       opt_step powf opt pv gv svs = Some r) ->
  (2 * (length us + edge_count (c_graph c')) < fuel)%nat ->
  exists e', update var_op inj compute debug fuel opt e c ps gs feeder = Ok (c', e').
Proof.
  intros O E powf var_op inj compute debug opt e c c' ps gs us feeder fuel Hc Hg Hac Hu Hs Hcu Hcan Hf.
  exact (update_returns powf var_op inj compute debug Hc opt e c c' ps gs us Hg Hu Hs Hcu feeder fuel Hac Hcan Hf).
Qed.
Print Assumptions C26_simultaneous_returns.

(** The expectation fails for y = w1 * w2: the gradient of w1, which is w2, is
    computed after w2 has been updated. *)
Theorem C26_simultaneous_refuted :
  forall (powf : R -> R -> R) (lr w1 w2 : R), lr <> 0 -> w1 <> 0 ->
  exists (c' : context wop) (e' : env (arr R)) (p : arr R),
    update WVar WOpt (w_compute powf) false 100%nat (SGD lr) (w_env w1 w2) w_ctx [0; 1]%nat [8; 9]%nat [] = Ok (c', e') /\
    tensor_value a_shape (w_compute powf) false (c_graph w_ctx) [] (array_list (w_env w1 w2)) 8 (inl (Arr [] [w2])) /\
    nth_error (array_list (w_env w1 w2)) 0 = Some (Arr [] [w1]) /\
    nth_error (array_list e') 0 = Some p /\ p <> Arr [] [w1 - lr * w2] /\
    p = Arr [] [w1 - lr * (w2 - lr * w1)].
Proof.
  intros powf lr w1 w2 Hlr Hw. destruct (w_update powf lr w1 w2) as (c' & e' & Hu & He).
  destruct (w_grads powf lr w1 w2) as (cc & oc & _ & Hev & Hres).
  exists c', e', (Arr [] [w1 - lr * (w2 - lr * w1)]). split; [exact Hu|].
  assert (Hno : no_inplace (c_graph w_ctx) [8; 9]%nat).
  { intros i n p vid _ Hn. apply (w_plain i n p vid Hn). }
  assert (Hwf : wf_graph (c_graph w_ctx)) by (apply wf_b_sound; vm_compute; reflexivity).
  assert (Hr : in_range (c_graph w_ctx) [8; 9]%nat) by (intros t [<-|[<-|[]]]; vm_compute; lia).
  destruct (eval_only_values _ _ _ _ _ _ _ _ _ Hwf Hr Hno Hev) as (HF & _ & _).
  rewrite Hres in HF. inversion HF as [|? ? ? ? H8 _]; subst.
  split. { replace w2 with (1 * w2) at 2 by ring. exact H8. }
  split; [reflexivity|]. rewrite He. cbn [nth_error]. split; [f_equal; f_equal; f_equal; ring|]. split; [|reflexivity].
  intros H. injection H as H. assert (Hz : lr * (lr * w1) = 0) by lra.
  apply Rmult_integral in Hz. destruct Hz as [Hz|Hz]; [contradiction|]. apply Rmult_integral in Hz. tauto.
Qed.
Print Assumptions C26_simultaneous_refuted.

(** ** C45 *)
Theorem C45_state_registered :
  forall (opt : optimizer) (vids : list nat) (e : env (arr R)),
  (forall vid, In vid vids -> (vid < length (array_list e))%nat) ->
  exists e', opt_new opt vids e = Some e' /\
    (exists new, array_list e' = array_list e ++ new /\ length new = length vids * length (state_names opt 0))%nat /\
    (forall vid a, In vid vids -> nth_error (array_list e) vid = Some a ->
       exists sids, state_ids opt e' vid sids /\ NoDup (vid :: sids) /\
         (forall s, In s sids -> (length (array_list e) <= s)%nat) /\
         Forall2 (fun sid b => nth_error (array_list e') sid = Some b) sids (initial_states opt (a_shape a))) /\
    (forall v w x, In v vids -> In w vids -> operand opt e' v x -> operand opt e' w x -> v = w) /\
    (forall ns name, (ns = opt_namespace opt -> forall vid, In vid vids -> ~ In name (state_names opt vid)) ->
       map_get full_name_eqb (name_to_id e') (ns, name) = map_get full_name_eqb (name_to_id e) (ns, name)).
Proof.
  intros opt vids e Hv. destruct (opt_new_spec opt vids e Hv) as (e' & Hn & [H1 H2 H3 H4]).
  exists e'. split; auto. split; auto.
  assert (Hst : forall v, In v vids -> exists sids a, fresh_states opt e e' v a sids).
  { intros v Hin. destruct (nth_error (array_list e) v) as [a|] eqn:Ha.
    - destruct (H2 v a Hin Ha) as (sids & F). eauto.
    - apply nth_error_None in Ha. specialize (Hv v Hin). lia. }
  assert (Hnew : forall v sids s, In v vids -> state_ids opt e' v sids -> In s sids -> (length (array_list e) <= s)%nat).
  { intros v sids s Hin Hs Hi. destruct (Hst v Hin) as (sids' & a & F1 & _ & F3 & _).
    assert (sids' = sids) by (eapply ids_fun; eauto). subst. auto. }
  split; [|split].
  - intros vid a Hin Ha. destruct (H2 vid a Hin Ha) as (sids & F1 & F2 & F3 & F4). exists sids. split; auto. split; auto.
    constructor; auto. intros Hi. specialize (F3 vid Hi). specialize (Hv vid Hin). lia.
  - intros v w x Hvi Hwi [->|(sv & Hsv & Hi)] [->|(sw & Hsw & Hj)]; auto.
    + specialize (Hnew w sw v Hwi Hsw Hj). specialize (Hv v Hvi). lia.
    + specialize (Hnew v sv w Hvi Hsv Hi). specialize (Hv w Hwi). lia.
    + eapply H3; eauto.
  - intros ns name Hk. apply H4. intros nm vid Heq Hin. injection Heq as -> <-. apply (Hk eq_refl vid Hin).
Qed.
Print Assumptions C45_state_registered.

(** An unknown identifier panics; plain SGD keeps no state and does not look. *)
Theorem C45_unknown_parameter :
  forall (opt : optimizer) (vid : nat) (vids : list nat) (e : env (arr R)), (length (array_list e) <= vid)%nat ->
  opt_new opt (vid :: vids) e = match opt with SGD _ => Some e | _ => None end.
Proof. exact opt_new_unknown. Qed.
Print Assumptions C45_unknown_parameter.

(** The names do not mention the optimizer: a momentum and an AdaGrad optimizer
    in one namespace use the same arrays for a parameter. *)
Theorem C45_private_per_optimizer_refuted :
  forall (lr mu lr' : R) (ns : string) (vids : list nat) (e : env (arr R)),
  (forall vid, In vid vids -> (vid < length (array_list e))%nat) ->
  exists e1 e2, opt_new (MomentumSGD lr mu ns) vids e = Some e1 /\ opt_new (AdaGrad lr' ns) vids e1 = Some e2 /\
    forall vid, In vid vids -> exists sid,
      state_ids (MomentumSGD lr mu ns) e2 vid [sid] /\ state_ids (AdaGrad lr' ns) e2 vid [sid].
Proof.
  intros lr mu lr' ns vids e Hv. destruct (opt_new_spec (MomentumSGD lr mu ns) vids e Hv) as (e1 & Hn1 & C1).
  destruct (cr_arrays _ _ _ _ C1) as (new & Hnew & _).
  assert (Hv1 : forall vid, In vid vids -> (vid < length (array_list e1))%nat).
  { intros vid Hin. specialize (Hv vid Hin). rewrite Hnew, app_length. lia. }
  destruct (opt_new_spec (AdaGrad lr' ns) vids e1 Hv1) as (e2 & Hn2 & C2).
  exists e1, e2. split; auto. split; auto. intros vid Hin.
  destruct (nth_error (array_list e1) vid) as [a|] eqn:Ha; [|apply nth_error_None in Ha; specialize (Hv1 vid Hin); lia].
  destruct (cr_states _ _ _ _ C2 vid a Hin Ha) as (sids & F1 & _).
  unfold state_ids in *. cbn [state_names opt_namespace] in *. inversion F1 as [|? sid ? ? Hs Hl]; subst. inversion Hl; subst.
  exists sid. split; constructor; auto.
Qed.
Print Assumptions C45_private_per_optimizer_refuted.

(** ** The hypotheses can be met *)
Lemma w_updatable opt e : (forall sids, state_ids opt e 0 sids -> NoDup (0%nat :: sids)) -> updatable opt e (c_graph w_ctx) [0%nat] [8%nat].
Proof.
  intros H. apply (updatable_single opt e (c_graph w_ctx) 0 0 8); auto.
  - eexists. split; [vm_compute; reflexivity|]. split; reflexivity.
  - vm_compute. lia.
  - intros i x _ (n & p & (Hn & _) & Hi). exact (w_plain i n p x Hn Hi).
  - intros x _ (n & Hn & _ & Hv). vm_compute in Hn. injection Hn as <-. discriminate.
Qed.
Lemma w_value env : forall x y, nth_error env 0 = Some (Arr [] [x]) -> nth_error env 1 = Some (Arr [] [y]) ->
  tensor_value a_shape (w_compute Rpower) false (c_graph w_ctx) [] env 8 (inl (Arr [] [1 * y])).
Proof.
  intros x y Hx Hy. destruct env as [|a [|b env]]; try discriminate. injection Hx as ->. injection Hy as ->.
  assert (Hev : exists oc, eval a_shape (w_compute Rpower) false (c_graph w_ctx) [] 100 [8]%nat (Arr [] [x] :: Arr [] [y] :: env) = Ok oc /\
     oc_results oc = [inl (Arr [] [1 * y])]).
  { eexists. split; [cbv -[Rplus Rmult Rminus Ropp Rinv IZR INR]; reflexivity | reflexivity]. }
  destruct Hev as (oc & Hev & Hres).
  assert (Hno : no_inplace (c_graph w_ctx) [8]%nat) by (intros i n p vid _ Hn; apply (w_plain i n p vid Hn)).
  assert (Hwf : wf_graph (c_graph w_ctx)) by (apply wf_b_sound; vm_compute; reflexivity).
  assert (Hr : in_range (c_graph w_ctx) [8]%nat) by (intros t [<-|[]]; vm_compute; lia).
  destruct (eval_only_values _ _ _ _ _ _ _ _ _ Hwf Hr Hno Hev) as (HF & _ & _).
  rewrite Hres in HF. inversion HF; subst. assumption.
Qed.

Lemma w_training opt : In opt w_opts -> exists e,
  opt_new opt [0; 1]%nat w_start = Some e /\
  exists e', training WVar WOpt (w_compute Rpower) false opt 0 e [Arr [] [1 * 2]; Arr [] [1 * 2]] e'.
Proof.
  intros Hin. destruct (w_trained opt Hin) as (Hnew & U1 & U2). exists (w_created opt). split; auto.
  assert (Hv : forall vid, In vid [0; 1]%nat -> (vid < length (array_list w_start))%nat) by (intros v [<-|[<-|[]]]; simpl; lia).
  destruct (C45_state_registered opt [0; 1]%nat w_start Hv) as (e1 & Hn1 & (new & Harr & _) & Hst & _).
  assert (e1 = w_created opt) by congruence. subst e1.
  assert (Hnd : forall sids, state_ids opt (w_created opt) 0 sids -> NoDup (0%nat :: sids)).
  { intros sids Hs. destruct (Hst 0%nat (Arr [] [3]) (or_introl eq_refl) eq_refl) as (s & F1 & F2 & _).
    assert (s = sids) by (eapply ids_fun; eauto). subst. auto. }
  assert (Hc : forall o xs, w_compute Rpower (WOpt o) xs = opt_compute Rpower o xs) by reflexivity.
  assert (Hstep : forall e, (forall sids, state_ids opt e 0 sids -> NoDup (0%nat :: sids)) ->
     forall c' e', update WVar WOpt (w_compute Rpower) false 100 opt e w_ctx [0%nat] [8%nat] [] = Ok (c', e') ->
     name_to_id e' = name_to_id e /\ (forall sids, state_ids opt e' 0 sids -> NoDup (0%nat :: sids))).
  { intros e Hnde c' e' Hup.
    destruct (C26_simultaneous_when_shared _ _ Rpower WVar WOpt (w_compute Rpower) false opt e e' w_ctx c' [0%nat] [8%nat] [] 100%nat
      Hc w_good (w_updatable opt e Hnde) (shared_single _ _ _ _ _) Hup) as (Hnames & _ & Hst' & _).
    split; auto. intros sids Hs. apply Hnde. unfold state_ids in *. rewrite <- Hnames. exact Hs. }
  destruct (Hstep _ Hnd _ _ U1) as [_ Hnd1].
  destruct (update_cu _ _ _ _ _ _ _ _ _ _ _ _ _ U1) as (us1 & Hcu1).
  destruct (update_cu _ _ _ _ _ _ _ _ _ _ _ _ _ U2) as (us2 & Hcu2).
  assert (Hvar : var_tensor (c_graph w_ctx) 0 0) by (eexists; split; [vm_compute; reflexivity|]; split; reflexivity).
  assert (H0 : nth_error (array_list (w_created opt)) 0 = Some (Arr [] [3])) by (rewrite Harr; reflexivity).
  assert (H1 : nth_error (array_list (w_created opt)) 1 = Some (Arr [] [2])) by (rewrite Harr; reflexivity).
  assert (H01 : exists x, nth_error (array_list (w_after opt (w_created opt))) 0 = Some (Arr [] [x])).
  { clear - Hin. simpl in Hin. repeat destruct Hin as [<-|Hin]; [| | | |destruct Hin];
      (eexists; cbv -[Rplus Rmult Rminus Ropp Rinv IZR INR sqrt Rpower]; reflexivity). }
  assert (H11 : nth_error (array_list (w_after opt (w_created opt))) 1 = Some (Arr [] [2])).
  { clear - Hin. simpl in Hin. repeat destruct Hin as [<-|Hin]; [| | | |destruct Hin];
      (cbv -[Rplus Rmult Rminus Ropp Rinv IZR INR sqrt Rpower]; reflexivity). }
  destruct H01 as (x1 & H01).
  exists (w_after opt (w_after opt (w_created opt))).
  apply (train_update WVar WOpt (w_compute Rpower) false opt 0 (w_created opt) [Arr [] [1 * 2]] (w_after opt (w_created opt))
           w_ctx (match compute_updates WVar WOpt opt (w_created opt) w_ctx [0%nat] [8%nat] with Some (c, _) => c | None => w_ctx end) [0%nat] [8%nat] us2 [] 100%nat 0%nat 0%nat 8%nat); auto.
  - apply (train_update WVar WOpt (w_compute Rpower) false opt 0 (w_created opt) [] (w_created opt)
             w_ctx (match compute_updates WVar WOpt opt (w_created opt) w_ctx [0%nat] [8%nat] with Some (c, _) => c | None => w_ctx end) [0%nat] [8%nat] us1 [] 100%nat 0%nat 0%nat 8%nat); auto.
    + apply train_start.
    + exact w_good.
    + apply w_updatable. exact Hnd.
    + apply shared_single.
    + apply (w_value _ 3 2); auto.
  - exact w_good.
  - apply w_updatable. exact Hnd1.
  - apply shared_single.
  - apply (w_value _ x1 2); auto.
Qed.

Example C24_hypotheses_met :
  has_shape [] (Arr [] [3]) /\ Forall (has_shape []) [Arr [] [1 * 2]; Arr [] [1 * 2]] /\
  nth_error (array_list w_start) 0 = Some (Arr [] [3]) /\
  (forall o xs, w_compute Rpower (WOpt o) xs = opt_compute Rpower o xs) /\
  forall opt, In opt w_opts -> exists e, opt_new opt [0; 1]%nat w_start = Some e /\
    exists e', training WVar WOpt (w_compute Rpower) false opt 0 e [Arr [] [1 * 2]; Arr [] [1 * 2]] e'.
Proof.
  split; [split; reflexivity|]. split; [repeat constructor|]. split; [reflexivity|]. split; [reflexivity|]. exact w_training.
Qed.

Example C25_hypotheses_met :
  (forall n, Rpower (1/2) (INR (S n)) = (1/2) ^ S n) /\ (forall n, Rpower (1/4) (INR (S n)) = (1/4) ^ S n) /\
  In (Adam (1/2) (1/8) (1/2) (1/4) "opt") w_opts /\ In (AdaGrad (1/2) "opt") w_opts /\
  squares [Arr [] [1 * 2]; Arr [] [1 * 2]] 2 [] = 8 /\
  first_moment (1/2) [Arr [] [1 * 2]; Arr [] [1 * 2]] 2 [] = 3/2.
Proof.
  split; [intros n; apply Rpower_pow; lra|]. split; [intros n; apply Rpower_pow; lra|].
  split; [simpl; auto|]. split; [simpl; auto|].
  unfold squares, first_moment, grad_at, aget. simpl. split; field.
Qed.

(** Two parameters with a shared reader: both gradients are the product. *)
Lemma w_vars p v : var_tensor (c_graph w_ctx) p v -> p = v /\ (v < 2)%nat.
Proof.
  intros (n & Hn & _ & Hv).
  do 10 (destruct p as [|p]; [vm_compute in Hn; injection Hn as <-; cbn in Hv; try discriminate; injection Hv as <-; auto|]).
  vm_compute in Hn. destruct p; discriminate.
Qed.
Example C26_hypotheses_met :
  exists e', update WVar WOpt (w_compute Rpower) false 100%nat (SGD (1/2)) w_start w_ctx [0; 1]%nat [2; 2]%nat [] = Ok e' /\
    updatable (SGD (1/2)) w_start (c_graph w_ctx) [0; 1]%nat [2; 2]%nat /\
    shared_readers (SGD (1/2)) w_start (c_graph w_ctx) [0; 1]%nat [2; 2]%nat /\ good w_ctx /\ acyclic (c_graph w_ctx) /\
    array_list (snd e') = [Arr [] [3 - 1/2 * (3 * 2)]; Arr [] [2 - 1/2 * (3 * 2)]].
Proof.
  eexists. split; [cbv -[Rplus Rmult Rminus Ropp Rdiv Rinv IZR INR]; reflexivity|].
  assert (H2 : forall gr, In gr [2; 2]%nat -> gr = 2%nat) by (intros gr [<-|[<-|[]]]; reflexivity).
  assert (Hop : forall v x, operand (SGD (1/2)) w_start v x -> x = v).
  { intros v x [->|(sids & Hs & Hi)]; auto. inversion Hs; subst. destruct Hi. }
  split; [|split; [|split; [exact w_good | split; [exact w_acyclic | reflexivity]]]].
  - split.
    + intros p [<-|[<-|[]]]; [exists 0%nat | exists 1%nat]; (eexists; split; [vm_compute; reflexivity|]; split; reflexivity).
    + intros gr Hgr. rewrite (H2 gr Hgr). vm_compute. lia.
    + intros gr i x _ _ (n & p & (Hn & _) & Hi). exact (w_plain i n p x Hn Hi).
    + intros k l p q v w x Hk Hl Hp Hq Hx Hy. apply Hop in Hx. apply Hop in Hy. apply w_vars in Hp. apply w_vars in Hq.
      destruct k as [|[|[|k]]], l as [|[|[|l]]]; try discriminate; auto; cbn in Hk, Hl; injection Hk as <-; injection Hl as <-; lia.
    + intros p v sids _ _ H. inversion H; subst. constructor; [intros []|constructor].
    + intros gr p v x Hgr _ _ _ Hx. rewrite (H2 gr Hgr) in Hx. apply w_vars in Hx. lia.
  - intros k l p gr v j x Hkl Hl Hk _ _ Hd _. exists l, 2%nat. split; [lia|]. apply nth_error_In in Hk. rewrite (H2 gr Hk) in Hd.
    split; [|exact Hd]. destruct l as [|[|l]]; [lia|reflexivity|destruct l; discriminate].
Qed.

Example C45_hypotheses_met :
  exists e', opt_new (Adam (1/2) (1/8) (1/2) (1/4) "opt") [0; 1]%nat w_start = Some e' /\ length (array_list e') = 8%nat /\
    map_get full_name_eqb (name_to_id e') ("opt", "1v")%string = Some 6%nat.
Proof. eexists. split; [reflexivity|]. split; reflexivity. Qed.
