(** C72: the tensor [get_update_op] returns, evaluated alone and with other tensors. *)
From Coq Require Import String List Arith ZArith Bool Reals Lia Lra.
Import ListNotations.
From Verif Require Import Graph_Model Eval_Model Eval_Spec Eval_Proofs Eval_Proofs2 Eval_Update Graph_Proofs Eval_Examples Var_Model Array_Model Arith_Model Opt_Model Opt_Proofs Opt_Effect Joint_Model Opt_Joint Opt_Joint2 Opt_Joint3 Opt_Witness.
Local Open Scope R_scope.

(** Evaluating the tensor alone leaves the arrays [update] leaves, in every graph and
    for every list of parameters, shared or not; its value is the scalar 0. *)
Theorem C72_alone_is_update :
  forall (O E : Type) (powf : R -> R -> R) (var_op : O) (inj : opt_op -> O) (shape_op addn_op : O)
    (compute : O -> list (opin (arr R)) -> cout (arr R) E) (debug : bool)
    (opt : optimizer) (e : env (arr R)) (c c2 : context O) (ps gs : list nat) (u : nat)
    (feeder : list (ph_key * arr R)),
  (forall o xs, compute (inj o) xs = opt_compute powf o xs) ->
  (forall xs, compute addn_op xs = addn_compute xs) ->
  good c -> updatable opt e (c_graph c) ps gs ->
  get_update_op var_op inj shape_op addn_op opt e c ps gs = Some (c2, u) ->
  (forall fuel c' e', update var_op inj compute debug fuel opt e c ps gs feeder = Ok (c', e') ->
     exists oc, eval a_shape compute debug (c_graph c2) feeder (fuel + 2) [u] (array_list e) = Ok oc /\
       oc_results oc = [inl (Arr [] [0])] /\ oc_env oc = array_list e') /\
  (forall fuel oc y, eval a_shape compute debug (c_graph c2) feeder fuel [u] (array_list e) = Ok oc ->
     oc_results oc = [inl y] ->
     exists c' e', update var_op inj compute debug fuel opt e c ps gs feeder = Ok (c', e') /\
       array_list e' = oc_env oc /\ name_to_id e' = name_to_id e).
Proof.
  intros O E powf var_op inj shape_op addn_op compute debug opt e c c2 ps gs u feeder Hc Ha Hg Hu H. split.
  - apply (update_then_alone powf var_op inj shape_op addn_op compute debug Hc Ha feeder opt e c c2 ps gs u Hg Hu H).
  - apply (alone_then_update var_op inj shape_op addn_op compute debug Ha feeder opt e c c2 ps gs u Hg Hu H).
Qed.
Print Assumptions C72_alone_is_update.

(** Evaluated between other tensors: if the tensor's own result is a value, it is the
    scalar 0, all parameters have made their steps from the arrays and gradients before
    the call, nothing else is overwritten, and the tensors requested after it, and those
    before it that read parameters only through what the gradients or the tensors after
    it also use, show their values from before the call. *)
Theorem C72_joint_evaluation :
  forall (O E : Type) (powf : R -> R -> R) (var_op : O) (inj : opt_op -> O) (shape_op addn_op : O)
    (compute : O -> list (opin (arr R)) -> cout (arr R) E) (debug : bool)
    (opt : optimizer) (e : env (arr R)) (c c2 : context O) (ps gs pre post : list nat) (u : nat)
    (feeder : list (ph_key * arr R)) (fuel : nat) oc y,
  (forall o xs, compute (inj o) xs = opt_compute powf o xs) ->
  (forall xs, compute addn_op xs = addn_compute xs) ->
  good c -> updatable opt e (c_graph c) ps gs ->
  get_update_op var_op inj shape_op addn_op opt e c ps gs = Some (c2, u) ->
  readers (c_graph c) pre -> readers (c_graph c) post ->
  (forall k gr, nth_error gs k = Some gr -> sees_old opt e (c_graph c) ps gs post (S k) gr) ->
  eval a_shape compute debug (c_graph c2) feeder fuel (pre ++ [u] ++ post) (array_list e) = Ok oc ->
  nth_error (oc_results oc) (length pre) = Some (inl y) ->
  y = Arr [] [0] /\ length (oc_env oc) = length (array_list e) /\
  (forall k p gr vid, nth_error ps k = Some p -> nth_error gs k = Some gr -> var_tensor (c_graph c) p vid ->
     exists sids pv gv svs p' svs',
       state_ids opt e vid sids /\ nth_error (array_list e) vid = Some pv /\
       Forall2 (fun sid a => nth_error (array_list e) sid = Some a) sids svs /\
       tensor_value a_shape compute debug (c_graph c) feeder (array_list e) gr (inl gv) /\
       opt_step powf opt pv gv svs = Some (p', svs') /\
       nth_error (oc_env oc) vid = Some p' /\
       Forall2 (fun sid a => nth_error (oc_env oc) sid = Some a) sids svs') /\
  (forall x, (forall p vid, In p ps -> var_tensor (c_graph c) p vid -> ~ operand opt e vid x) ->
     nth_error (oc_env oc) x = nth_error (array_list e) x) /\
  (forall k t r, nth_error (pre ++ [u] ++ post) k = Some t -> k <> length pre -> nth_error (oc_results oc) k = Some r ->
     computed (c_graph c) t -> (In t post \/ sees_old opt e (c_graph c) ps gs post 0 t) ->
     tensor_value a_shape compute debug (c_graph c) feeder (array_list e) t r).
Proof.
  intros O E powf var_op inj shape_op addn_op compute debug opt e c c2 ps gs pre post u feeder fuel oc y Hc Ha Hg Hu H Hpre Hpost Hs He Hy.
  destruct (update_layout var_op inj shape_op addn_op opt e c ps gs c2 u Hg Hu H) as (c' & us & mid & _ & _ & _ & _ & _ & HL).
  destruct (joint_sound powf inj addn_op compute debug Hc Ha opt e c c2 ps gs us mid pre post u Hg Hu HL Hpre Hpost feeder fuel oc y Hs He Hy)
    as (H1 & (H2 & H3 & H4) & H5).
  split; [exact H1|]. split; [exact H4|]. split; [exact H2|]. split; [exact H3|exact H5].
Qed.
Print Assumptions C72_joint_evaluation.

(** Such an evaluation succeeds. *)
Theorem C72_joint_returns :
  forall (O E : Type) (powf : R -> R -> R) (var_op : O) (inj : opt_op -> O) (shape_op addn_op : O)
    (compute : O -> list (opin (arr R)) -> cout (arr R) E) (debug : bool)
    (opt : optimizer) (e : env (arr R)) (c c2 : context O) (ps gs pre post : list nat) (u : nat)
    (feeder : list (ph_key * arr R)) (fuel : nat) (avs bvs : list (arr R)),
  (forall o xs, compute (inj o) xs = opt_compute powf o xs) ->
  (forall xs, compute addn_op xs = addn_compute xs) ->
  good c -> acyclic (c_graph c) -> updatable opt e (c_graph c) ps gs ->
  get_update_op var_op inj shape_op addn_op opt e c ps gs = Some (c2, u) ->
  readers (c_graph c) pre -> readers (c_graph c) post ->
  NoDup (pre ++ post) -> (forall t, In t (pre ++ post) -> computed (c_graph c) t) ->
  (forall k gr, nth_error gs k = Some gr -> sees_old opt e (c_graph c) ps gs post (S k) gr) ->
  (forall t, In t pre -> sees_old opt e (c_graph c) ps gs post 0 t) ->
  (forall k p gr vid, nth_error ps k = Some p -> nth_error gs k = Some gr -> var_tensor (c_graph c) p vid ->
     exists sids pv gv svs r,
       state_ids opt e vid sids /\ nth_error (array_list e) vid = Some pv /\
       Forall2 (fun sid a => nth_error (array_list e) sid = Some a) sids svs /\
       tensor_value a_shape compute debug (c_graph c) feeder (array_list e) gr (inl gv) /\
       opt_step powf opt pv gv svs = Some r) ->
  Forall2 (fun t a => tensor_value a_shape compute debug (c_graph c) feeder (array_list e) t (inl a)) pre avs ->
  Forall2 (fun t a => tensor_value a_shape compute debug (c_graph c) feeder (array_list e) t (inl a)) post bvs ->
  (2 * (length pre + length post + length ps + 1 + edge_count (c_graph c2)) < fuel)%nat ->
  exists oc, eval a_shape compute debug (c_graph c2) feeder fuel (pre ++ [u] ++ post) (array_list e) = Ok oc /\
    oc_results oc = map inl avs ++ [inl (Arr [] [0])] ++ map inl bvs.
Proof.
  intros O E powf var_op inj shape_op addn_op compute debug opt e c c2 ps gs pre post u feeder fuel avs bvs Hc Ha Hg Hac Hu H Hpre Hpost.
  destruct (update_layout var_op inj shape_op addn_op opt e c ps gs c2 u Hg Hu H) as (c' & us & mid & _ & _ & _ & _ & _ & HL).
  exact (joint_returns powf inj addn_op compute debug Hc Ha opt e c c2 ps gs us mid pre post u Hg Hu HL Hpre Hpost feeder fuel avs bvs Hac).
Qed.
Print Assumptions C72_joint_returns.

(** Without parameters there is no tensor to return (the code panics), although
    [update] does nothing and returns. *)
Theorem C72_needs_a_parameter :
  forall (O E : Type) (var_op : O) (inj : opt_op -> O) (shape_op addn_op : O)
    (compute : O -> list (opin (arr R)) -> cout (arr R) E) (debug : bool)
    (opt : optimizer) (e : env (arr R)) (c : context O) (feeder : list (ph_key * arr R)) (fuel : nat),
  get_update_op var_op inj shape_op addn_op opt e c [] [] = None /\
  update var_op inj compute debug (S fuel) opt e c [] [] feeder = Ok (c, e).
Proof. intros. split; [reflexivity|]. destruct e. reflexivity. Qed.
Print Assumptions C72_needs_a_parameter.

(** The order of the requested tensors decides what they show. For y = w1 * w2 and
    the update of w1 and w2: requested before the update, y is computed from the
    updated parameters; requested after it, from the parameters before the call. *)
Theorem C72_requested_before_sees_old_refuted :
  forall (powf : R -> R -> R) (lr w1 w2 : R),
  exists (c2 : context wop) (u : nat) oc oc',
    get_update_op WVar WOpt WShape WAddN (SGD lr) (w_env w1 w2) w_ctx [0; 1]%nat [8; 9]%nat = Some (c2, u) /\
    eval a_shape (w_compute powf) false (c_graph c2) [] 100 [2; u]%nat (array_list (w_env w1 w2)) = Ok oc /\
    eval a_shape (w_compute powf) false (c_graph c2) [] 100 [u; 2]%nat (array_list (w_env w1 w2)) = Ok oc' /\
    oc_results oc = [inl (Arr [] [(w1 - lr * (w2 - lr * w1)) * (w2 - lr * w1)]); inl (Arr [] [0])] /\
    oc_results oc' = [inl (Arr [] [0]); inl (Arr [] [w1 * w2])] /\
    oc_env oc = [Arr [] [w1 - lr * (w2 - lr * w1)]; Arr [] [w2 - lr * w1]] /\ oc_env oc' = oc_env oc.
Proof.
  intros. eexists _, _, _, _.
  split; [cbv -[Rplus Rmult Rminus Ropp Rinv IZR INR]; reflexivity|].
  split; [cbv -[Rplus Rmult Rminus Ropp Rinv IZR INR]; reflexivity|].
  split; [cbv -[Rplus Rmult Rminus Ropp Rinv IZR INR]; reflexivity|].
  cbn [oc_results oc_env].
  replace (0 + 0) with 0 by ring.
  replace (1 * (w2 - lr * (1 * w1))) with (w2 - lr * w1) by ring. replace (1 * w1) with w1 by ring.
  repeat split; reflexivity.
Qed.
Print Assumptions C72_requested_before_sees_old_refuted.

(** The product twice as gradient, requested before the update; one of its factors
    requested after it. *)
Example C72_hypotheses_met :
  exists c2 u oc, get_update_op WVar WOpt WShape WAddN (SGD (1/2)) w_start w_ctx [0; 1]%nat [2; 2]%nat = Some (c2, u) /\
    eval a_shape (w_compute Rpower) false (c_graph c2) [] 100 [2; u; 7]%nat (array_list w_start) = Ok oc /\
    oc_results oc = [inl (Arr [] [3 * 2]); inl (Arr [] [0]); inl (Arr [] [1 * 3])] /\
    oc_env oc = [Arr [] [3 - 1/2 * (3 * 2)]; Arr [] [2 - 1/2 * (3 * 2)]] /\
    updatable (SGD (1/2)) w_start (c_graph w_ctx) [0; 1]%nat [2; 2]%nat /\ good w_ctx /\ acyclic (c_graph w_ctx) /\
    readers (c_graph w_ctx) [2]%nat /\ readers (c_graph w_ctx) [7]%nat /\
    (forall k gr, nth_error [2; 2]%nat k = Some gr -> sees_old (SGD (1/2)) w_start (c_graph w_ctx) [0; 1]%nat [2; 2]%nat [7]%nat (S k) gr) /\
    sees_old (SGD (1/2)) w_start (c_graph w_ctx) [0; 1]%nat [2; 2]%nat [7]%nat 0 2.
Proof.
  eexists _, _, _.
  split; [cbv -[Rplus Rmult Rminus Ropp Rdiv Rinv IZR INR]; reflexivity|].
  split; [cbv -[Rplus Rmult Rminus Ropp Rdiv Rinv IZR INR]; reflexivity|].
  cbn [oc_results oc_env]. replace (0 + 0) with 0 by ring. split; [reflexivity|]. split; [reflexivity|].
  assert (H2 : forall gr, In gr [2; 2]%nat -> gr = 2%nat) by (intros gr [<-|[<-|[]]]; reflexivity).
  assert (Hop : forall v x, operand (SGD (1/2)) w_start v x -> x = v).
  { intros v x [->|(sids & Hs & Hi)]; auto. inversion Hs; subst. destruct Hi. }
  assert (Hv : forall p v, var_tensor (c_graph w_ctx) p v -> p = v /\ (v < 2)%nat).
  { intros p v (n & Hn & _ & Hv).
    do 10 (destruct p as [|p]; [vm_compute in Hn; injection Hn as <-; cbn in Hv; try discriminate; injection Hv as <-; auto|]).
    vm_compute in Hn. destruct p; discriminate. }
  assert (Hset : forall a t, (t = 2)%nat -> sees_old (SGD (1/2)) w_start (c_graph w_ctx) [0; 1]%nat [2; 2]%nat [7]%nat a t).
  { intros a t -> l p v j x _ Hp _ _ Hd _. left. exists l, 2%nat. split; [lia|]. split; [|exact Hd].
    destruct l as [|[|l]]; [reflexivity|reflexivity|destruct l; discriminate]. }
  assert (Hread : forall t, (t < 10)%nat -> readers (c_graph w_ctx) [t]).
  { intros t Ht. split; [intros t' [<-|[]]; change (length (c_graph w_ctx)) with 10%nat; exact Ht|].
    intros t' i x _ _ (n & p & (Hn & _) & Hi). exact (w_plain i n p x Hn Hi). }
  split; [|split; [exact w_good|split; [exact w_acyclic|split; [apply Hread; lia|split; [apply Hread; lia|split]]]]].
  - split.
    + intros p [<-|[<-|[]]]; [exists 0%nat | exists 1%nat]; (eexists; split; [vm_compute; reflexivity|]; split; reflexivity).
    + intros gr Hgr. rewrite (H2 gr Hgr). vm_compute. lia.
    + intros gr i x _ _ (n & p & (Hn & _) & Hi). exact (w_plain i n p x Hn Hi).
    + intros k l p q v w x Hk Hl Hp Hq Hx Hy. apply Hop in Hx. apply Hop in Hy. apply Hv in Hp. apply Hv in Hq.
      destruct k as [|[|[|k]]], l as [|[|[|l]]]; try discriminate; auto; cbn in Hk, Hl; injection Hk as <-; injection Hl as <-; lia.
    + intros p v sids _ _ H. inversion H; subst. constructor; [intros []|constructor].
    + intros gr p v x Hgr _ _ _ Hx. rewrite (H2 gr Hgr) in Hx. apply Hv in Hx. lia.
  - intros k gr Hk. apply Hset. apply H2. eapply nth_error_In; eauto.
  - apply Hset. reflexivity.
Qed.
