(** Property C61: hooks, [map] and [assign]. *)
From Coq Require Import String List Arith ZArith Bool Relations Lia.
Import ListNotations.
From Verif Require Import Graph_Model Eval_Model Eval_Spec Eval_Proofs Eval_Proofs2 Eval_Update Graph_Proofs
  Depends_Proofs Grad_Model Grad_Spec Grad_Path_Proofs Grad_Proofs Grad_Final Grad_Examples Array_Model Array_Proofs Broadcast_Spec Arith_Proofs
  Hook_Model Hook_Proofs P_Eval P_Grad.

(** ** C61: hooks observe, map and assign *)

(** A tensor made by [register_hook] has the value of its operand, or its error,
    in every graph grown from there. *)
Theorem C61_hook_value :
  forall (H V O E : Type) (shape_of : V -> list nat) (assign_to : V -> V -> option V) (empty : V)
    (compute : O -> list (opin V) -> cout V E) (debug : bool) (feeds : list (ph_key * V)) (env : list V)
    (g g' more : graph (hop H V O)) (x t : nat) (h : H),
  (forall i n, nth_error (g' ++ more) i = Some n -> n_var n <> None -> n_ph n = None) ->
  register_hook g x h = Some (g', t) ->
  forall r : V + E,
    tensor_value shape_of (hop_compute assign_to empty compute) debug (g' ++ more) feeds env t r <->
    tensor_value shape_of (hop_compute assign_to empty compute) debug (g' ++ more) feeds env x r.
Proof.
  intros H V O E shape_of assign_to empty compute debug feeds env g g' more x t h Hvp B r.
  apply unary_built in B. destruct B as (Ht & n & Hg & (Hn & Hp & Hv) & Ho & Hi & _).
  assert (Hop : op_node (g' ++ more) t n).
  { split; [|split; assumption]. rewrite nth_error_app1; [exact Hn|]. apply nth_error_Some. congruence. }
  destruct (applies_value shape_of assign_to empty compute debug (g' ++ more) feeds Hvp env t x n (fun v => v) Hop Hi) as (A & C).
  - intros b v P. rewrite Ho. cbn. rewrite P. reflexivity.
  - destruct r as [w|e]; [|apply C]. rewrite A. split; [intros (v & T & ->); exact T|intros T; eauto].
Qed.
Print Assumptions C61_hook_value.

(** An evaluation calls every hook whose tensor is needed, once, unless
    something it depends on failed, and no other hook. If the hook's tensor was
    requested the hook saw the returned array; if no variable it depends on was
    overwritten before, it saw the value of the operand. *)
Theorem C61_hook_calls :
  forall (H V O E : Type) (shape_of : V -> list nat) (assign_to : V -> V -> option V) (empty : V)
    (compute : O -> list (opin V) -> cout V E) (debug : bool) (feeds : list (ph_key * V)) (env : list V)
    (g : graph (hop H V O)) (targets : list nat) (fuel : nat) (oc : @outcome V E),
  (forall i n, nth_error g i = Some n -> n_var n <> None -> n_ph n = None) ->
  wf_graph g -> in_range g targets ->
  eval shape_of (hop_compute assign_to empty compute) debug g feeds fuel targets env = Ok oc ->
  NoDup (map (fun c => fst (fst c)) (hook_calls g (oc_log oc))) /\
  forall t x h, is_hook g t x h ->
    ((exists v, In (t, h, v) (hook_calls g (oc_log oc))) <->
     needed g targets t /\
     ~ exists j e, clos_trans nat (reads_from g) t j /\ raised (hop_compute assign_to empty compute) g (oc_log oc) j e) /\
    (forall k v, nth_error targets k = Some t -> nth_error (oc_results oc) k = Some (inl v) ->
       In (t, h, v) (hook_calls g (oc_log oc))) /\
    (comes_first g targets t -> forall v, In (t, h, v) (hook_calls g (oc_log oc)) ->
       tensor_value shape_of (hop_compute assign_to empty compute) debug g feeds env x (inl v)).
Proof.
  intros H V O E shape_of assign_to empty compute debug feeds env g targets fuel oc Hvp Hwf Hr He.
  set (hc := hop_compute assign_to empty compute) in *.
  destruct (C02_once_in_order_needed _ _ _ shape_of hc debug g feeds targets env fuel oc Hwf Hr He) as (Nd & Need & _).
  destruct (C04_failures_propagate_exactly _ _ _ shape_of hc debug g feeds targets env fuel oc Hwf Hr He) as (_ & Sk).
  split; [apply calls_nodup; exact Nd|]. intros t x h Hk.
  assert (Ran_call : forall xs, In (Ran t xs) (oc_log oc) -> exists b v, xs = [b] /\ plain_input b = Some v /\ In (t, h, v) (hook_calls g (oc_log oc))).
  { intros xs I. destruct (hook_ran shape_of assign_to empty compute debug g feeds targets env fuel oc t x h xs Hwf Hr He Hk I) as (b & v & -> & P & _).
    exists b, v. split; [reflexivity|]. split; [exact P|]. destruct Hk as (n & (Hn & _) & Ho & _).
    apply in_calls. exists b, [], n. auto. }
  split; [|split].
  - split.
    + intros (v & I). apply in_calls in I. destruct I as (b & xs & n & I & _). split.
      * apply Need. apply in_map_iff. exists (Ran t (b :: xs)). auto.
      * intros B. assert (S : In (Skipped t) (oc_log oc)).
        { apply Sk. split; [apply Need; apply in_map_iff; exists (Ran t (b :: xs)); auto|exact B]. }
        pose proof (nodup_event _ _ _ Nd I S eq_refl). discriminate.
    + intros (N & B). apply Need in N. apply event_of in N. destruct N as [S|(xs & I)].
      * exfalso. apply B. apply Sk in S. exact (proj2 S).
      * destruct (Ran_call xs I) as (b & v & _ & _ & C). eauto.
  - intros k v Ht Hv. assert (Hc : computed g t) by (destruct Hk as (n & Hn & _); exists n; exact Hn).
    destruct (eval_ran shape_of hc debug g feeds targets env fuel oc t k v Hwf Hr He Ht Hv Hc) as (xs & I).
    destruct (hook_ran shape_of assign_to empty compute debug g feeds targets env fuel oc t x h xs Hwf Hr He Hk I) as (b & w & -> & P & s & _ & Tr & Ss).
    destruct (Ran_call [b] I) as (b' & w' & Q & P' & C). injection Q as <-. rewrite P in P'. injection P' as <-.
    assert (w = v); [|subst; exact C]. assert (T : target_result shape_of g feeds s (oc_env oc) t (inl v)).
    { clear - Tr Ht Hv. revert k Ht Hv. induction Tr as [|a c l1 l2 T Tr IH]; intros [|k] Ht Hv; try discriminate; cbn in Ht, Hv.
      - injection Ht as ->. injection Hv as ->. exact T.
      - eapply IH; eauto. }
    destruct Hc as (n & Hn & Hp & Hvv). inversion T as [n' vid v' A B|n' v' A B (nm & ? & ? & ? & ? & Q & _)|n' y ys A B|]; subst; try congruence.
  - intros Hf v I. apply in_calls in I. destruct I as (b & xs & n & I & Hn & Ho & P).
    destruct Hk as (n' & Hn' & Ho' & Hi). assert (n' = n) by (destruct Hn'; congruence). subst n'.
    destruct (eval_update shape_of hc debug g feeds targets env fuel oc t n (b :: xs) Hwf Hr He Hn' Hf I) as (A & _).
    rewrite Hi in A. inversion A as [|? ? ? ? Ab]; subst. apply (read_tensor shape_of assign_to empty compute debug g feeds Hvp). eauto.
Qed.
Print Assumptions C61_hook_calls.

(** [map(x, f)] is [f] of [x]'s value. *)
Theorem C61_map_value :
  forall (H V O E : Type) (shape_of : V -> list nat) (assign_to : V -> V -> option V) (empty : V)
    (compute : O -> list (opin V) -> cout V E) (debug : bool) (feeds : list (ph_key * V)) (env : list V)
    (g g' more : graph (hop H V O)) (x t : nat) (f : V -> V),
  (forall i n, nth_error (g' ++ more) i = Some n -> n_var n <> None -> n_ph n = None) ->
  map_tensor g x f = Some (g', t) ->
  forall v : V,
    tensor_value shape_of (hop_compute assign_to empty compute) debug (g' ++ more) feeds env x (inl v) ->
    tensor_value shape_of (hop_compute assign_to empty compute) debug (g' ++ more) feeds env t (inl (f v)).
Proof.
  intros H V O E shape_of assign_to empty compute debug feeds env g g' more x t f Hvp B v T.
  apply unary_built in B. destruct B as (Ht & n & Hg & (Hn & Hp & Hv) & Ho & Hi & _).
  assert (Hop : op_node (g' ++ more) t n).
  { split; [|split; assumption]. rewrite nth_error_app1; [exact Hn|]. apply nth_error_Some. congruence. }
  destruct (applies_value shape_of assign_to empty compute debug (g' ++ more) feeds Hvp env t x n f Hop Hi) as (A & C).
  - intros b w P. rewrite Ho. cbn. rewrite P. reflexivity.
  - apply A. eauto.
Qed.
Print Assumptions C61_map_value.

(** [assign(x, y)]: if it is requested, is the only needed tensor that overwrites
    the variable of [x], and [y] was computed before any overwriting, then the
    variable ends up assigned with [y]'s value from before the evaluation and the
    returned array is the empty one; or [y] failed and the variable is
    unchanged. *)
Theorem C61_assign :
  forall (H V O E : Type) (shape_of : V -> list nat) (assign_to : V -> V -> option V) (empty : V)
    (compute : O -> list (opin V) -> cout V E) (debug : bool) (feeds : list (ph_key * V)) (env : list V)
    (g g' more : graph (hop H V O)) (x y t vid k : nat) (nx : node (hop H V O)) (targets : list nat) (fuel : nat) (oc : @outcome V E),
  assign g x y = Some (g', t) -> nth_error (g' ++ more) x = Some nx -> n_var nx = Some vid ->
  (forall i n, nth_error (g' ++ more) i = Some n -> n_var n <> None -> n_ph n = None) ->
  wf_graph (g' ++ more) -> in_range (g' ++ more) targets ->
  comes_first (g' ++ more) targets t -> (forall u, needed (g' ++ more) targets u -> changes (g' ++ more) u vid -> u = t) ->
  eval shape_of (hop_compute assign_to empty compute) debug (g' ++ more) feeds fuel targets env = Ok oc ->
  nth_error targets k = Some t ->
  (exists old v new, nth_error env vid = Some old /\
     tensor_value shape_of (hop_compute assign_to empty compute) debug (g' ++ more) feeds env y (inl v) /\
     assign_to old v = Some new /\ nth_error (oc_env oc) vid = Some new /\
     nth_error (oc_results oc) k = Some (inl empty)) \/
  (exists e, nth_error (oc_results oc) k = Some (inr e) /\ nth_error (oc_env oc) vid = nth_error env vid).
Proof.
  intros H V O E shape_of assign_to empty compute debug feeds env g g' more x y t vid k nx targets fuel oc
    B Hx Hvid Hvp Hwf Hr Hf Honly He Ht. set (hc := hop_compute assign_to empty compute) in *. set (G := g' ++ more) in *.
  apply assign_built in B. destruct B as (_ & n & _ & (Hn & Hp & Hv) & Ho & Hi).
  assert (Hop : op_node G t n).
  { split; [|split; assumption]. unfold G. rewrite nth_error_app1; [exact Hn|]. apply nth_error_Some. congruence. }
  assert (Hph : n_ph nx = None) by (apply (Hvp x); congruence).
  assert (Hc : computed G t) by (exists n; exact Hop).
  destruct (C02_once_in_order_needed _ _ _ shape_of hc debug G feeds targets env fuel oc Hwf Hr He) as (Nd & Need & _).
  destruct (C02_sequential_execution _ _ _ shape_of hc debug G feeds targets env fuel oc Hwf Hr He) as (s & Ex & Tr).
  assert (Tk : exists r, nth_error (oc_results oc) k = Some r /\ target_result shape_of G feeds s (oc_env oc) t r).
  { clear - Tr Ht. revert k Ht. induction Tr as [|a c l1 l2 T Tr IH]; intros [|k] Ht; try discriminate; cbn in Ht |- *.
    - injection Ht as ->. eauto.
    - apply IH; exact Ht. }
  destruct Tk as (r & Hrk & T).
  assert (In t (map event_id (oc_log oc))) as I.
  { apply Need. split; [exact Hc|]. exists t. split; [eapply nth_error_In; exact Ht|apply rt_refl]. }
  apply event_of in I. destruct I as [Sk|(xs & I)].
  - right. destruct r as [v|e].
    + exfalso. destruct (eval_ran shape_of hc debug G feeds targets env fuel oc t k v Hwf Hr He Ht Hrk Hc) as (xs & I).
      pose proof (nodup_event _ _ _ Nd Sk I eq_refl). discriminate.
    + exists e. split; [exact Hrk|].
      destruct (C06_variables _ _ _ shape_of hc debug G feeds targets env fuel oc Hwf Hr He) as (L & Ch & _).
      assert (Hnr : forall u, In u (map event_id (oc_log oc)) -> (exists xs, In (Ran u xs) (oc_log oc)) -> ~ changes G u vid).
      { intros u Iu (xs & R) C. assert (u = t) by (apply Honly; [apply Need; exact Iu|exact C]). subst u.
        pose proof (nodup_event _ _ _ Nd Sk R eq_refl). discriminate. }
      clear - Ex Hnr. assert (G0 : forall u xs, In (Ran u xs) (oc_log oc) -> ~ changes G u vid).
      { intros u xs R. apply Hnr; [apply in_map_iff; exists (Ran u xs); auto|eauto]. }
      clear Hnr. revert G0. generalize dependent (oc_env oc). generalize dependent (oc_log oc). intros log env' Ex.
      induction Ex as [|log s env1 i n ys ws os status env2 EX IH Hs Hn Hrd Hcm Hd Hu|log s env1 i n pre inc post e EX IH Hs Hn Hi Hpre Hfl]; intros N.
      * reflexivity.
      * rewrite <- IH by (intros u xs R; apply (N u xs); apply in_or_app; auto).
        assert (Nc : ~ changes G i vid) by (apply (N i ys); apply in_or_app; right; left; reflexivity).
        clear - Hu Nc Hn. induction Hu as [|p v ws vid' e1 e2 e3 Hip Hl Hup Hu IH|p v ws e1 e2 Hno Hu IH]; auto.
        rewrite IH, Hup. destruct (vid =? vid') eqn:Q; auto. apply Nat.eqb_eq in Q. subst vid'. exfalso. apply Nc. exists n, p. auto.
      * apply IH. intros u xs R. apply (N u xs). apply in_or_app. auto.
  - left. destruct (eval_update shape_of hc debug G feeds targets env fuel oc t n xs Hwf Hr He Hop Hf I) as (A & Up).
    rewrite Hi in A. inversion A as [|? bx ? l2 Ax A2]; subst. inversion A2 as [|? by_ ? l3 Ay A3]; subst. inversion A3; subst.
    inversion Ax as [inc0 m w M1 M2|inc0 m vid' w M1 M2 M3 M4|inc0 m ys w M1 M2 M3]; subst; cbn [in_id in_mut in_sel] in *.
    + exfalso. assert (m = nx) by congruence. subst m. destruct M2 as (nm & ? & ? & ? & ? & Q & _). congruence.
    + assert (m = nx) by congruence. subst m. assert (vid' = vid) by congruence. subst vid'.
      destruct (not_mutable shape_of assign_to empty compute debug G feeds env y by_ Ay) as (v & Pv).
      destruct (ran_spec shape_of assign_to empty compute debug G feeds env _ _ _ t _ Ex I) as (n' & s1 & env1 & ws & ys & st & Hop' & _ & Cm & Sv).
      assert (n' = n) by (destruct Hop', Hop; congruence). subst n'. pose proof Cm as Cm0. rewrite Ho in Cm. cbn in Cm. rewrite Pv in Cm.
      destruct (assign_to w v) as [new|] eqn:Ea; [|discriminate].
      assert (ws = [(0, new)] /\ ys = [empty] /\ st = None) as (-> & -> & ->) by (injection Cm; auto).
      exists w, v, new. split; [exact M4|]. split; [apply (read_tensor shape_of assign_to empty compute debug G feeds Hvp); eauto|].
      split; [exact Ea|]. split.
      * set (env2 := map (fun q => if (fst q =? vid)%nat then new else snd q) (combine (seq 0 (length env)) env)).
        assert (N2 : forall j, nth_error env2 j = if (j =? vid)%nat then option_map (fun _ => new) (nth_error env j) else nth_error env j).
        { intros j. unfold env2. assert (Q : forall l a j, nth_error (map (fun q => if (fst q =? vid)%nat then new else snd q) (combine (seq a (length l)) l)) j =
              if (a + j =? vid)%nat then option_map (fun _ => new) (nth_error l j) else nth_error l j).
          { clear. induction l as [|c l IH]; intros a j; cbn [length seq combine map].
            - destruct j; cbn; destruct (_ =? vid)%nat; reflexivity.
            - destruct j as [|j]; cbn [nth_error]; [rewrite Nat.add_0_r; cbn [fst snd option_map]; destruct (a =? vid)%nat; reflexivity|].
              rewrite IH. replace (S a + j) with (a + S j) by lia. reflexivity. }
          rewrite Q. reflexivity. }
        assert (Hup : updated G n [(0, new)] env env2).
        { apply (upd_write G n 0 new [] vid env env2 env2); [|unfold env2; rewrite map_length, combine_length, seq_length; lia|exact N2|apply upd_nil].
          exists (Incoming x true 0), nx. rewrite Hi. repeat split; assumption. }
        rewrite (Up _ _ _ Cm0 env2 Hup vid Honly). rewrite N2, Nat.eqb_refl, M4. reflexivity.
      * rewrite Hrk. f_equal. destruct Hop as (Q1 & Q2 & Q3).
        inversion T as [n' vid' v' T1 T2|n' v' T1 T2 (nm & ? & ? & ? & ? & Q & _)|n' u us T1 T2|n' e T1 T2]; subst; try congruence.
    + destruct M1 as (M1 & M1' & M1''). assert (m = nx) by congruence. subst m. congruence.
Qed.
Print Assumptions C61_assign.

(** ndarray's assignment: it succeeds if the right operand can be broadcast to
    the left one's shape (dimensions counted from the end are equal or 1); the
    result has the left one's shape and the right one's elements. *)
Lemma dims_ok_spec : forall a b, dims_ok a b = true <->
  length a = length b /\ forall k, k < length a -> nth k a 1 = nth k b 1 \/ nth k a 1 = 1.
Proof.
  induction a as [|x a IH]; intros [|y b]; cbn [dims_ok length].
  - split; [intros _; split; [reflexivity|intros k Hk; lia]|reflexivity].
  - split; [discriminate|intros [Q _]; discriminate].
  - split; [discriminate|intros [Q _]; discriminate].
  - rewrite andb_true_iff, orb_true_iff, !Nat.eqb_eq, IH. split.
    + intros (A & L & B). split; [congruence|]. intros [|k] Hk; cbn [nth]; [exact A|apply B; lia].
    + intros (L & B). split; [exact (B 0 ltac:(lia))|]. split; [congruence|]. intros k Hk. exact (B (S k) ltac:(lia)).
Qed.
Lemma can_broadcast_spec from to : can_broadcast from to = true <->
  length from <= length to /\ forall k, k < length from -> from_end from k 1 = from_end to k 1 \/ from_end from k 1 = 1.
Proof.
  unfold can_broadcast. rewrite andb_true_iff, Nat.leb_le, dims_ok_spec, skipn_length. split.
  - intros (L & _ & B). split; [exact L|]. intros k Hk. specialize (B (length from - S k) ltac:(lia)).
    rewrite skipn_nth in B. rewrite !from_end_nth by lia.
    replace (length to - length from + (length from - S k)) with (length to - S k) in B by lia. exact B.
  - intros (L & B). split; [exact L|]. split; [lia|]. intros k Hk. specialize (B (length from - S k) ltac:(lia)).
    rewrite skipn_nth. rewrite !from_end_nth in B by lia.
    replace (length from - S (length from - S k)) with k in B by lia.
    replace (length to - S (length from - S k)) with (length to - length from + k) in B by lia. exact B.
Qed.
Theorem C61_assign_arrays :
  forall (A : Type) (d : A) (x y : arr A), wf x -> wf y ->
  (a_shape y = a_shape x -> assign_arr d x y = Some y) /\
  ((exists z, assign_arr d x y = Some z) <->
     length (a_shape y) <= length (a_shape x) /\
     forall k, k < length (a_shape y) ->
       from_end (a_shape y) k 1 = from_end (a_shape x) k 1 \/ from_end (a_shape y) k 1 = 1) /\
  (forall z, assign_arr d x y = Some z ->
     wf z /\ a_shape z = a_shape x /\
     forall i j, in_bounds (a_shape x) i -> refers (a_shape y) i j -> aget d z i = aget d y j).
Proof.
  intros A d x y Wx Wy. unfold assign_arr, zip_mut. split; [|split].
  - intros Q. rewrite Q, can_broadcast_refl. f_equal. rewrite <- Q. transitivity (tab (a_shape y) (aget d y)); [|apply tab_aget; exact Wy].
    apply tab_ext. intros i Hi. rewrite bc_idx_self by exact Hi. reflexivity.
  - rewrite <- can_broadcast_spec. destruct (can_broadcast (a_shape y) (a_shape x)); split; eauto.
    + intros (z & Q). discriminate.
    + discriminate.
  - destruct (can_broadcast (a_shape y) (a_shape x)) eqn:Eb; [|discriminate]. intros z Q. injection Q as <-.
    split; [apply tab_wf|]. split; [reflexivity|]. intros i j Hi Hj. rewrite aget_tab by exact Hi. f_equal. symmetry.
    apply refers_bc; [|exact Hj]. apply can_broadcast_spec in Eb. assert (Hl : length i = length (a_shape x)) by (clear - Hi; induction Hi; cbn; congruence). rewrite Hl. exact (proj1 Eb).
Qed.
Print Assumptions C61_assign_arrays.

(** *** Gradients through [map] *)

(** In debug builds, differentiating through a [map] panics. *)
Lemma logged_rules {O S T : Type} (g : graph O) opgrad (addn : list T -> S -> option (T * S)) pop fuel :
  forall st st', back_loop g opgrad addn pop true fuel st = Ok st' ->
  (forall z, In z (gs_log st) -> exists gy s gxs s', opgrad z gy s = Some (gxs, s') /\ gxs <> []) ->
  forall z, In z (gs_log st') -> exists gy s gxs s', opgrad z gy s = Some (gxs, s') /\ gxs <> [].
Proof.
  induction fuel as [|fuel IH]; intros st st' B N; [discriminate|]. cbn [back_loop] in B.
  destruct (back_step g opgrad addn pop true st) as [[st1|]| |] eqn:Es; try discriminate; [|injection B as <-; exact N].
  apply (IH st1 st' B). clear IH B. unfold back_step in Es.
  destruct (pop (gs_heap st)) as [[y heap]|]; [|discriminate]. destruct (nth_error g y) as [n|]; [|discriminate].
  destruct (gs_map st y) as [x|]; [|discriminate]. destruct (gradient addn (grads x) (gs_s st)) as [[[gy l'] s1]|]; [|discriminate].
  destruct (opgrad y gy s1) as [[gxs s2]|] eqn:Eg; [|discriminate].
  destruct (true && _) eqn:Ed; [discriminate|]. destruct (register _ _ _ _ _) as [[m' heap']|]; [|discriminate].
  injection Es as <-. cbn [gs_log]. intros z [<-|Hz]; [|apply N; exact Hz]. exists gy, s1, gxs, s2. split; [exact Eg|].
  intros ->. cbn in Ed. rewrite orb_true_r in Ed. discriminate.
Qed.
Theorem C61_map_debug_panics :
  forall (H V O S T M : Type) (g : graph (hop H V O)) (zero one_val : M) (add : M -> M -> M) (vjp : nat -> nat -> M -> M)
    (good : S -> Prop) (valid : nat -> S -> T -> Prop) (den : S -> T -> M) (ext : S -> S -> Prop)
    (passes : nat -> nat -> Prop) (opgrad : O -> nat -> T -> S -> option (list (option T) * S))
    (addn : list T -> S -> option (T * S)) (one : S -> option (T * S))
    (zeros_like : nat -> S -> option (T * S)) (pop : list nat -> option (nat * list nat))
    (ys xs : list nat) (fuel : nat) (gys : option (list T)) (s : S) (seeds : list M) (m : nat) (n : node (hop H V O)) (f : V -> V),
  problem g zero one_val add vjp good valid den ext passes (hop_opgrad g opgrad) addn one zeros_like pop ys ->
  good s -> seed_values valid den one_val ys gys s seeds ->
  2 * (length ys + list_sum (map (fun n => length (get_backprop_inputs n)) g)) < fuel -> length g < fuel ->
  nth_error g m = Some n -> n_op n = HMap f -> n_inputs n <> [] ->
  leads_to g xs m -> live g passes ys m ->
  grad_with_default g (hop_opgrad g opgrad) addn one zeros_like pop true fuel ys xs gys s = Panic.
Proof.
  intros H V O S T M g zero one_val add vjp good valid den ext passes opgrad addn one zeros_like pop
    ys xs fuel gys s seeds m n f Pb Hg Hs Hf1 Hf2 Hm Ho Hin Hl Hv.
  destruct (grad_with_default g (hop_opgrad g opgrad) addn one zeros_like pop true fuel ys xs gys s) as [[[l s'] log]| |] eqn:Eg; auto.
  - exfalso. destruct (C13_rules_called_once_in_order _ _ _ _ _ _ _ _ _ _ _ _ _ _ _ _ _ _ _ true ys xs fuel gys s s' seeds l log Pb Hg Hs Eg) as (_ & _ & L & _).
    assert (Il : In m log).
    { apply L. right. split; [|split; assumption]. intros (n' & Hn' & Q). congruence. }
    unfold grad_with_default, compute_gradients in Eg. destruct (no_outputs ys); [discriminate|].
    destruct (init_path_map g fuel ys xs) as [pm| |]; try discriminate.
    destruct (match gys with Some l0 => _ | None => _ end) as [[l0 s1]|]; [|discriminate].
    destruct (push_seeds ys l0 (gm_init pm)) as [m0|]; [|discriminate].
    destruct (back_loop _ _ _ _ _ _ _) as [st| |] eqn:Eb; try discriminate.
    destruct (extract_all _ _ _ _ _) as [[l1 s2]|]; [|discriminate]. assert (log = gs_log st) by congruence. subst log.
    destruct (logged_rules g _ _ _ _ _ _ Eb ltac:(intros z []) m Il) as (gy & s3 & gxs & s4 & Q & N).
    unfold hop_opgrad in Q. rewrite Hm, Ho in Q. injection Q as <- <-. apply N. reflexivity.
  - exfalso. revert Eg. eapply C13_terminates; eauto.
Qed.
Print Assumptions C61_map_debug_panics.

(** Otherwise gradients are sums over the paths that avoid the [map]. *)
Theorem C61_map_left_out :
  forall (H V O S T M : Type) (g : graph (hop H V O)) (zero one_val : M) (add : M -> M -> M) (vjp : nat -> nat -> M -> M)
    (good : S -> Prop) (valid : nat -> S -> T -> Prop) (den : S -> T -> M) (ext : S -> S -> Prop)
    (passes : nat -> nat -> Prop) (opgrad : O -> nat -> T -> S -> option (list (option T) * S))
    (addn : list T -> S -> option (T * S)) (one : S -> option (T * S))
    (zeros_like : nat -> S -> option (T * S)) (pop : list nat -> option (nat * list nat)) (debug : bool)
    (ys xs : list nat) (fuel : nat) (gys : option (list T)) (s s' : S) (seeds : list M) (m : nat) (n : node (hop H V O)) (f : V -> V)
    (gm : T) (l : list (T * bool)) (log : list nat),
  problem g zero one_val add vjp good valid den ext passes (hop_opgrad g opgrad) addn one zeros_like pop ys ->
  good s -> seed_values valid den one_val ys gys s seeds ->
  NoDup xs -> (forall x, In x xs -> accum_once g ys x) ->
  nth_error g m = Some n -> n_op n = HMap f -> valid m s gm ->
  grad_with_default g (hop_opgrad g opgrad) addn one zeros_like pop debug fuel ys xs gys s = Ok (l, s', log) ->
  Forall2 (fun x r => is_path_sum g zero add vjp (fun y p => passes y p /\ y <> m) ys seeds x (den s' (fst r))) xs l.
Proof.
  intros H V O S T M g zero one_val add vjp good valid den ext passes opgrad addn one zeros_like pop debug
    ys xs fuel gys s s' seeds m n f gm l log Pb Hg Hs Hn Ha Hm Ho Hv Eg.
  pose proof (C11_gradient_is_path_sum _ _ _ _ _ _ _ _ _ _ _ _ _ _ _ _ _ _ _ debug ys xs fuel gys s s' seeds l log Pb Hg Hs Hn Ha Eg) as F.
  assert (Np : forall p, ~ passes m p).
  { intros p P. pose proof (opgrad_ok _ _ _ _ _ _ _ _ _ _ _ (pb_den _ _ _ _ _ _ _ _ _ _ _ _ _ _ _ _ Pb) m gm s [] s Hg Hv) as Q.
    destruct Q as (_ & _ & Q); [unfold hop_opgrad; rewrite Hm, Ho; reflexivity|].
    destruct (proj1 (proj1 (Q p)) P) as (t & Ht). destruct p; discriminate. }
  assert (Pe : forall y es x, path g passes y es x <-> path g (fun y p => passes y p /\ y <> m) y es x).
  { intros y es x. split; induction 1 as [|y p z es x He Hok Hd Hp IH]; try constructor.
    - apply (path_cons _ _ y p z es x); auto. split; [exact Hok|]. intros ->. exact (Np p Hok).
    - apply (path_cons _ _ y p z es x); auto. exact (proj1 Hok). }
  clear - F Pe. induction F as [|x r xs l (_ & paths & N & I & Q) F IH]; constructor; auto.
  exists paths. split; [exact N|]. split; [|exact Q]. intros k es. rewrite I. split; intros (y & Hy & P); exists y; split; auto; apply Pe; exact P.
Qed.
Print Assumptions C61_map_left_out.

(** Hooks hand gradients on unchanged: when the other rules denote [vjp], the
    gradients of [grad] are sums over the paths in which a hook is the identity. *)
Definition hooked {H V O : Type} (g : graph (hop H V O)) (y : nat) : bool :=
  match nth_error g y with
  | Some n => match n_op n with HHook _ => true | _ => false end
  | None => false
  end.
Theorem C61_hook_gradient :
  forall (H V O S T M : Type) (g : graph (hop H V O)) (zero one_val : M) (add : M -> M -> M) (vjp : nat -> nat -> M -> M)
    (good : S -> Prop) (valid : nat -> S -> T -> Prop) (den : S -> T -> M) (ext : S -> S -> Prop)
    (passes : nat -> nat -> Prop) (opgrad : O -> nat -> T -> S -> option (list (option T) * S))
    (addn : list T -> S -> option (T * S)) (one : S -> option (T * S))
    (zeros_like : nat -> S -> option (T * S)) (pop : list nat -> option (nat * list nat)) (debug : bool)
    (ys xs : list nat) (fuel : nat) (gys : option (list T)) (s s' : S) (seeds : list M)
    (l : list (T * bool)) (log : list nat),
  problem g zero one_val add vjp good valid den ext passes
    (fun y gy s => if hooked g y then Some ([], s) else hop_opgrad g opgrad y gy s) addn one zeros_like pop ys ->
  (forall y x s t, hooked g y = true -> edge g y 0 x -> valid y s t -> valid x s t) ->
  good s -> seed_values valid den one_val ys gys s seeds ->
  NoDup xs -> (forall x, In x xs -> accum_once g ys x) ->
  grad_with_default g (hop_opgrad g opgrad) addn one zeros_like pop debug fuel ys xs gys s = Ok (l, s', log) ->
  Forall2 (fun x r => is_path_sum g zero add (fun y p a => if hooked g y then a else vjp y p a)
    (fun y p => if hooked g y then p = 0 else passes y p) ys seeds x (den s' (fst r))) xs l.
Proof.
  intros H V O S T M g zero one_val add vjp good valid den ext passes opgrad addn one zeros_like pop debug
    ys xs fuel gys s s' seeds l log Pb Hv Hg Hs Hn Ha Eg.
  assert (Pb' : problem g zero one_val add (fun y p a => if hooked g y then a else vjp y p a) good valid den ext
    (fun y p => if hooked g y then p = 0 else passes y p) (hop_opgrad g opgrad) addn one zeros_like pop ys).
  { destruct Pb as [P1 P2 P3 P4 P5 P6 P7]. constructor; auto. destruct P5 as [D1 D2 D3 D4 D5 D6 D7 D8 D9 D10]. constructor; auto.
    - intros y p a b. destruct (hooked g y); auto.
    - intros y p. destruct (hooked g y); auto.
    - intros y gy s0 gxs s1 G0 V0 Q. specialize (D10 y gy s0 gxs s1 G0 V0). cbn beta in D10.
      destruct (hooked g y) eqn:Eh; [|exact (D10 Q)]. clear D10. pose proof (Hv y) as Hvy. unfold hooked in Eh, Hvy. unfold hop_opgrad in Q.
      destruct (nth_error g y) as [n|]; [|discriminate]. destruct (n_op n); try discriminate. inv Q.
      split; [exact G0|]. split; [apply D6|]. intros p. split.
      + split; [intros ->; eexists; reflexivity|]. intros (t & Ht). destruct p as [|[|p]]; try discriminate. reflexivity.
      + intros t Ht. destruct p as [|[|p]]; try discriminate. inv Ht. split; [|reflexivity].
        intros x He. exact (Hvy x s1 t eq_refl He V0). }
  pose proof (C11_gradient_is_path_sum _ _ _ _ _ _ _ _ _ _ _ _ _ _ _ _ _ _ _ debug ys xs fuel gys s s' seeds l log Pb' Hg Hs Hn Ha Eg) as F.
  clear - F. induction F as [|x r xs l (_ & Q) F IH]; constructor; auto.
Qed.
Print Assumptions C61_hook_gradient.


(** So [grad] is wrong for [y = map(x, |v| 3 v) + x]: a release build returns 1,
    a debug build panics; the value is [4 x]. *)
Definition zlin_compute (o : lin) (xs : list (opin Z)) : cout Z unit :=
  CRet [] [fold_right Z.add 0%Z (map (fun p => (match fst p with Some c => c | None => 0 end * match snd p with NonVar v | RdOnly v | RdWr v => v end)%Z) (combine o xs))] None.
Definition zlin_grad (o : lin) (t : nat) (gy : Z) (s : unit) : option (list (option Z) * unit) := Some (map (option_map (Z.mul gy)) o, s).
Definition map_graph : graph (hop nat Z lin) :=
  let g := [Node (HOther []) [] 0 None None true None None (Some 0%nat)] in
  match map_tensor g 0 (fun v => 3 * v)%Z with
  | Some (g, m) =>
      match build g (append_input (append_input new_builder m false 0) 0 false 0) (HOther add2) with
      | Some (g, _) => g | None => g
      end
  | None => g
  end.
Definition zassign (x y : Z) : option Z := Some y.
Theorem C61_map_gradient_refuted :
  (forall v, exists log, eval (fun _ => []) (hop_compute zassign 0%Z zlin_compute) true map_graph [] 100 [2] [v] = Ok (Outcome [inl (4 * v)%Z] [v] log)) /\
  (exists log, grad_with_default map_graph (hop_opgrad map_graph zlin_grad) lin_addn lin_one lin_zeros (max_pop map_graph) false 100 [2] [0] None tt
     = Ok ([(1%Z, true)], tt, log)) /\
  grad_with_default map_graph (hop_opgrad map_graph zlin_grad) lin_addn lin_one lin_zeros (max_pop map_graph) true 100 [2] [0] None tt = Panic.
Proof.
  split; [|split].
  - intros v. eexists. cbv -[Z.mul Z.add]. replace (1 * (3 * v) + (1 * v + 0))%Z with (4 * v)%Z by ring. reflexivity.
  - eexists. vm_compute. reflexivity.
  - vm_compute. reflexivity.
Qed.
Print Assumptions C61_map_gradient_refuted.

(** A variable, a hooked [2 x] that is used, a hook that is not used, an
    assignment of the hooked tensor, and the map graph. *)
Definition hook_graph : graph (hop nat Z lin) :=
  let g := [Node (HOther []) [] 0 None None true None None (Some 0%nat)] in
  let add o ins g := match build g (fold_left (fun b i => append_input b i false 0) ins new_builder) o with Some (g, _) => g | None => g end in
  let g := add (HOther (mulc 2)) [0]%nat g in
  let g := add (HHook 7%nat) [1]%nat g in
  let g := add (HHook 8%nat) [1]%nat g in
  match assign g 0 2 with Some (g, _) => g | None => g end.
Example C61_hypotheses_met :
  is_hook hook_graph 2 1 7 /\ is_hook hook_graph 3 1 8 /\
  (exists oc, eval (fun _ => []) (hop_compute zassign 0%Z zlin_compute) true hook_graph [] 100 [4; 2] [5%Z] = Ok oc /\
     oc_results oc = [inl 0%Z; inl 10%Z] /\ oc_env oc = [10%Z] /\ hook_calls hook_graph (oc_log oc) = [(2, 7, 10%Z)]) /\
  problem map_graph 0%Z 1%Z Z.add
    (fun y p a => match nth_error map_graph y with Some n => match n_op n with HOther o => match nth_error o p with Some (Some c) => (a * c)%Z | _ => 0%Z end | _ => 0%Z end | None => 0%Z end)
    (fun _ : unit => True) (fun _ _ _ => True) (fun _ t => t) (fun _ _ => True)
    (fun y p => exists n o c, nth_error map_graph y = Some n /\ n_op n = HOther o /\ nth_error o p = Some (Some c))
    (hop_opgrad map_graph zlin_grad) lin_addn lin_one lin_zeros (max_pop map_graph) [2] /\
  leads_to map_graph [0] 1 /\
  assign_arr 0%Z (Arr [2; 2] [1; 2; 3; 4]%Z) (Arr [2] [5; 6]%Z) = Some (Arr [2; 2] [5; 6; 5; 6]%Z).
Proof.
  split; [eexists; split; [split; [reflexivity|split; reflexivity]|split; reflexivity]|].
  split; [eexists; split; [split; [reflexivity|split; reflexivity]|split; reflexivity]|].
  split; [eexists; split; [vm_compute; reflexivity|split; [reflexivity|split; [reflexivity|vm_compute; reflexivity]]]|].
  split; [|split].
  - constructor.
    + apply ranked_b_sound. reflexivity.
    + intros y [<-|[]]. apply diff_b_sound. reflexivity.
    + constructor; [intros [] | constructor].
    + apply max_pop_ok.
    + constructor; auto; try (intros; ring).
      * intros y p a b. destruct (nth_error map_graph y) as [n|]; [|ring]. destruct (n_op n) as [h|f| |o]; try ring.
        destruct (nth_error o p) as [[c|]|]; ring.
      * intros y p. destruct (nth_error map_graph y) as [n|]; [|ring]. destruct (n_op n) as [h|f| |o]; try ring.
        destruct (nth_error o p) as [[c|]|]; ring.
      * intros x l s t s' _ _ _ Q. inv Q. split; [exact I|]. split; [exact I|]. split; [exact I|]. rewrite map_id. reflexivity.
      * intros y gy s gxs s' _ _ Q. split; [exact I|]. split; [exact I|]. intros p. unfold hop_opgrad in Q.
        destruct (nth_error map_graph y) as [n|] eqn:En; [|discriminate].
        destruct (n_op n) as [h|f| |o] eqn:Eo.
        { exfalso. destruct y as [|[|[|y]]]; cbn in En; [injection En as <-; discriminate|injection En as <-; discriminate|injection En as <-; discriminate|destruct y; discriminate]. }
        { inv Q. split; [|intros t Ht; destruct p; discriminate]. split; [intros (n' & o & c & A & B & _); congruence|].
          intros (t & Ht). destruct p; discriminate. }
        { exfalso. destruct y as [|[|[|y]]]; cbn in En; [injection En as <-; discriminate|injection En as <-; discriminate|injection En as <-; discriminate|destruct y; discriminate]. }
        { unfold zlin_grad in Q. inv Q. rewrite nth_error_map. split.
          - split.
            + intros (n' & o' & c & A & B & C). assert (o' = o) by congruence. subst o'. rewrite C. cbn. eauto.
            + intros (t & Ht). destruct (nth_error o p) as [[c|]|] eqn:Ec; cbn in Ht; try discriminate. exists n, o, c. auto.
          - intros t Ht. split; [intros; exact I|]. destruct (nth_error o p) as [[c|]|]; cbn in Ht; inv Ht. reflexivity. }
    + intros s t s' _ Q. inv Q. repeat split.
    + intros x s t s' _ Q. inv Q. repeat split.
  - split; [apply diff_b_sound; reflexivity|]. exists 0. split; [left; reflexivity|]. exists [(1, 0)].
    apply (path_cons _ _ 1 0 0 [] 0); [|exact I|apply diff_b_sound; reflexivity|constructor].
    eexists. eexists. split; [reflexivity|]. split; reflexivity.
  - vm_compute. reflexivity.
Qed.

(** The hooked [2 x]: the gradient with respect to [x] passes the hook. *)
Example C61_hook_hypotheses_met :
  problem hook_graph 0%Z 1%Z Z.add
    (fun y p a => if hooked hook_graph y then 0%Z else match nth_error hook_graph y with Some n => match n_op n with HOther o => match nth_error o p with Some (Some c) => (a * c)%Z | _ => 0%Z end | _ => 0%Z end | None => 0%Z end)
    (fun _ : unit => True) (fun _ _ _ => True) (fun _ t => t) (fun _ _ => True)
    (fun y p => exists n o c, nth_error hook_graph y = Some n /\ n_op n = HOther o /\ nth_error o p = Some (Some c))
    (fun y gy s => if hooked hook_graph y then Some ([], s) else hop_opgrad hook_graph zlin_grad y gy s)
    lin_addn lin_one lin_zeros (max_pop hook_graph) [2] /\
  hooked hook_graph 2 = true /\ accum_once hook_graph [2] 0 /\
  exists log, grad_with_default hook_graph (hop_opgrad hook_graph zlin_grad) lin_addn lin_one lin_zeros (max_pop hook_graph) true 100 [2] [0] None tt
     = Ok ([(2%Z, true)], tt, log).
Proof.
  split; [|split; [reflexivity|split]].
  - constructor.
    + apply ranked_b_sound. reflexivity.
    + intros y [<-|[]]. apply diff_b_sound. reflexivity.
    + constructor; [intros [] | constructor].
    + apply max_pop_ok.
    + constructor; auto; try (intros; ring).
      * intros y p a b. destruct (hooked hook_graph y); [ring|]. destruct (nth_error hook_graph y) as [n|]; [|ring]. destruct (n_op n) as [h|f| |o]; try ring.
        destruct (nth_error o p) as [[c|]|]; ring.
      * intros y p. destruct (hooked hook_graph y); [ring|]. destruct (nth_error hook_graph y) as [n|]; [|ring]. destruct (n_op n) as [h|f| |o]; try ring.
        destruct (nth_error o p) as [[c|]|]; ring.
      * intros x l s t s' _ _ _ Q. inv Q. split; [exact I|]. split; [exact I|]. split; [exact I|]. rewrite map_id. reflexivity.
      * intros y gy s gxs s' _ _ Q. split; [exact I|]. split; [exact I|]. intros p. unfold hop_opgrad in Q. unfold hooked in Q |- *.
        destruct (nth_error hook_graph y) as [n|] eqn:En; [|discriminate].
        destruct (n_op n) as [h|f| |o] eqn:Eo.
        { inv Q. split; [|intros t Ht; destruct p; discriminate]. split; [intros (n' & o & c & A & B & _); congruence|].
          intros (t & Ht). destruct p; discriminate. }
        { exfalso. destruct y as [|[|[|[|[|y]]]]]; cbn in En; try (injection En as <-; discriminate). destruct y; discriminate. }
        { inv Q. split; [|intros t Ht; destruct p as [|[|[|p]]]; discriminate]. split; [intros (n' & o & c & A & B & _); congruence|].
          intros (t & Ht). destruct p as [|[|[|p]]]; discriminate. }
        { unfold zlin_grad in Q. inv Q. rewrite nth_error_map. split.
          - split.
            + intros (n' & o' & c & A & B & C). assert (o' = o) by congruence. subst o'. rewrite C. cbn. eauto.
            + intros (t & Ht). destruct (nth_error o p) as [[c|]|] eqn:Ec; cbn in Ht; try discriminate. exists n, o, c. auto.
          - intros t Ht. split; [intros; exact I|]. destruct (nth_error o p) as [[c|]|]; cbn in Ht; inv Ht. reflexivity. }
    + intros s t s' _ Q. inv Q. repeat split.
    + intros x s t s' _ Q. inv Q. repeat split.
  - left. split; [eexists; split; reflexivity|]. intros [Q|[]]; discriminate.
  - eexists. vm_compute. reflexivity.
Qed.
