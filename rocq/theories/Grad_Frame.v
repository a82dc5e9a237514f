(** Gradient construction only extends the graph; graph extension preserves
    values; [stop_gradient]; the effect of [depends_on] on gradients. *)
From Coq Require Import String List Arith ZArith Bool Permutation Lia Relations.
Import ListNotations.
From Verif Require Import Graph_Model Eval_Model Eval_Spec Eval_Proofs Graph_Proofs Eval_Proofs2 Depends_Proofs Grad_Model Grad_Spec Grad_Path_Proofs Grad_Proofs Grad_Final.

Section Frame.
  Context {O S T : Type}.
  Variable g : graph O.
  Variable ext : S -> S -> Prop.
  Hypothesis Hrefl : forall s, ext s s.
  Hypothesis Htrans : forall a b c, ext a b -> ext b c -> ext a c.
  Variable opgrad : nat -> T -> S -> option (list (option T) * S).
  Variable addn : list T -> S -> option (T * S).
  Variable one : S -> option (T * S).
  Variable zeros_like : nat -> S -> option (T * S).
  Variable pop : list nat -> option (nat * list nat).
  Variable debug : bool.
  Hypothesis Hop : forall y gy s r s', opgrad y gy s = Some (r, s') -> ext s s'.
  Hypothesis Hadd : forall l s r s', addn l s = Some (r, s') -> ext s s'.
  Hypothesis Hone : forall s r s', one s = Some (r, s') -> ext s s'.
  Hypothesis Hz : forall x s r s', zeros_like x s = Some (r, s') -> ext s s'.

  Lemma gradient_frame l s t l' s' : gradient addn l s = Some (t, l', s') -> ext s s'.
  Proof.
    unfold gradient. destruct l as [|a [|b l]]; try discriminate; [intros H; inv H; auto|].
    destruct (addn _ s) as [[t2 s2]|] eqn:Ha; [|discriminate]. intros H; inv H. eauto.
  Qed.

  Lemma step_frame st st' : back_step g opgrad addn pop debug st = Ok (Some st') -> ext (gs_s st) (gs_s st').
  Proof.
    unfold back_step. destruct (pop _) as [[y h]|]; [|discriminate].
    destruct (nth_error g y); [|discriminate]. destruct (gs_map st y); [|discriminate].
    destruct (gradient _ _ _) as [[[gy l'] s1]|] eqn:Hg; [|discriminate].
    destruct (opgrad _ _ _) as [[gxs s2]|] eqn:Ho; [|discriminate].
    destruct (debug && _); [discriminate|]. destruct (register _ _ _ _ _) as [[? ?]|]; [|discriminate].
    intros H; inv H. simpl. eapply Htrans; [eapply gradient_frame; eauto | eauto].
  Qed.

  Lemma loop_frame fuel : forall st st', back_loop g opgrad addn pop debug fuel st = Ok st' -> ext (gs_s st) (gs_s st').
  Proof.
    induction fuel as [|fuel IH]; intros st st'; [discriminate|]. simpl.
    destruct (back_step _ _ _ _ _ _) as [[st1|]| |] eqn:Hs; try discriminate.
    - intros H. eapply Htrans; [eapply step_frame; eauto | auto].
    - intros H; inv H. auto.
  Qed.

  Lemma extract_frame xs : forall m s l s', extract_all addn zeros_like xs m s = Some (l, s') -> ext s s'.
  Proof.
    induction xs as [|x xs IH]; intros m s l s' H; simpl in H; [inv H; auto|].
    destruct (extract_grad addn m x s) as [[[o m'] s1]|] eqn:Hex; [|discriminate].
    assert (He : ext s s1).
    { unfold extract_grad in Hex. destruct (m x) as [i|]; [|inv Hex; auto].
      destruct (on_path i); [|inv Hex; auto].
      destruct (gradient addn (grads i) s) as [[[? ?] ?]|] eqn:Hg; [|discriminate]. inv Hex. eapply gradient_frame; eauto. }
    destruct o as [t|].
    - destruct (extract_all _ _ _ _ _) as [[? ?]|] eqn:Ha; [|discriminate]. inv H. eauto.
    - destruct (zeros_like x s1) as [[? s2]|] eqn:Hzl; [|discriminate].
      destruct (extract_all _ _ _ _ _) as [[? ?]|] eqn:Ha; [|discriminate]. inv H. eauto.
  Qed.

  Lemma grad_frame fuel ys xs gys s l s' log :
    grad_with_default g opgrad addn one zeros_like pop debug fuel ys xs gys s = Ok (l, s', log) -> ext s s'.
  Proof.
    unfold grad_with_default, compute_gradients. destruct (no_outputs ys); [discriminate|].
    destruct (init_path_map g fuel ys xs); try discriminate.
    set (seeds := match gys with Some _ => _ | None => _ end).
    destruct seeds as [[l1 s1]|] eqn:Hseeds; [|discriminate].
    assert (He : ext s s1).
    { unfold seeds in Hseeds. destruct gys as [l0|].
      - destruct (_ =? _); [|discriminate]. inv Hseeds. auto.
      - destruct (one s) as [[t s0]|] eqn:Ho; [|discriminate]. inv Hseeds. eauto. }
    destruct (push_seeds ys l1 _) as [m|]; [|discriminate].
    destruct (back_loop _ _ _ _ _ _ _) as [st| |] eqn:Hl; try discriminate.
    destruct (extract_all _ _ _ _ _) as [[? ?]|] eqn:Hx; [|discriminate].
    intros H; inv H. apply loop_frame in Hl. apply extract_frame in Hx. simpl in Hl. eauto.
  Qed.
End Frame.

(** ** Extending a graph keeps the values of its tensors *)
Section Extend.
  Context {O V E : Type}.
  Variable shape_of : V -> list nat.
  Variable compute : O -> list (opin V) -> cout V E.
  Variable debug : bool.
  Variable feeds : list (ph_key * V).
  Variable env : list V.
  Variables (g new : graph O).

  Lemma ext_nth i n : nth_error g i = Some n -> nth_error (g ++ new) i = Some n.
  Proof. intros H. rewrite nth_error_app1; auto. apply nth_error_Some; congruence. Qed.
  Lemma ext_op_node i n : op_node g i n -> op_node (g ++ new) i n.
  Proof. intros (A & B). split; auto. apply ext_nth; auto. Qed.

  Lemma ext_value i r : value shape_of compute debug g feeds env i r ->
    value shape_of compute debug (g ++ new) feeds env i r.
  Proof.
    apply (value_ind' shape_of compute debug g feeds env
             (fun i r => value shape_of compute debug (g ++ new) feeds env i r)
             (fun inc a => arg shape_of compute debug (g ++ new) feeds env inc a)).
    - intros k n xs ws ys status Hn _ HQ Hc Hd. eapply value_run; eauto. apply ext_op_node; auto.
    - intros k n pre inc post m e Hn Hi Hpre Hm _ Hv. eapply value_fail; eauto using ext_op_node.
      intros a Ha. destruct (Hpre a Ha) as (x & Hx & Hx'). exists x. auto.
    - intros inc n v Hn Hf. eapply arg_ph; eauto using ext_nth.
    - intros inc n vid v Hn Hp Hv He. eapply arg_var; eauto using ext_nth.
    - intros inc n ys v Hn _ Hv Hs. eapply arg_op; eauto using ext_op_node.
  Qed.

  Lemma ext_tensor_value t r : tensor_value shape_of compute debug g feeds env t r ->
    tensor_value shape_of compute debug (g ++ new) feeds env t r.
  Proof.
    intros H. inversion H; subst.
    - eapply tv_var; eauto using ext_nth.
    - eapply tv_ph; eauto using ext_nth.
    - eapply tv_ok. apply ext_value; eauto.
    - eapply tv_err. apply ext_value; eauto.
  Qed.

  Hypothesis Hwf : wf_graph g.
  Lemma ext_nth_inv i n : i < length g -> nth_error (g ++ new) i = Some n -> nth_error g i = Some n.
  Proof. intros H. rewrite nth_error_app1; auto. Qed.
  Lemma ext_input i n inc : nth_error g i = Some n -> In inc (n_inputs n) -> in_id inc < length g.
  Proof. intros Hn Hi. destruct Hwf as [W _]. apply (W i). exists n, inc. auto. Qed.

  Lemma ext_value_inv i r : value shape_of compute debug (g ++ new) feeds env i r -> i < length g ->
    value shape_of compute debug g feeds env i r.
  Proof.
    intros H Hi. refine (value_ind' shape_of compute debug (g ++ new) feeds env
             (fun i r => i < length g -> value shape_of compute debug g feeds env i r)
             (fun inc a => in_id inc < length g -> arg shape_of compute debug g feeds env inc a) _ _ _ _ _ i r H Hi); clear i r H Hi.
    - intros k n xs ws ys status (Hn & Hr) _ HQ Hc Hd Hk. apply ext_nth_inv in Hn; auto.
      apply (value_run shape_of compute debug g feeds env k n xs ws ys status); auto; [split; auto|].
      eapply Forall2_impl'; [|exact HQ]. intros a b Ha Hb. apply Hb. eapply ext_input; eauto.
    - intros k n pre inc post m e (Hn & Hr) Hi Hpre (Hm & Hmr) _ Hv Hk. apply ext_nth_inv in Hn; auto.
      assert (Hinc : in_id inc < length g).
      { eapply ext_input; eauto. rewrite Hi. apply in_or_app. right; left; auto. }
      apply (value_fail shape_of compute debug g feeds env k n pre inc post m e); auto;
        [split; auto| |split; [apply ext_nth_inv; auto | auto]].
      intros a Ha. destruct (Hpre a Ha) as (x & _ & Hx). exists x. apply Hx. eapply ext_input; eauto.
      rewrite Hi. apply in_or_app. auto.
    - intros inc n v Hn Hf Hi. apply ext_nth_inv in Hn; auto. eapply arg_ph; eauto.
    - intros inc n vid v Hn Hp Hv He Hi. apply ext_nth_inv in Hn; auto. eapply arg_var; eauto.
    - intros inc n ys v (Hn & Hr) _ Hv Hs Hi. apply ext_nth_inv in Hn; auto. apply (arg_op shape_of compute debug g feeds env inc n ys v); auto. split; auto.
  Qed.

  Lemma ext_tensor_value_iff t r : t < length g ->
    (tensor_value shape_of compute debug (g ++ new) feeds env t r <->
     tensor_value shape_of compute debug g feeds env t r).
  Proof.
    intros Ht. split; [|apply ext_tensor_value]. intros H. inversion H; subst.
    - eapply tv_var; eauto using ext_nth_inv.
    - eapply tv_ph; eauto using ext_nth_inv.
    - eapply tv_ok. eapply ext_value_inv; eauto.
    - eapply tv_err. eapply ext_value_inv; eauto.
  Qed.
End Extend.

(** ** stop_gradient *)
Section Stop.
  Context {O V E : Type}.
  Variable shape_of : V -> list nat.
  Variable compute : O -> list (opin V) -> cout V E.
  Variable debug : bool.
  Variable feeds : list (ph_key * V).
  Variable env : list V.
  Variable stop_op : O.
  Hypothesis Hstop : forall v, compute stop_op [NonVar v] = CRet [] [v] None /\
                               compute stop_op [RdOnly v] = CRet [] [v] None.
  Variables (g g' : graph O) (x t : nat).
  Hypothesis Hx : x < length g.
  Hypothesis Hvp : forall i n, nth_error g i = Some n -> n_var n <> None -> n_ph n = None.
  Hypothesis Hbuild : stop_gradient stop_op g x = Some (g', t).

  Lemma stop_node : t = length g /\ exists n, g' = g ++ [n] /\ n_op n = stop_op /\
    n_inputs n = [Incoming x false 0] /\ n_ph n = None /\ n_var n = None /\ n_diff n = false /\ n_backprop n = None.
  Proof.
    unfold stop_gradient in Hbuild. apply build_spec in Hbuild. destruct Hbuild as (-> & _ & ->).
    split; auto. eexists. split; [reflexivity|]. repeat split; reflexivity.
  Qed.

  Lemma arg_cases g0 inc b : arg shape_of compute debug g0 feeds env inc b -> in_mut inc = false ->
    (exists n v, b = NonVar v /\ nth_error g0 (in_id inc) = Some n /\ fed shape_of feeds (in_id inc) n v) \/
    (exists n vid v, b = RdOnly v /\ nth_error g0 (in_id inc) = Some n /\ n_ph n = None /\ n_var n = Some vid /\
       nth_error env vid = Some v) \/
    (exists n ys v, b = NonVar v /\ op_node g0 (in_id inc) n /\
       value shape_of compute debug g0 feeds env (in_id inc) (inl ys) /\ nth_error ys (in_sel inc) = Some v).
  Proof.
    intros H Hm. inversion H as [inc0 n v H1 H2|inc0 n vid v H1 H2 H3 H4|inc0 n ys v H1 H2 H3]; subst.
    - left. eauto.
    - right; left. rewrite Hm. exists n, vid, v. auto.
    - right; right. exists n, ys, v. auto.
  Qed.

  Lemma stop_gradient_identity v :
    tensor_value shape_of compute debug g' feeds env t (inl v) <->
    tensor_value shape_of compute debug g' feeds env x (inl v).
  Proof.
    destruct stop_node as (-> & n & -> & Hop & Hin & Hph & Hv & _).
    set (g1 := g ++ [n]).
    assert (Hn : nth_error g1 (length g) = Some n) by (unfold g1; rewrite nth_error_app2, Nat.sub_diag; auto).
    assert (Hnode : op_node g1 (length g) n) by (repeat split; auto).
    split; intros H.
    - inversion H as [n' vid v' H1 H2|n' v' H1 H2 H3|y ys H1|]; subst.
      + rewrite Hn in H1. inv H1. congruence.
      + rewrite Hn in H1. inv H1. destruct H3 as (nm & pre & k & post & dec & H3 & _). congruence.
      + assert (Harg : arg shape_of compute debug g1 feeds env (Incoming x false 0) (NonVar v) \/
                       arg shape_of compute debug g1 feeds env (Incoming x false 0) (RdOnly v)).
        { inversion H1 as [i n' xs ws ys' st (Hn' & _) Ha Hc Hd Hi Heq|]; subst.
          destruct st; [discriminate|]. inv Heq. rewrite Hn in Hn'. inv Hn'. rewrite Hin in Ha.
          inversion Ha as [|a b l1 l2 Hab Hnil]; subst. inversion Hnil; subst.
          assert (Hb : exists w, b = NonVar w \/ b = RdOnly w) by (destruct (arg_cases _ _ _ Hab eq_refl) as [(? & w & A & _)|[(? & ? & w & A & _)|(? & ? & w & A & _)]]; eauto).
          destruct Hb as (w & Hb). destruct (Hstop w) as [S1 S2].
          destruct Hb as [->| ->]; [rewrite S1 in Hc | rewrite S2 in Hc]; inv Hc; auto. }
        destruct Harg as [Ha|Ha];
          destruct (arg_cases _ _ _ Ha eq_refl) as [(m & w & A & B & C)|[(m & vid & w & A & B & C & D & F)|(m & ws & w & A & B & C & D)]];
          inv A; cbn [in_id in_sel] in *.
        * assert (Hnv : n_var m = None).
          { destruct (n_var m) eqn:E0; auto. exfalso. assert (Hp : n_ph m = None).
            { apply (Hvp x); [|congruence]. apply (ext_nth_inv g [n]); auto. }
            destruct C as (nm & pre & k & post & dec & C & _). congruence. }
          eapply tv_ph; eauto.
        * destruct ws; simpl in D; inv D. eapply tv_ok; eauto.
        * eapply tv_var; eauto.
    - assert (Harg : arg shape_of compute debug g1 feeds env (Incoming x false 0) (NonVar v) \/
                     arg shape_of compute debug g1 feeds env (Incoming x false 0) (RdOnly v)).
      { inversion H as [n' vid v' H1 H2 H3|n' v' H1 H2 H3|y ys H1|]; subst.
        - right. apply (arg_var shape_of compute debug g1 feeds env (Incoming x false 0) n' vid v); auto.
          apply (Hvp x); [apply (ext_nth_inv g [n]); auto | congruence].
        - left. eapply arg_ph; eauto.
        - left. assert (exists m, op_node g1 x m) by (inversion H1; subst; eauto). destruct H0 as (m & Hm).
          apply (arg_op shape_of compute debug g1 feeds env (Incoming x false 0) m (v :: ys) v); auto. }
      assert (Hval : value shape_of compute debug g1 feeds env (length g) (inl [v])).
      { destruct (Hstop v) as [S1 S2]. destruct Harg as [Ha|Ha].
        - apply (value_run shape_of compute debug g1 feeds env (length g) n [NonVar v] [] [v] None); auto;
            [rewrite Hin; auto | rewrite Hop; auto | intros _; discriminate].
        - apply (value_run shape_of compute debug g1 feeds env (length g) n [RdOnly v] [] [v] None); auto;
            [rewrite Hin; auto | rewrite Hop; auto | intros _; discriminate]. }
      eapply tv_ok; eauto.
  Qed.
End Stop.

(** ** Sums over paths are unique *)
Lemma msum_perm {M} (zero : M) (add : M -> M -> M) l l' :
  (forall u v, add u v = add v u) -> (forall u v w, add u (add v w) = add (add u v) w) ->
  Permutation l l' -> msum zero add l = msum zero add l'.
Proof.
  intros Hc Ha H. induction H; simpl; auto.
  - congruence.
  - rewrite !Ha. f_equal. apply Hc.
  - congruence.
Qed.
Lemma path_sum_unique {O M} (g : graph O) (zero : M) (add : M -> M -> M) vjp passes ys seeds x a b :
  (forall u v, add u v = add v u) -> (forall u v w, add u (add v w) = add (add u v) w) ->
  is_path_sum g zero add vjp passes ys seeds x a -> is_path_sum g zero add vjp passes ys seeds x b -> a = b.
Proof.
  intros Hc Ha (P & HP1 & HP2 & ->) (Q & HQ1 & HQ2 & ->).
  apply msum_perm; auto. apply Permutation_map. apply NoDup_Permutation; auto.
  intros [k es]. rewrite HP2, HQ2. reflexivity.
Qed.
Lemma unreached_sum {O M} (g : graph O) (zero : M) (add : M -> M -> M) vjp passes ys seeds x :
  (forall y, In y ys -> differentiable g y) ->
  ~ reached g ys x -> is_path_sum g zero add vjp passes ys seeds x zero.
Proof.
  intros Hys Hn. exists []. split; [constructor|]. split; [|reflexivity]. intros k es. split; [intros []|].
  intros (y & Hy & Hp). exfalso. apply Hn. apply nth_error_In in Hy. split.
  - destruct es as [|e es]; [inv Hp; auto|].
    destruct (path_last g _ _ _ _ Hp ltac:(discriminate)) as (? & ? & ? & _ & _ & _ & _ & Hd). exact Hd.
  - exists y. split; auto. exists es. eapply path_weaken; eauto.
Qed.

(** ** Paths and barriers *)
Section Barrier.
  Context {O : Type}.
  Variable g : graph O.

  (** A non-differentiable tensor is on no path, except as a start. *)
  Lemma path_avoids ok y es x t : path g ok y es x -> ~ differentiable g t ->
    (forall q, In (t, q) es -> y = t) /\ (x = t -> y = t).
  Proof.
    intros H Ht. induction H as [y|y p z es x He Ho Hd Hp [IH1 IH2]]; [split; [intros q [] | auto]|].
    split.
    - intros q [Hq|Hq]; [congruence|]. exfalso. apply Ht. rewrite <- (IH1 q Hq). exact Hd.
    - intros Hx. exfalso. apply Ht. rewrite <- (IH2 Hx). exact Hd.
  Qed.

  (** If everything feeding into a set of tensors from outside is not
      differentiable, no path from outside reaches into it. *)
  Lemma behind_unreached (behind : nat -> Prop) y x :
    (forall u p z, behind z -> edge g u p z -> behind u \/ ~ differentiable g u) ->
    (forall z, behind z \/ ~ behind z) ->
    ~ behind y -> differentiable g y -> behind x -> ~ reaches g y x.
  Proof.
    intros Hb Hdec Hy Hd Hx (es & Hp). induction Hp as [y|y p z es x He _ Hdz Hp IH]; [contradiction|].
    destruct (Hdec z) as [Hz|Hz].
    - destruct (Hb _ _ _ Hz He); contradiction.
    - auto.
  Qed.
End Barrier.

(** ** depends_on *)
Section Ctrl.
  Context {O : Type}.
  Variables (ctrl_op : O) (g g' : graph O) (x : nat) (deps : list nat).
  Hypothesis Hcd : control_dependencies ctrl_op g x deps = Some g'.
  Variable passes : nat -> nat -> Prop.
  (** graph_ops.rs:14-19: the rule of [ControlDependency] yields nothing. *)
  Hypothesis Hno : forall p, ~ passes (length g) p.

  Lemma ctrl_stops y es z : path g' passes y es z ->
    (forall q, ~ In (length g, q) es).
  Proof.
    intros H. induction H as [y|y p z es x' He Ho Hd Hp IH]; [intros q []|].
    intros q [Hq|Hq]; [|exact (IH q Hq)]. inv Hq. exact (Hno _ Ho).
  Qed.

  (** A path that uses the first operand of [x] ends at the control node: it
      does not reach the original operand. *)
  Lemma first_operand_cut y es1 es2 z n : nth_error g x = Some n -> n_backprop n = None ->
    path g' passes y (es1 ++ (x, 0) :: es2) z -> es2 = [] /\ z = length g.
  Proof.
    intros Hn Hbp Hp.
    assert (Hx0 : forall c, edge g' x 0 c -> c = length g).
    { intros c (n' & inc & Hn' & Hq & <-).
      destruct (control_dependencies_spec ctrl_op g x deps g' Hcd) as (n0 & i0 & rest & ctrl & A1 & A2 & _ & _ & _ & _ & A).
      rewrite Hn in A1. inv A1.
      assert (Hn2 : n' = redirect_first n0 (length g)).
      { rewrite update_nth_nth, Nat.eqb_refl in Hn'.
        rewrite nth_error_app1 in Hn' by (apply nth_error_Some; congruence). rewrite Hn in Hn'. simpl in Hn'. congruence. }
      subst n'. unfold get_backprop_inputs, redirect_first in Hq. rewrite A2 in Hq. simpl in Hq. rewrite Hbp in Hq.
      simpl in Hq. inv Hq. reflexivity. }
    revert y Hp. induction es1 as [|[a b] es1 IH]; simpl; intros y Hp; inversion Hp; subst.
    - match goal with He : edge g' x 0 ?c |- _ => apply Hx0 in He; subst c end.
      destruct es2 as [|[a b] es2].
      + split; auto. match goal with Hq : path _ _ _ [] _ |- _ => inversion Hq; auto end.
      + exfalso. match goal with Hq : path _ _ _ (_ :: es2) _ |- _ => inversion Hq; subst end. eapply Hno; eauto.
    - eapply IH; eauto.
  Qed.
End Ctrl.
