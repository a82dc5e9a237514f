(** [grad_helper] is [grad] with respect to the reached variables. *)
From Coq Require Import String List Arith ZArith Bool Lia.
Import ListNotations.
From Verif Require Import Graph_Model Eval_Model Eval_Proofs Grad_Model Grad_Spec Grad_Path_Proofs Var_Model Helper_Model.

(** The entries of a list satisfying [P], in order. *)
Inductive chosen {A : Type} (P : A -> Prop) : list A -> list A -> Prop :=
| chosen_nil : chosen P [] []
| chosen_keep x xs vs : P x -> chosen P xs vs -> chosen P (x :: xs) (x :: vs)
| chosen_drop x xs vs : ~ P x -> chosen P xs vs -> chosen P (x :: xs) vs.

Lemma chosen_fun {A} (P : A -> Prop) xs vs : chosen P xs vs -> forall vs', chosen P xs vs' -> vs = vs'.
Proof.
  induction 1 as [|x xs vs Hx H IH|x xs vs Hx H IH]; intros vs' H'; inversion H'; subst; auto; try tauto.
  f_equal. auto.
Qed.
Lemma chosen_in {A} (P : A -> Prop) xs vs x : chosen P xs vs -> (In x vs <-> In x xs /\ P x).
Proof.
  induction 1 as [|y xs vs Hy H IH|y xs vs Hy H IH]; simpl.
  - tauto.
  - rewrite IH. split; [intros [<-|[? ?]]; auto|intros [[<-|?] ?]; auto].
  - rewrite IH. split; [intros [? ?]; auto|intros [[<-|?] ?]; tauto].
Qed.
Lemma chosen_nodup {A} (P : A -> Prop) xs vs : chosen P xs vs -> NoDup xs -> NoDup vs.
Proof.
  induction 1 as [|y xs vs Hy H IH|y xs vs Hy H IH]; intros Hn; auto; inversion Hn as [|? ? H1 H2]; subst; auto.
  constructor; auto. rewrite (chosen_in _ _ _ _ H). tauto.
Qed.
Lemma chosen_iff {A} (P Q : A -> Prop) xs vs : (forall x, In x xs -> (P x <-> Q x)) -> chosen P xs vs -> chosen Q xs vs.
Proof.
  intros HPQ H. induction H as [|x xs vs Hx H IH|x xs vs Hx H IH].
  - constructor.
  - apply chosen_keep; [apply HPQ; simpl; auto|]. apply IH. intros y Hy. apply HPQ. simpl. auto.
  - apply chosen_drop; [rewrite <- HPQ; simpl; auto|]. apply IH. intros y Hy. apply HPQ. simpl. auto.
Qed.

Section Diff.
  Context {O S T : Type}.
  Variable g : graph O.
  Variable opgrad : nat -> T -> S -> option (list (option T) * S).
  Variable addn : list T -> S -> option (T * S).
  Variable one : S -> option (T * S).
  Variable zeros_like : nat -> S -> option (T * S).
  Variable pop : list nat -> option (nat * list nat).
  Variable debug : bool.
  Notation back_step := (back_step g opgrad addn pop debug).
  Notation back_loop := (back_loop g opgrad addn pop debug).
  Notation compute_gradients := (compute_gradients g opgrad addn one pop debug).
  Notation grad_with_default := (grad_with_default g opgrad addn one zeros_like pop debug).
  Notation diff_vars := (diff_vars g opgrad addn one pop debug).

  (** ** The path map does not see targets that are not reached *)
  Section Agree.
    Variables ys xs xs' : list nat.
    Hypothesis Hys : forall y, In y ys -> differentiable g y.
    Hypothesis Hsame : forall x, reached g ys x -> (In x xs <-> In x xs').

    Definition st_reached (stack : list (nat * bool)) : Prop :=
      forall i b, In (i, b) stack -> exists y, In y ys /\ reaches g y i.

    Lemma reached_diff y i : In y ys -> reaches g y i -> differentiable g i.
    Proof.
      intros Hy (es & Hp). specialize (Hys y Hy). clear Hy. induction Hp as [y|y p z es x _ _ Hd Hp IH]; auto.
    Qed.
    Lemma given_same i : reached g ys i -> is_given_xs i xs = is_given_xs i xs'.
    Proof.
      intros H. destruct (is_given_xs i xs) eqn:E1, (is_given_xs i xs') eqn:E2; auto; exfalso.
      - apply is_given_xs_spec in E1. apply (Hsame i H) in E1. apply is_given_xs_spec in E1. congruence.
      - apply is_given_xs_spec in E2. apply (Hsame i H) in E2. apply is_given_xs_spec in E2. congruence.
    Qed.
    Lemma push_agree curr n done : nth_error g curr = Some n ->
      (exists y, In y ys /\ reaches g y curr) ->
      forall children stack m, get_backprop_inputs n = done ++ children ->
      push_path_children g xs' curr children stack m = push_path_children g xs curr children stack m /\
      (forall stack' m', push_path_children g xs curr children stack m = Ok (stack', m') -> st_reached stack -> st_reached stack').
    Proof.
      intros Hn (y & Hy & Hr) children. revert done. induction children as [|c rest IH]; intros done stack m Hd; simpl.
      { split; auto. intros stack' m' H Hs. injection H as <- <-. auto. }
      assert (Hd' : get_backprop_inputs n = (done ++ [c]) ++ rest) by (rewrite <- app_assoc; exact Hd).
      destruct (nth_error g (in_id c)) as [nc|] eqn:Ec; [|split; [auto|discriminate]].
      destruct (m curr); [apply (IH _ _ _ Hd')|].
      assert (He : edge g curr (length done) (in_id c)).
      { exists n, c. split; auto. split; auto. rewrite Hd, nth_error_app2, Nat.sub_diag; auto. }
      assert (Hrc : n_diff nc = true -> reached g ys (in_id c)).
      { intros Hdc. split; [exists nc; auto|]. exists y. split; auto. eapply reaches_step; eauto. exists nc; auto. }
      destruct (is_source nc || negb (n_diff nc)) eqn:Es.
      - replace (n_diff nc && is_given_xs (in_id c) xs') with (n_diff nc && is_given_xs (in_id c) xs).
        + apply (IH _ _ _ Hd').
        + destruct (n_diff nc); auto. cbn [andb]. apply given_same. auto.
      - destruct (IH (done ++ [c]) ((in_id c, false) :: stack) m Hd') as [H1 H2]. split; [exact H1|].
        intros stack' m' H Hs. eapply H2; eauto.
        intros i b [E|Hi]; [injection E as <- <-|eapply Hs; eauto].
        apply Hrc. destruct (n_diff nc); auto. rewrite orb_true_r in Es. discriminate.
    Qed.
    Lemma step_agree stack m : st_reached stack ->
      path_step g xs' stack m = path_step g xs stack m /\
      (forall stack' m', path_step g xs stack m = Ok (Some (stack', m')) -> st_reached stack').
    Proof.
      intros Hs. destruct stack as [|[i visit] rest]; simpl; [split; [auto|discriminate]|].
      destruct (nth_error g i) as [n|] eqn:En; [|split; [auto|discriminate]].
      destruct (Hs i visit (or_introl eq_refl)) as (y & Hy & Hr).
      assert (Hd := reached_diff y i Hy Hr).
      assert (Hrest : st_reached rest) by (intros j b Hj; apply (Hs j b); simpl; auto).
      destruct visit.
      - rewrite <- (given_same i) by (split; eauto). split; auto.
        intros stack' m' H. destruct (if n_diff n then _ else _) as [b|]; [|discriminate].
        injection H as <- <-. exact Hrest.
      - destruct (push_agree i n [] En (ex_intro _ y (conj Hy Hr)) (get_backprop_inputs n) ((i, true) :: rest) m eq_refl) as [H1 H2].
        rewrite H1. split; auto. intros stack' m' H.
        destruct (push_path_children g xs i (get_backprop_inputs n) ((i, true) :: rest) m) as [[st2 m2]| |] eqn:E; try discriminate.
        injection H as <- <-. apply (H2 _ _ eq_refl).
        intros j b [Ej|Hj]; [injection Ej as <- <-; eauto|eapply Hrest; eauto].
    Qed.
    Lemma loop_agree fuel : forall stack m, st_reached stack -> path_loop g xs' fuel stack m = path_loop g xs fuel stack m.
    Proof.
      induction fuel as [|fuel IH]; intros stack m Hs; [reflexivity|]. cbn [path_loop].
      destruct (step_agree stack m Hs) as [H1 H2]. rewrite H1.
      destruct (path_step g xs stack m) as [[[stack' m']|]| |] eqn:E; auto.
      apply IH. eapply H2; eauto.
    Qed.
    Lemma path_map_agree fuel : init_path_map g fuel ys xs' = init_path_map g fuel ys xs.
    Proof.
      unfold init_path_map. apply loop_agree. intros i b H. apply in_rev in H. apply in_map_iff in H.
      destruct H as (y & E & Hy). injection E as <- <-. exists y. split; auto. exists []. constructor.
    Qed.
    Lemma gradients_agree fuel gys s : compute_gradients fuel ys xs' gys s = compute_gradients fuel ys xs gys s.
    Proof. unfold Grad_Model.compute_gradients. rewrite path_map_agree. reflexivity. Qed.
  End Agree.

  (** ** The flags stay those of the path map *)
  Definition flag (m : @gradmap T) (x : nat) : bool := match m x with Some inf => on_path inf | None => false end.
  Lemma gm_set_flag m k inf : (exists old, m k = Some old /\ on_path old = on_path inf) ->
    forall x, flag (gm_set m k inf) x = flag m x.
  Proof.
    intros (old & Hm & Ho) x. unfold flag, gm_set. destruct (x =? k) eqn:E; auto.
    apply Nat.eqb_eq in E. subst. rewrite Hm. auto.
  Qed.
  Lemma push_grad_flag m k t m' : push_grad m k t = Some m' -> forall x, flag m' x = flag m x.
  Proof.
    unfold push_grad. destruct (m k) as [inf|] eqn:E; [|discriminate]. intros H. injection H as <-.
    apply gm_set_flag. exists inf. auto.
  Qed.
  Lemma register_flag children : forall gxs m heap m' heap',
    register g children gxs m heap = Some (m', heap') -> forall x, flag m' x = flag m x.
  Proof.
    induction children as [|c children IH]; intros gxs m heap m' heap' H x; simpl in H.
    { injection H as <- <-. auto. }
    destruct gxs as [|gx gxs]; [injection H as <- <-; auto|].
    destruct (nth_error g (in_id c)); [|discriminate]. destruct (m (in_id c)) as [inf|]; [|discriminate].
    destruct (on_path inf); [|eapply IH; eauto]. destruct gx as [t|]; [|eapply IH; eauto].
    destruct (push_grad m (in_id c) t) as [m1|] eqn:Ep; [|discriminate].
    rewrite (IH _ _ _ _ _ H x). eapply push_grad_flag; eauto.
  Qed.
  Lemma step_flag st st' : back_step st = Ok (Some st') -> forall x, flag (gs_map st') x = flag (gs_map st) x.
  Proof.
    unfold Grad_Model.back_step. intros H x.
    destruct (pop (gs_heap st)) as [[y heap]|]; [|discriminate].
    destruct (nth_error g y) as [n|]; [|discriminate]. destruct (gs_map st y) as [inf|] eqn:Em; [|discriminate].
    destruct (gradient addn (grads inf) (gs_s st)) as [[[gy l'] s1]|]; [|discriminate].
    destruct (opgrad y gy s1) as [[gxs s2]|]; [|discriminate].
    destruct (debug && _); [discriminate|].
    destruct (register g _ _ _ heap) as [[m' heap']|] eqn:Er; [|discriminate]. injection H as <-. cbn [gs_map].
    rewrite (register_flag _ _ _ _ _ _ Er x). apply gm_set_flag. exists inf. auto.
  Qed.
  Lemma loop_flag fuel : forall st st', back_loop fuel st = Ok st' -> forall x, flag (gs_map st') x = flag (gs_map st) x.
  Proof.
    induction fuel as [|fuel IH]; intros st st' H x; [discriminate|]. cbn [Grad_Model.back_loop] in H.
    destruct (back_step st) as [[st1|]| |] eqn:E; try discriminate.
    - rewrite (IH _ _ H x). eapply step_flag; eauto.
    - injection H as <-. auto.
  Qed.
  Lemma seeds_flag ys : forall gys m m', push_seeds ys gys m = Some m' -> forall x, flag m' x = flag m x.
  Proof.
    induction ys as [|y ys IH]; intros gys m m' H x; simpl in H; [injection H as <-; auto|].
    destruct gys as [|gy gys]; [injection H as <-; auto|].
    destruct (push_grad m y gy) as [m1|] eqn:E; [|discriminate].
    rewrite (IH _ _ _ H x). eapply push_grad_flag; eauto.
  Qed.
  Lemma gradients_flag fuel ys xs gys s st : ranked g -> (forall y, In y ys -> differentiable g y) ->
    compute_gradients fuel ys xs gys s = Ok st ->
    forall x, In x xs -> (flag (gs_map st) x = true <-> reached g ys x).
  Proof.
    intros Hrk Hys H x Hx. unfold Grad_Model.compute_gradients in H.
    destruct (init_path_map g fuel ys xs) as [pm| |] eqn:Ep; try discriminate.
    destruct (match gys with Some l => _ | None => _ end) as [[l s1]|]; [|discriminate].
    destruct (push_seeds ys l (gm_init pm)) as [m|] eqn:Es; [|discriminate].
    rewrite (loop_flag _ _ _ H x). cbn [gs_map]. rewrite (seeds_flag _ _ _ _ Es x).
    set (big := fuel + Datatypes.S (2 * (length ys + backprop_edges g))).
    destruct (init_path_map_spec g ys xs Hrk Hys big) as (pm' & Hpm' & Hval & Hknown & Hclosed & Hreach); [unfold big; lia|].
    assert (pm' = pm).
    { assert (E : init_path_map g big ys xs = Ok pm) by (eapply path_loop_mono; [exact Ep|unfold big; lia]). congruence. }
    subst pm'. unfold flag, gm_init. split.
    - intros Hf. destruct (pm x) as [b|] eqn:Eb; [|discriminate]. simpl in Hf. subst b.
      assert (Hd : differentiable g x) by (apply (Hval x true Eb); auto).
      split; auto. apply Hreach; auto. unfold known. congruence.
    - intros (Hd & y & Hy & Hr).
      assert (Hk : known pm x) by (eapply known_reachable; eauto).
      destruct (pm x) as [b|] eqn:Eb; [|exfalso; apply Hk; auto]. simpl.
      apply (Hval x b Eb). split; auto. exists x. split; auto. exists []. constructor.
  Qed.

  (** ** The loop *)
  Lemma extract_grad_flag m x s r m' s' : extract_grad addn m x s = Some (r, m', s') -> forall z, flag m' z = flag m z.
  Proof.
    unfold extract_grad. intros H z. destruct (m x) as [inf|] eqn:E; [|injection H as _ <- _; auto].
    destruct (on_path inf) eqn:Ef; [|injection H as _ <- _; auto].
    destruct (gradient addn (grads inf) s) as [[[t l'] s1]|]; [|discriminate]. injection H as _ <- _.
    apply gm_set_flag. exists inf. auto.
  Qed.
  Lemma extract_grad_some m x s : flag m x = true ->
    extract_grad addn m x s = None \/ exists t m' s', extract_grad addn m x s = Some (Some t, m', s').
  Proof.
    unfold flag, extract_grad. destruct (m x) as [inf|]; [|discriminate]. intros ->.
    destruct (gradient addn (grads inf) s) as [[[t l'] s1]|]; [right; eauto|left; auto].
  Qed.
  Lemma extract_grad_none m x s : flag m x = false -> extract_grad addn m x s = Some (None, m, s).
  Proof. unfold flag, extract_grad. destruct (m x) as [inf|]; auto. intros ->. auto. Qed.

  Lemma extract_vars_all xs : forall m s,
    match extract_vars addn xs m s with
    | Some (vs, ts, s') => vs = filter (flag m) xs /\
        extract_all addn zeros_like (filter (flag m) xs) m s = Some (map (fun t => (t, true)) ts, s')
    | None => extract_all addn zeros_like (filter (flag m) xs) m s = None
    end.
  Proof.
    induction xs as [|x xs IH]; intros m s; simpl; [auto|].
    destruct (flag m x) eqn:Ef.
    - destruct (extract_grad_some m x s Ef) as [E|(t & m' & s' & E)]; rewrite E; simpl; rewrite E; auto.
      assert (Hfl : filter (flag m) xs = filter (flag m') xs).
      { apply filter_ext. intros z. symmetry. eapply extract_grad_flag; eauto. }
      rewrite Hfl. specialize (IH m' s'). destruct (extract_vars addn xs m' s') as [[[vs ts] s2]|].
      + destruct IH as [-> ->]. auto.
      + rewrite IH. auto.
    - rewrite (extract_grad_none m x s Ef). specialize (IH m s). destruct (extract_vars addn xs m s) as [[[vs ts] s2]|]; auto.
  Qed.

  Lemma filter_chosen (f : nat -> bool) xs : chosen (fun x => f x = true) xs (filter f xs).
  Proof.
    induction xs as [|x xs IH]; simpl; [constructor|]. destruct (f x) eqn:E.
    - apply chosen_keep; auto.
    - apply chosen_drop; auto. congruence.
  Qed.

  (** ** The function *)
  Theorem diff_vars_grad fuel ys xs s vs ts s' log :
    ys <> [] -> ranked g -> (forall y, In y ys -> differentiable g y) ->
    (diff_vars fuel ys xs s = Ok (vs, ts, s', log) <->
     chosen (reached g ys) xs vs /\ grad_with_default fuel ys vs None s = Ok (map (fun t => (t, true)) ts, s', log)).
  Proof.
    intros Hne Hrk Hys. unfold Helper_Model.diff_vars, Grad_Model.grad_with_default.
    assert (Hno : no_outputs ys = false) by (destruct ys; [congruence|reflexivity]). rewrite Hno. split.
    - intros H. destruct (compute_gradients fuel ys xs None s) as [st| |] eqn:Ec; try discriminate.
      assert (Hch : chosen (reached g ys) xs (filter (flag (gs_map st)) xs)).
      { eapply chosen_iff; [|apply filter_chosen]. intros x Hx. cbn beta.
        exact (gradients_flag fuel ys xs None s st Hrk Hys Ec x Hx). }
      pose proof (extract_vars_all xs (gs_map st) (gs_s st)) as He.
      destruct (extract_vars addn xs (gs_map st) (gs_s st)) as [[[vs0 ts0] s0]|]; [|discriminate].
      destruct He as [Hv Ha]. injection H as Hv' -> -> Hl. rewrite <- Hv' in *. rewrite <- Hv in *. clear Hv'.
      split; [exact Hch|].
      rewrite (gradients_agree ys xs vs0 Hys), Ec, Ha, <- Hl; auto.
      intros x Hx. rewrite (chosen_in _ _ _ x Hch). tauto.
    - intros [Hch H].
      rewrite (gradients_agree ys xs vs Hys) in H by (intros x Hx; rewrite (chosen_in _ _ _ x Hch); tauto).
      destruct (compute_gradients fuel ys xs None s) as [st| |] eqn:Ec; try discriminate.
      assert (Hch' : chosen (reached g ys) xs (filter (flag (gs_map st)) xs)).
      { eapply chosen_iff; [|apply filter_chosen]. intros x Hx. cbn beta.
        exact (gradients_flag fuel ys xs None s st Hrk Hys Ec x Hx). }
      rewrite <- (chosen_fun _ _ _ Hch _ Hch') in Hch'.
      pose proof (extract_vars_all xs (gs_map st) (gs_s st)) as He.
      rewrite <- (chosen_fun _ _ _ Hch _ (chosen_iff _ _ _ _ (fun x Hx => gradients_flag fuel ys xs None s st Hrk Hys Ec x Hx) (filter_chosen _ _))) in He.
      destruct (extract_vars addn xs (gs_map st) (gs_s st)) as [[[vs0 ts0] s0]|].
      + destruct He as [-> Ha]. rewrite Ha in H. injection H as H1 -> ->. f_equal. f_equal. f_equal. f_equal.
        revert ts H1. clear. induction ts0 as [|t ts0 IH]; intros [|t' ts] H; try discriminate; auto.
        injection H as -> H. f_equal. auto.
      + rewrite He in H. discriminate.
  Qed.
End Diff.
