(** Correctness of gradient accumulation. *)
From Coq Require Import String List Arith ZArith Bool Permutation Lia.
Import ListNotations.
From Verif Require Import Graph_Model Eval_Model Eval_Proofs Grad_Model Grad_Spec Grad_Path_Proofs.

Lemma Forall2_app' {A B} (R : A -> B -> Prop) l1 l2 k1 k2 :
  Forall2 R l1 k1 -> Forall2 R l2 k2 -> Forall2 R (l1 ++ l2) (k1 ++ k2).
Proof. intros H H'. induction H; simpl; auto. Qed.
Lemma Forall2_impl' {A B} (R Q : A -> B -> Prop) l k :
  (forall a b, In a l -> R a b -> Q a b) -> Forall2 R l k -> Forall2 Q l k.
Proof. intros H H2. induction H2; constructor; auto. - apply H; simpl; auto. - apply IHForall2. intros; apply H; simpl; auto. Qed.
Lemma Forall2_nil_iff {A B} (R : A -> B -> Prop) l k : Forall2 R l k -> (l = [] <-> k = []).
Proof. intros H; inversion H; subst; split; intros; auto; discriminate. Qed.

Lemma NoDup_app_intro {A} (l k : list A) : NoDup l -> NoDup k -> (forall a, In a l -> In a k -> False) -> NoDup (l ++ k).
Proof.
  intros Hl Hk H. induction Hl as [|a l Ha Hl IH]; simpl; auto. constructor.
  - rewrite in_app_iff. intros [H'|H']; [auto | apply (H a); simpl; auto].
  - apply IH. intros b Hb Hb'. apply (H b); simpl; auto.
Qed.

Section GradProofs.
  Context {O S T M : Type}.
  Variable g : graph O.
  Variables (zero : M) (add : M -> M -> M) (vjp : nat -> nat -> M -> M).
  Variables (good : S -> Prop) (valid : nat -> S -> T -> Prop) (den : S -> T -> M) (ext : S -> S -> Prop).
  Variable passes : nat -> nat -> Prop.
  Variable opgrad : nat -> T -> S -> option (list (option T) * S).
  Variable addn : list T -> S -> option (T * S).
  Variable pop : list nat -> option (nat * list nat).
  Variable debug : bool.
  Variables ys xs : list nat.
  Variable seeds : list M.
  Variable pm : pathmap.

  Hypothesis Hrk : ranked g.
  Hypothesis Hys : forall y, In y ys -> differentiable g y.
  Hypothesis Hnd : NoDup ys.
  Hypothesis Hpop : heap_pop g pop.
  Hypothesis Hden : denotes g zero add vjp good valid den ext passes opgrad addn.
  Hypothesis Hpm_val : forall z b, pm z = Some b -> (b = true <-> onpath g xs z).
  Hypothesis Hpm_ys : forall y, In y ys -> known pm y.
  Hypothesis Hpm_closed : forall z p c, known pm z -> differentiable g z -> edge g z p c -> known pm c.

  Notation back_step := (back_step g opgrad addn pop debug).
  Notation back_loop := (back_loop g opgrad addn pop debug).
  Notation msum := (msum zero add).
  Notation state := (@gstate S T).

  (** ** Sums *)
  Lemma msum_app l k : msum (l ++ k) = add (msum l) (msum k).
  Proof.
    induction l as [|a l IH]; simpl; [symmetry; apply (add_zero _ _ _ _ _ _ _ _ _ _ _ Hden)|].
    rewrite IH. apply (add_assoc _ _ _ _ _ _ _ _ _ _ _ Hden).
  Qed.
  Lemma msum_vjp y p l : msum (map (vjp y p) l) = vjp y p (msum l).
  Proof.
    induction l as [|a l IH]; simpl; [symmetry; apply (vjp_zero _ _ _ _ _ _ _ _ _ _ _ Hden)|].
    rewrite IH. symmetry. apply (vjp_add _ _ _ _ _ _ _ _ _ _ _ Hden).
  Qed.

  (** ** Contributions *)
  Definition contrib := (nat + nat * nat)%type.
  Definition ev (G : nat -> M) (e : contrib) : M :=
    match e with inl k => nth k seeds zero | inr (y, p) => vjp y p (G y) end.
  Definition rep (z : nat) (s : S) (G : nat -> M) (e : contrib) (t : T) : Prop :=
    valid z s t /\ den s t = ev G e.

  (** [E] lists everything that has been pushed for [z], given the processed
      tensors [log]. *)
  Definition contribs (log : list nat) (flag : bool) (z : nat) (E : list contrib) : Prop :=
    NoDup E /\
    (forall k, In (inl k) E <-> nth_error ys k = Some z) /\
    (forall y p, In (inr (y, p)) E <-> In y log /\ edge g y p z /\ passes y p /\ flag = true).

  Definition accounts (log : list nat) (s : S) (G : nat -> M) (z : nat) (inf : @info T) (E : list contrib) : Prop :=
    contribs log (on_path inf) z E /\
    (~ In z log -> Forall2 (rep z s G) E (grads inf)) /\
    (In z log -> E <> [] /\ G z = msum (map (ev G) E) /\
       exists t ts, grads inf = t :: ts /\ valid z s t /\ den s t = G z /\ Forall2 (rep z s G) (tl E) ts).

  Record BInv (st : state) (G : nat -> M) : Prop := {
    b_good : good (gs_s st);
    b_flag : forall z, option_map on_path (gs_map st z) = pm z;
    b_acc : forall z inf, gs_map st z = Some inf -> exists E, accounts (gs_log st) (gs_s st) G z inf E;
    b_heap_nd : NoDup (gs_heap st);
    b_heap : forall z, In z (gs_heap st) -> ~ In z (gs_log st) /\ known pm z /\ differentiable g z /\
      exists inf, gs_map st z = Some inf /\ grads inf <> [];
    b_pending : forall z inf, gs_map st z = Some inf -> grads inf <> [] -> ~ leaf g z ->
      In z (gs_heap st) \/ In z (gs_log st);
    b_ys : forall y, In y ys -> In y (gs_heap st) \/ In y (gs_log st);
    b_rank : forall z y, In z (gs_heap st) -> In y (gs_log st) -> rank_of g z <= rank_of g y;
    b_log_nd : NoDup (gs_log st);
    b_log_range : forall y, In y (gs_log st) -> y < length g;
    b_log_kind : forall y, In y (gs_heap st) \/ In y (gs_log st) -> In y ys \/ (~ leaf g y /\ pm y = Some true);
    b_log_rank : forall l1 a l2 b, gs_log st = l1 ++ a :: l2 -> In b l2 -> rank_of g a <= rank_of g b
  }.

  (** ** Registering gradients *)
  Fixpoint adds (z p : nat) (cs : list incoming) (gs : list (option T)) : list (nat * T) :=
    match cs, gs with
    | c :: cs, gx :: gs =>
        (if (in_id c =? z)%nat then match gx with Some t => [(p, t)] | None => [] end else [])
          ++ adds z (Datatypes.S p) cs gs
    | _, _ => []
    end.

  Lemma in_adds z cs : forall p gs q t, In (q, t) (adds z p cs gs) <->
    exists i c, q = p + i /\ nth_error cs i = Some c /\ in_id c = z /\ nth_error gs i = Some (Some t).
  Proof.
    induction cs as [|c cs IH]; intros p gs q t; simpl.
    - split; [intros [] | intros (i & c & _ & H & _); destruct i; discriminate].
    - destruct gs as [|gx gs].
      + split; [intros [] | intros (i & c' & _ & _ & _ & H); destruct i; discriminate].
      + rewrite in_app_iff, IH. split.
        * intros [H|(i & c' & -> & H1 & H2 & H3)].
          -- destruct (in_id c =? z) eqn:E; [|destruct H]. apply Nat.eqb_eq in E.
             destruct gx as [t'|]; [|destruct H]. destruct H as [H|[]]. inv H.
             exists 0, c. rewrite Nat.add_0_r. auto.
          -- exists (Datatypes.S i), c'. split; [lia | auto].
        * intros ([|i] & c' & -> & H1 & H2 & H3); simpl in H1, H3.
          -- left. inv H1. inv H3. rewrite Nat.eqb_refl. left. f_equal. lia.
          -- right. exists i, c'. split; [lia | auto].
  Qed.

  Lemma adds_nodup z cs : forall p gs, NoDup (map fst (adds z p cs gs)).
  Proof.
    induction cs as [|c cs IH]; intros p gs; simpl; [constructor|].
    destruct gs as [|gx gs]; simpl; [constructor|]. rewrite map_app.
    destruct (in_id c =? z); [|apply IH]. destruct gx as [t|]; [|apply IH]. simpl.
    constructor; [|apply IH]. intros H. apply in_map_iff in H. destruct H as ((q & t') & Hq & H).
    apply in_adds in H. destruct H as (i & c' & -> & _). simpl in Hq. lia.
  Qed.

  Definition with_adds (z : nat) (l : list (nat * T)) (inf : @info T) : @info T :=
    if on_path inf then Info (on_path inf) (grads inf ++ map snd l) else inf.

  Lemma with_adds_flag z l inf : on_path (with_adds z l inf) = on_path inf.
  Proof. unfold with_adds. destruct (on_path inf) eqn:E; auto. Qed.

  Lemma register_spec cs : forall gs m heap p,
    (forall c, In c cs -> m (in_id c) <> None /\ in_id c < length g) ->
    exists m' new, register g cs gs m heap = Some (m', new ++ heap) /\
      (forall z, m' z = option_map (fun inf => with_adds z (adds z p cs gs) inf) (m z)) /\
      NoDup new /\
      (forall z, In z new <-> exists inf n, m z = Some inf /\ nth_error g z = Some n /\ n_inputs n <> [] /\
         on_path inf = true /\ grads inf = [] /\ adds z p cs gs <> []).
  Proof.
    induction cs as [|c cs IH]; intros gs m heap p Hc.
    - exists m, []. simpl. split; auto. split; [|split; [constructor|]].
      + intros z. destruct (m z) as [[b l]|]; simpl; auto. unfold with_adds. simpl. destruct b; auto. rewrite app_nil_r. auto.
      + intros z. split; [intros [] | intros (inf & n & _ & _ & _ & _ & _ & H); apply H; reflexivity].
    - destruct gs as [|gx gs].
      + exists m, []. simpl. split; auto. split; [|split; [constructor|]].
        * intros z. destruct (m z) as [[b l]|]; simpl; auto. unfold with_adds. simpl. destruct b; auto. rewrite app_nil_r. auto.
        * intros z. split; [intros [] | intros (inf & n & _ & _ & _ & _ & _ & H); apply H; reflexivity].
      + cbn [register]. destruct (Hc c (or_introl eq_refl)) as [Hk Hr].
        destruct (nth_error g (in_id c)) as [n|] eqn:Hn; [|apply nth_error_None in Hn; lia].
        destruct (m (in_id c)) as [x|] eqn:Hm; [|congruence].
        assert (Hc' : forall c', In c' cs -> m (in_id c') <> None /\ in_id c' < length g) by (intros; apply Hc; right; auto).
        assert (Hskip : forall gx', (gx' = None \/ on_path x = false) ->
          exists m' new, register g cs gs m heap = Some (m', new ++ heap) /\
            (forall z, m' z = option_map (fun inf => with_adds z (adds z p (c :: cs) (gx' :: gs)) inf) (m z)) /\
            NoDup new /\
            (forall z, In z new <-> exists inf n, m z = Some inf /\ nth_error g z = Some n /\ n_inputs n <> [] /\
               on_path inf = true /\ grads inf = [] /\ adds z p (c :: cs) (gx' :: gs) <> [])).
        { intros gx' Hgx. destruct (IH gs m heap (Datatypes.S p) Hc') as (m' & new & Hreg & Hz & Hnn & Hnew).
          exists m', new. split; auto.
          assert (Heq : forall z inf, m z = Some inf -> on_path inf = true ->
                    adds z p (c :: cs) (gx' :: gs) = adds z (Datatypes.S p) cs gs).
          { intros z inf Hmz Hop. simpl. destruct (in_id c =? z) eqn:E; [|reflexivity].
            apply Nat.eqb_eq in E. subst z. destruct Hgx as [->|Hx]; [reflexivity | congruence]. }
          split; [|split; auto].
          - intros z. rewrite Hz. destruct (m z) as [inf|] eqn:Hmz; cbn [option_map]; auto. unfold with_adds.
            destruct (on_path inf) eqn:Hop; auto. rewrite (Heq z inf); auto.
          - intros z. rewrite Hnew. split; intros (inf & nz & A1 & A2 & A3 & A4 & A5 & A6); exists inf, nz;
              repeat (split; auto); rewrite (Heq z inf A1 A4) in *; auto. }
        destruct (on_path x) eqn:Hop; [|destruct (Hskip gx (or_intror eq_refl)) as (m' & new & H); exists m', new; exact H].
        destruct gx as [t|]; [|destruct (Hskip None (or_introl eq_refl)) as (m' & new & H); exists m', new; exact H].
        unfold push_grad. rewrite Hm.
        set (m1 := gm_set m (in_id c) (Info (on_path x) (grads x ++ [t]))).
        set (heap1 := if negb (is_source n) && match grads x with [] => true | _ => false end then in_id c :: heap else heap).
        assert (Hc1 : forall c', In c' cs -> m1 (in_id c') <> None /\ in_id c' < length g).
        { intros c' H'. destruct (Hc' c' H') as [A B]. split; auto. unfold m1, gm_set.
          destruct (in_id c' =? in_id c); [discriminate | auto]. }
        destruct (IH gs m1 heap1 (Datatypes.S p) Hc1) as (m' & new & Hreg & Hz & Hnn & Hnew).
        assert (Hadds : forall z, adds z p (c :: cs) (Some t :: gs) =
                  (if in_id c =? z then [(p, t)] else []) ++ adds z (Datatypes.S p) cs gs) by reflexivity.
        exists m', (if negb (is_source n) && match grads x with [] => true | _ => false end then new ++ [in_id c] else new).
        split; [|split; [|split]].
        * rewrite Hreg. unfold heap1. destruct (negb (is_source n) && _); auto. rewrite <- app_assoc. reflexivity.
        * intros z. rewrite Hz. unfold m1, gm_set. rewrite Hadds. rewrite (Nat.eqb_sym (in_id c) z).
          destruct (z =? in_id c) eqn:E; [|reflexivity].
          apply Nat.eqb_eq in E. subst z. rewrite Hm. cbn [option_map]. unfold with_adds. cbn [on_path grads].
          rewrite Hop. cbn [map app]. rewrite <- app_assoc. reflexivity.
        * assert (Hnot : ~ In (in_id c) new).
          { intros H. apply Hnew in H. destruct H as (inf & nz & A1 & _ & _ & _ & A5 & _).
            unfold m1, gm_set in A1. rewrite Nat.eqb_refl in A1. inv A1. simpl in A5. destruct (grads x); discriminate. }
          destruct (negb (is_source n) && _); auto. apply NoDup_snoc; auto.
        * intros z. rewrite Hadds.
          assert (Hother : z <> in_id c -> (In z new <-> exists inf nz, m z = Some inf /\ nth_error g z = Some nz /\
                    n_inputs nz <> [] /\ on_path inf = true /\ grads inf = [] /\
                    (if in_id c =? z then [(p, t)] else []) ++ adds z (Datatypes.S p) cs gs <> [])).
          { intros Hne. rewrite Hnew. unfold m1, gm_set. apply Nat.eqb_neq in Hne. rewrite Hne.
            rewrite Nat.eqb_sym in Hne. rewrite Hne. reflexivity. }
          destruct (Nat.eq_dec z (in_id c)) as [->|Hne].
          -- rewrite Nat.eqb_refl.
             assert (Hnot : ~ In (in_id c) new).
             { intros H. apply Hnew in H. destruct H as (inf & nz & A1 & _ & _ & _ & A5 & _).
               unfold m1, gm_set in A1. rewrite Nat.eqb_refl in A1. inv A1. simpl in A5. destruct (grads x); discriminate. }
             unfold is_source. split.
             ++ intros H. exists x, n. destruct (n_inputs n) as [|i0 ins] eqn:Hin; simpl in H; [contradiction|].
                destruct (grads x) as [|t0 ts] eqn:Hg; simpl in H; [|contradiction].
                repeat (split; [auto; discriminate|]). discriminate.
             ++ intros (inf & nz & A1 & A2 & A3 & A4 & A5 & _).
                rewrite Hn in A2; inv A2. rewrite Hm in A1; inv A1. rewrite A5.
                destruct (n_inputs nz); [congruence|]. simpl. apply in_or_app. right; left; auto.
          -- rewrite <- Hother by auto. destruct (negb (is_source n) && _); [|reflexivity].
             rewrite in_app_iff. simpl. split; [intros [H|[H|[]]]; congruence | auto].
  Qed.

  (** ** Consequences of the invariant *)
  Lemma path_rank ok y es z : path g ok y es z -> es <> [] -> rank_of g z < rank_of g y.
  Proof.
    intros H. induction H as [y|y p z es x He _ _ Hp IH]; [congruence|]. intros _.
    apply (rk_edge _ Hrk) in He. destruct es as [|e es]; [inv Hp; lia|].
    assert (rank_of g x < rank_of g z) by (apply IH; discriminate). lia.
  Qed.

  Lemma path_weaken (ok : nat -> nat -> Prop) y es z : path g ok y es z -> path g (fun _ _ => True) y es z.
  Proof. intros H. induction H; econstructor; eauto. Qed.

  Lemma path_trans ok y es z es' x : path g ok y es z -> path g ok z es' x -> path g ok y (es ++ es') x.
  Proof. intros H. induction H; simpl; auto. intros H'. econstructor; eauto. Qed.

  Lemma onpath_back y es z : differentiable g y -> path g (fun _ _ => True) y es z -> onpath g xs z -> onpath g xs y.
  Proof.
    intros Hd Hp (_ & x & Hx & es' & Hp'). split; auto. exists x. split; auto.
    exists (es ++ es'). eapply path_trans; eauto.
  Qed.

  Lemma ys_known y es z : In y ys -> path g (fun _ _ => True) y es z -> known pm z.
  Proof. intros Hy Hp. apply (known_reachable g ys Hys pm y z); auto. exists es; auto. Qed.

  Lemma not_leaf y p x : edge g y p x -> ~ leaf g y.
  Proof. intros He Hl. exact (rk_leaf _ Hrk _ _ _ Hl He). Qed.

  (** When nothing of rank above [z]'s is queued, everything upstream of [z] is done. *)
  Lemma sources_done st G z : BInv st G -> onpath g xs z ->
    (forall w, In w (gs_heap st) -> rank_of g w <= rank_of g z) ->
    forall y es, (In y (gs_heap st) \/ In y (gs_log st)) -> known pm y -> differentiable g y ->
      path g passes y es z -> forall w p, In (w, p) es -> In w (gs_log st).
  Proof.
    intros HI Hz Hmax y es Hy Hk Hd Hp. induction Hp as [y|y p c es z He Ho Hdc Hp IH]; [intros w p []|].
    assert (Hylog : In y (gs_log st)).
    { destruct Hy as [Hy|Hy]; auto. exfalso.
      assert (rank_of g z < rank_of g y) by (apply (path_rank passes y ((y, p) :: es) z); [econstructor; eauto | discriminate]).
      specialize (Hmax y Hy). lia. }
    intros w q [Hw|Hw]; [inv Hw; auto|].
    destruct es as [|[c' q'] es]; [destruct Hw|].
    assert (c' = c) by (inversion Hp; auto). subst c'.
    assert (Hnl : ~ leaf g c) by (inversion Hp; subst; eapply not_leaf; eauto).
    assert (Hkc : known pm c) by (eapply Hpm_closed; eauto).
    assert (Hcon : onpath g xs c) by (eapply onpath_back; [auto | eapply path_weaken; eauto | auto]).
    assert (Hm : exists inf, gs_map st c = Some inf /\ on_path inf = true).
    { pose proof (b_flag _ _ HI c) as Hf. unfold known in Hkc. destruct (pm c) as [b|] eqn:Hpc; [|congruence].
      destruct (gs_map st c) as [inf|]; [|discriminate]. exists inf. split; auto. simpl in Hf. inv Hf.
      apply (Hpm_val c _ Hpc). auto. }
    destruct Hm as (inf & Hinf & Hop).
    destruct (b_acc _ _ HI c inf Hinf) as (E & (HnE & HE1 & HE2) & Hun & Hpr).
    assert (HinE : In (inr (y, p)) E) by (apply HE2; auto).
    assert (Hc : In c (gs_heap st) \/ In c (gs_log st)).
    { destruct (in_dec Nat.eq_dec c (gs_log st)) as [Hl|Hl]; auto.
      apply (b_pending _ _ HI c inf Hinf); auto.
      intros Hg. apply Hun in Hl. apply (Forall2_nil_iff _ _ _ Hl) in Hg. subst E. destruct HinE. }
    apply (IH Hz Hmax Hc Hkc Hdc w q Hw).
  Qed.

  (** ** One step *)
  Lemma rep_ext z s s' G G' e t : ext s s' -> ev G' e = ev G e -> rep z s G e t -> rep z s' G' e t.
  Proof.
    intros He Hev [Hv Hd]. destruct (ext_valid _ _ _ _ _ _ _ _ _ _ _ Hden z s s' t He Hv) as [Hv' Hd'].
    split; auto. congruence.
  Qed.

  Lemma Forall2_rep_den z s G E l : Forall2 (rep z s G) E l -> map (den s) l = map (ev G) E /\ Forall (valid z s) l.
  Proof. intros H. induction H as [|e t E l [Hv Hd] H [IH1 IH2]]; simpl; auto. split; [f_equal; auto | auto]. Qed.

  Lemma gradient_spec z s G E l t l' s' : good s -> Forall2 (rep z s G) E l -> gradient addn l s = Some (t, l', s') ->
    E <> [] /\ good s' /\ ext s s' /\ valid z s' t /\ den s' t = msum (map (ev G) E) /\
    exists ts, l' = t :: ts /\ Forall2 (rep z s' G) (tl E) ts.
  Proof.
    intros Hg HF. unfold gradient. destruct l as [|t0 [|t1 l]]; [discriminate| |].
    - intros H; inv H. inversion HF as [|e t1 E' l' [Hv Hd] HF' HE Hl]; subst. inversion HF'; subst.
      split; [discriminate|]. split; auto. split; [apply (ext_refl _ _ _ _ _ _ _ _ _ _ _ Hden)|].
      split; auto. split.
      + simpl. rewrite Hd. rewrite (add_comm _ _ _ _ _ _ _ _ _ _ _ Hden). symmetry. apply (add_zero _ _ _ _ _ _ _ _ _ _ _ Hden).
      + exists []. simpl. auto.
    - destruct (addn (t0 :: t1 :: l) s) as [[t2 s2]|] eqn:Ha; [|discriminate]. intros H; inv H.
      destruct (Forall2_rep_den _ _ _ _ _ HF) as [Hm Hv].
      destruct (addn_ok _ _ _ _ _ _ _ _ _ _ _ Hden _ _ _ _ _ Hg Hv ltac:(simpl; lia) Ha) as (Hg' & He & Hvt & Hdt).
      split; [inversion HF; discriminate|]. split; auto. split; auto. split; auto.
      split; [rewrite Hdt, Hm; reflexivity|].
      exists (t1 :: l). split; auto. inversion HF as [|e t2 E' l' Hr HF' HE Hl]; subst. simpl.
      eapply Forall2_impl'; [|exact HF']. intros a b _ Hab. eapply rep_ext; eauto.
  Qed.

  Lemma step_inv st G st' : BInv st G -> back_step st = Ok (Some st') ->
    exists G', BInv st' G' /\ exists y, gs_log st' = y :: gs_log st.
  Proof.
    intros HI. unfold Grad_Model.back_step.
    destruct (pop (gs_heap st)) as [[y heap]|] eqn:Hp; [|discriminate].
    pose proof (pop_perm _ _ Hpop _ _ _ Hp) as Hperm.
    assert (Hyh : In y (gs_heap st)) by (eapply Permutation_in; [symmetry; exact Hperm | left; auto]).
    destruct (b_heap _ _ HI y Hyh) as (Hylog & Hyk & Hyd & inf & Hinf & Hgne).
    destruct Hyd as (n & Hn & Hdiff). assert (Hyd : differentiable g y) by (exists n; auto).
    rewrite Hn, Hinf.
    destruct (gradient addn (grads inf) (gs_s st)) as [[[gy l'] s1]|] eqn:Hg; [|discriminate].
    destruct (opgrad y gy s1) as [[gxs s2]|] eqn:Ho; [|discriminate].
    destruct (debug && _); [discriminate|].
    destruct (b_acc _ _ HI y inf Hinf) as (Ey & HEy & Hun & _). specialize (Hun Hylog).
    destruct (gradient_spec _ _ _ _ _ _ _ _ (b_good _ _ HI) Hun Hg) as (HEne & Hg1 & He1 & Hvgy & Hdgy & ts & Hl' & Hts).
    subst l'.
    destruct (opgrad_ok _ _ _ _ _ _ _ _ _ _ _ Hden _ _ _ _ _ Hg1 Hvgy Ho) as (Hg2 & He2 & Hgxs).
    assert (He02 : ext (gs_s st) s2) by (eapply (ext_trans _ _ _ _ _ _ _ _ _ _ _ Hden); eauto).
    set (m0 := gm_set (gs_map st) y (Info (on_path inf) (gy :: ts))).
    assert (Hch : forall c, In c (get_backprop_inputs n) -> m0 (in_id c) <> None /\ in_id c < length g).
    { intros c Hc. destruct (in_edge g _ _ _ Hn Hc) as (p & He). split; [|apply (rk_edge _ Hrk _ _ _ He)].
      pose proof (Hpm_closed y p (in_id c) Hyk Hyd He) as Hk. pose proof (b_flag _ _ HI (in_id c)) as Hf.
      unfold m0, gm_set. destruct (in_id c =? y); [discriminate|]. intros Hcn. rewrite Hcn in Hf. apply Hk. symmetry. exact Hf. }
    destruct (register_spec _ gxs m0 heap 0 Hch) as (m' & new & Hreg & Hm' & Hnn & Hnew).
    rewrite Hreg. intros H; inv H.
    set (Gy := msum (map (ev G) Ey)).
    set (G' := fun z => if (z =? y)%nat then Gy else G z).
    exists G'. split; [|exists y; reflexivity].
    assert (HG'y : G' y = Gy) by (unfold G'; rewrite Nat.eqb_refl; auto).
    assert (HG'o : forall z, z <> y -> G' z = G z) by (intros z Hz; unfold G'; apply Nat.eqb_neq in Hz; rewrite Hz; auto).
    assert (Hev : forall log' flag z E, (forall w p, In (inr (w, p)) E -> In w log') -> ~ In y log' ->
              contribs log' flag z E -> forall e, In e E -> ev G' e = ev G e).
    { intros log' flag z E Hlog Hny _ e He. destruct e as [k|[w p]]; simpl; auto.
      rewrite HG'o; auto. intros ->. apply Hny. eapply Hlog; eauto. }
    assert (Hedge : forall z q t, In (q, t) (adds z 0 (get_backprop_inputs n) gxs) ->
              edge g y q z /\ nth_error gxs q = Some (Some t)).
    { intros z q t H. apply in_adds in H. destruct H as (i & c & -> & H1 & H2 & H3). simpl. split; auto.
      exists n, c. auto. }
    assert (Hedge' : forall z q, edge g y q z -> passes y q -> exists t, In (q, t) (adds z 0 (get_backprop_inputs n) gxs)).
    { intros z q (n' & c & Hn' & Hq & Hid) Hpass. rewrite Hn in Hn'; inv Hn'.
      apply (proj1 (Hgxs q)) in Hpass. destruct Hpass as (t & Ht). exists t. apply in_adds. exists q, c. auto. }
    assert (Hnoy : adds y 0 (get_backprop_inputs n) gxs = []).
    { destruct (adds y 0 (get_backprop_inputs n) gxs) as [|[q t] l] eqn:Ha; auto. exfalso.
      destruct (Hedge y q t) as [He _]; [rewrite Ha; left; auto|]. apply (rk_edge _ Hrk) in He. lia. }
    assert (Hchild_log : forall z q, edge g y q z -> ~ In z (y :: gs_log st)).
    { intros z q He. apply (rk_edge _ Hrk) in He. destruct He as [_ He]. intros [->|Hz]; [lia|].
      pose proof (b_rank _ _ HI y z Hyh Hz). lia. }
    assert (Hflag : forall z, option_map on_path (m' z) = pm z).
    { intros z. rewrite Hm', <- (b_flag _ _ HI z). unfold m0, gm_set. destruct (z =? y) eqn:E.
      - apply Nat.eqb_eq in E. subst z. rewrite Hinf. simpl. rewrite with_adds_flag. reflexivity.
      - destruct (gs_map st z) as [i0|]; simpl; auto. rewrite with_adds_flag. reflexivity. }
    constructor; cbn [gs_map gs_heap gs_s gs_log]; auto.
    - (* accounts *)
      intros z infz Hz. rewrite Hm' in Hz. unfold m0, gm_set in Hz. destruct (z =? y) eqn:Ezy.
      + (* the tensor just processed *)
        apply Nat.eqb_eq in Ezy. subst z. simpl in Hz. rewrite Hnoy in Hz. unfold with_adds in Hz. simpl in Hz.
        rewrite app_nil_r in Hz.
        assert (infz = Info (on_path inf) (gy :: ts)) by (destruct (on_path inf); congruence). subst infz. clear Hz.
        exists Ey. destruct HEy as (N1 & N2 & N3). split; [|split].
        * split; auto. split; auto. intros w p. rewrite N3. simpl. split; [tauto|].
          intros ([<-|Hw] & He & Hps & Hop); [|tauto]. exfalso. apply (rk_edge _ Hrk) in He. lia.
        * intros H. exfalso. apply H. left; auto.
        * intros _. split; auto.
          assert (Hevy : map (ev G') Ey = map (ev G) Ey).
          { apply map_ext_in. intros e He. apply (Hev (gs_log st) (on_path inf) y Ey); auto; [|split; auto].
            intros w p Hw. apply N3 in Hw. tauto. }
          rewrite HG'y. split; [unfold Gy; congruence|].
          exists gy, ts. cbn [grads]. split; auto.
          destruct (ext_valid _ _ _ _ _ _ _ _ _ _ _ Hden _ _ _ gy He2 Hvgy) as [Hv2 Hd2].
          split; auto. split; [rewrite Hd2, Hdgy; reflexivity|]. eapply Forall2_impl'; [|exact Hts].
          intros e t Hin Hr. apply (rep_ext y s1 s2 G G'); auto.
          apply (Hev (gs_log st) (on_path inf) y Ey); auto; [|split; auto|].
          -- intros w p Hw. apply N3 in Hw. tauto.
          -- destruct Ey; [destruct Hin | right; auto].
      + (* another tensor *)
        apply Nat.eqb_neq in Ezy.
        destruct (gs_map st z) as [inf0|] eqn:Hinf0; [|discriminate]. simpl in Hz.
        destruct (b_acc _ _ HI z inf0 Hinf0) as (E & HE & Hun0 & Hpr0). destruct HE as (N1 & N2 & N3).
        assert (HevE : forall e, In e E -> ev G' e = ev G e).
        { intros e He. apply (Hev (gs_log st) (on_path inf0) z E); auto; [|split; auto].
          intros w p Hw. apply N3 in Hw. tauto. }
        assert (Hop : on_path infz = on_path inf0) by (inv Hz; apply with_adds_flag).
        set (A := adds z 0 (get_backprop_inputs n) gxs) in *.
        set (new_E := if on_path inf0 then map (fun q => inr (y, fst q)) A else [] : list contrib).
        assert (HnewE : forall w p, In (inr (w, p)) new_E <-> w = y /\ edge g y p z /\ passes y p /\ on_path inf0 = true).
        { intros w p. unfold new_E. destruct (on_path inf0); [|simpl; split; [tauto | intros (_ & _ & _ & H); discriminate]].
          rewrite in_map_iff. split.
          - intros ((q & t) & Heq & Hin). simpl in Heq. inv Heq. destruct (Hedge z p t Hin) as [He Hq].
            split; auto. split; auto. split; auto. apply (proj1 (Hgxs p)). eauto.
          - intros (-> & He & Hps & _). destruct (Hedge' z p He Hps) as (t & Ht). exists (p, t). auto. }
        assert (HnewE' : forall k, ~ In (inl k) new_E).
        { intros k. unfold new_E. destruct (on_path inf0); [|intros []]. rewrite in_map_iff. intros (q & Hq & _). discriminate. }
        assert (Hcon : contribs (y :: gs_log st) (on_path infz) z (E ++ new_E)).
        { rewrite Hop. split; [|split].
          - apply NoDup_app_intro; auto.
            + unfold new_E. destruct (on_path inf0); [|constructor].
              assert (Hnd0 : NoDup (map fst A)) by apply adds_nodup.
              clear -Hnd0. induction A as [|[q t] A IH]; simpl in *; [constructor|]. inv Hnd0. constructor; auto.
              intros H. apply in_map_iff in H. destruct H as ((q' & t') & Heq & Hin). inv Heq.
              apply H1. apply in_map_iff. exists (q, t'). auto.
            + intros e He1' He2'. destruct e as [k|[w p]]; [exact (HnewE' k He2')|].
              apply N3 in He1'. apply HnewE in He2'. destruct He2' as (-> & _). tauto.
          - intros k. rewrite in_app_iff, N2. split; [intros [H|H]; auto; destruct (HnewE' k H) | auto].
          - intros w p. rewrite in_app_iff, N3, HnewE. simpl. split.
            + intros [(A1 & A2)|(-> & A2)]; auto.
            + intros ([<-|Hw] & A2); auto. }
        assert (Hnewnil : In z (y :: gs_log st) -> new_E = []).
        { intros Hz'. destruct new_E as [|e l] eqn:HnE; auto. exfalso.
          destruct e as [k|[w p]]; [exact (HnewE' k (or_introl eq_refl))|].
          destruct (proj1 (HnewE w p) (or_introl eq_refl)) as (_ & He & _). exact (Hchild_log z p He Hz'). }
        exists (E ++ new_E). split; [exact Hcon|]. split.
        * intros Hnl. assert (Hnl0 : ~ In z (gs_log st)) by (intros H; apply Hnl; right; auto).
          specialize (Hun0 Hnl0).
          assert (Hold : Forall2 (rep z s2 G') E (grads inf0)).
          { eapply Forall2_impl'; [|exact Hun0]. intros e t Hin Hr. apply (rep_ext z (gs_s st) s2 G G'); auto. }
          assert (HfA : on_path inf0 = true -> Forall2 (rep z s2 G') new_E (map snd A)).
          { intros Ht. unfold new_E. rewrite Ht.
            assert (HA : forall q t, In (q, t) A -> rep z s2 G' (inr (y, q)) t).
            { intros q t Hin. destruct (Hedge z q t Hin) as [Hqe Hq]. destruct (proj2 (Hgxs q) t Hq) as [Hv Hd].
              split; auto. simpl. rewrite HG'y. rewrite Hd, Hdgy. reflexivity. }
            clear -HA. induction A as [|[q t] A IH]; simpl; constructor.
            - apply HA. left; auto.
            - apply IH. intros q' t' Hin. apply HA. right; auto. }
          inv Hz. unfold with_adds. destruct (on_path inf0) eqn:Hop0; cbn [grads].
          -- apply Forall2_app'; auto.
          -- unfold new_E. rewrite app_nil_r. auto.
        * intros Hin. rewrite (Hnewnil Hin), app_nil_r.
          destruct Hin as [Hin|Hin]; [congruence|]. destruct (Hpr0 Hin) as (HE0 & HG & t & tl0 & Hgr & Hv & Hd & Htl).
          split; auto. rewrite (HG'o z Ezy).
          split. { rewrite HG. f_equal. apply map_ext_in. intros e He. symmetry. auto. }
          exists t, tl0.
          assert (Hgz : grads infz = grads inf0).
          { inv Hz. unfold with_adds. destruct (on_path inf0) eqn:Hop0; auto. cbn [grads].
            assert (HA : A = []).
            { assert (Hno : forall q t0, ~ In (q, t0) A).
              { intros q t0 Hq. destruct (Hedge z q t0 Hq) as [He _]. apply (Hchild_log z q He). right; auto. }
              destruct A as [|[q t0] A']; auto. exfalso. apply (Hno q t0). left; auto. }
            rewrite HA. simpl. apply app_nil_r. }
          rewrite Hgz. split; auto.
          destruct (ext_valid _ _ _ _ _ _ _ _ _ _ _ Hden _ _ _ t He02 Hv) as [Hv2 Hd2].
          split; auto. split; [congruence|]. eapply Forall2_impl'; [|exact Htl].
          intros e t' Hin' Hr. apply (rep_ext z (gs_s st) s2 G G'); auto. apply HevE. destruct E; [destruct Hin' | right; auto].
    - (* heap: no duplicates *)
      pose proof (b_heap_nd _ _ HI) as Hhn. apply (Permutation_NoDup Hperm) in Hhn. inv Hhn.
      apply NoDup_app_intro; auto. intros z Hz1 Hz2. apply Hnew in Hz1.
      destruct Hz1 as (infz & nz & A1 & A2 & A3 & A4 & A5 & A6).
      assert (Hz : In z (gs_heap st)) by (eapply Permutation_in; [symmetry; exact Hperm | right; auto]).
      destruct (b_heap _ _ HI z Hz) as (_ & _ & _ & infz' & B1 & B2).
      unfold m0, gm_set in A1. destruct (z =? y) eqn:E; [apply Nat.eqb_eq in E; subst; contradiction|]. congruence.
    - (* heap entries *)
      intros z Hz. apply in_app_iff in Hz. destruct Hz as [Hz|Hz].
      + apply Hnew in Hz. destruct Hz as (infz & nz & A1 & A2 & A3 & A4 & A5 & A6).
        assert (Hzy : z <> y). { intros ->. rewrite Hnoy in A6. congruence. }
        assert (Hez : exists q, edge g y q z).
        { destruct (adds z 0 (get_backprop_inputs n) gxs) as [|[q t] l] eqn:Ha; [congruence|].
          exists q. apply (Hedge z q t). rewrite Ha. left; auto. }
        destruct Hez as (q & He).
        split; [apply (Hchild_log z q He)|]. split; [apply (Hpm_closed y q z); auto|].
        assert (Hpz : pm z = Some true).
        { rewrite <- Hflag, Hm', A1. simpl. rewrite with_adds_flag, A4. reflexivity. }
        split; [apply (Hpm_val z true Hpz); auto|].
        exists (with_adds z (adds z 0 (get_backprop_inputs n) gxs) infz). split; [rewrite Hm', A1; reflexivity|].
        unfold with_adds. rewrite A4. simpl. rewrite A5. simpl. destruct (adds z 0 _ gxs); [congruence | discriminate].
      + assert (Hz' : In z (gs_heap st)) by (eapply Permutation_in; [symmetry; exact Hperm | right; auto]).
        assert (Hzy : z <> y).
        { intros ->. pose proof (b_heap_nd _ _ HI) as Hhn. apply (Permutation_NoDup Hperm) in Hhn. inv Hhn. contradiction. }
        destruct (b_heap _ _ HI z Hz') as (A1 & A2 & A3 & infz & A4 & A5).
        split; [intros [H|H]; [congruence | contradiction]|]. split; auto. split; auto.
        exists (with_adds z (adds z 0 (get_backprop_inputs n) gxs) infz). split.
        * rewrite Hm'. unfold m0, gm_set. apply Nat.eqb_neq in Hzy. rewrite Hzy, A4. reflexivity.
        * unfold with_adds. destruct (on_path infz); auto. simpl. destruct (grads infz); [congruence | discriminate].
    - (* pending *)
      intros z infz Hz Hgz Hnl. rewrite in_app_iff. simpl.
      rewrite Hm' in Hz. unfold m0, gm_set in Hz. destruct (z =? y) eqn:Ezy.
      + apply Nat.eqb_eq in Ezy. auto.
      + destruct (gs_map st z) as [inf0|] eqn:Hinf0; [|discriminate]. simpl in Hz. inv Hz.
        destruct (grads inf0) as [|t0 l0] eqn:Hg0.
        * left. left. apply Hnew.
          assert (Hkz : known pm z).
          { pose proof (b_flag _ _ HI z) as Hf. rewrite Hinf0 in Hf. unfold known. rewrite <- Hf. discriminate. }
          unfold with_adds in Hgz. destruct (on_path inf0) eqn:Hop0; [|rewrite Hg0 in Hgz; congruence].
          cbn [grads] in Hgz. rewrite Hg0 in Hgz. simpl in Hgz.
          assert (HA : adds z 0 (get_backprop_inputs n) gxs <> []) by (intros H; rewrite H in Hgz; apply Hgz; reflexivity).
          destruct (adds z 0 (get_backprop_inputs n) gxs) as [|[q t] l] eqn:Ha; [congruence|].
          assert (He : edge g y q z) by (apply (Hedge z q t); rewrite Ha; left; auto).
          destruct (rk_edge _ Hrk _ _ _ He) as [Hlt _].
          destruct (nth_error g z) as [nz|] eqn:Hnz; [|apply nth_error_None in Hnz; lia].
          exists inf0, nz. unfold m0, gm_set. rewrite Ezy.
          repeat match goal with |- _ /\ _ => split; auto end. intros Hin; apply Hnl; exists nz; auto.
        * destruct (b_pending _ _ HI z inf0 Hinf0) as [H|H]; auto.
          { rewrite Hg0; discriminate. }
          left. right. apply Nat.eqb_neq in Ezy. apply (Permutation_in _ Hperm) in H. destruct H; [congruence | auto].
    - (* ys *)
      intros z Hz. rewrite in_app_iff. destruct (b_ys _ _ HI z Hz) as [H|H]; [|right; right; auto].
      apply (Permutation_in _ Hperm) in H. destruct H as [->|H]; [right; left; auto | left; right; auto].
    - (* rank *)
      intros z w Hz Hw.
      assert (Hzr : rank_of g z <= rank_of g y).
      { apply in_app_iff in Hz. destruct Hz as [Hz|Hz].
        - apply Hnew in Hz. destruct Hz as (infz & nz & A1 & A2 & A3 & A4 & A5 & A6).
          destruct (adds z 0 (get_backprop_inputs n) gxs) as [|[q t] l] eqn:Ha; [congruence|].
          destruct (Hedge z q t) as [He _]; [rewrite Ha; left; auto|]. apply (rk_edge _ Hrk) in He. lia.
        - apply (pop_max _ _ Hpop _ _ _ z Hp). eapply Permutation_in; [symmetry; exact Hperm | right; auto]. }
      destruct Hw as [<-|Hw]; auto. pose proof (b_rank _ _ HI y w Hyh Hw). lia.
    - (* log without duplicates *)
      constructor; auto. apply (b_log_nd _ _ HI).
    - intros w [<-|Hw]; [apply nth_error_Some; congruence | apply (b_log_range _ _ HI); auto].
    - (* kinds *)
      intros w Hw. assert (Hcase : In w new \/ In w (gs_heap st) \/ In w (gs_log st)).
      { rewrite in_app_iff in Hw. simpl in Hw.
        destruct Hw as [[Hw|Hw]|[<-|Hw]]; auto.
        right; left. eapply Permutation_in; [symmetry; exact Hperm | right; auto]. }
      destruct Hcase as [Hc|Hc]; [|apply (b_log_kind _ _ HI); auto].
      right. apply Hnew in Hc. destruct Hc as (infz & nz & A1 & A2 & A3 & A4 & A5 & A6).
      split.
      + intros (n' & Hn' & Hin). congruence.
      + rewrite <- Hflag, Hm', A1. simpl. rewrite with_adds_flag, A4. reflexivity.
    - (* log order *)
      intros l1 a l2 b Heq Hb. destruct l1 as [|a1 l1]; simpl in Heq; inv Heq.
      + apply (b_rank _ _ HI); auto.
      + eapply (b_log_rank _ _ HI); eauto.
  Qed.

  (** ** The loop *)
  Lemma loop_inv fuel : forall st G st', BInv st G -> back_loop fuel st = Ok st' ->
    exists G', BInv st' G' /\ gs_heap st' = [].
  Proof.
    induction fuel as [|fuel IH]; intros st G st' HI; [discriminate|]. cbn [Grad_Model.back_loop].
    destruct (back_step st) as [[st1|]| |] eqn:Hs; try discriminate.
    - destruct (step_inv _ _ _ HI Hs) as (G1 & HI1 & _). eauto.
    - intros H; inv H. exists G. split; auto. unfold Grad_Model.back_step in Hs.
      destruct (gs_heap st') as [|a l]; auto. exfalso.
      destruct (pop_some _ _ Hpop a l) as (y & rest & Hp). rewrite Hp in Hs.
      destruct (nth_error g y); [|discriminate]. destruct (gs_map st' y); [|discriminate].
      destruct (gradient _ _ _) as [[[? ?] ?]|]; [|discriminate]. destruct (opgrad _ _ _) as [[? ?]|]; [|discriminate].
      destruct (debug && _); [discriminate|]. destruct (register _ _ _ _ _) as [[? ?]|]; discriminate.
  Qed.

  Lemma log_bound st G : BInv st G -> length (gs_log st) <= length g.
  Proof.
    intros HI. pose proof (NoDup_incl_length (b_log_nd _ _ HI) (l' := seq 0 (length g))) as H.
    rewrite seq_length in H. apply H. intros y Hy. apply in_seq. pose proof (b_log_range _ _ HI y Hy). lia.
  Qed.

  Lemma loop_fuel fuel : forall st G, BInv st G -> length g - length (gs_log st) < fuel -> back_loop fuel st <> OutOfFuel.
  Proof.
    induction fuel as [|fuel IH]; intros st G HI Hf; [lia|]. cbn [Grad_Model.back_loop].
    destruct (back_step st) as [[st1|]| |] eqn:Hs; try discriminate.
    - destruct (step_inv _ _ _ HI Hs) as (G1 & HI1 & y & Hl).
      apply (IH _ G1 HI1). pose proof (log_bound _ _ HI1). rewrite Hl in *. simpl in *. lia.
    - exfalso. unfold Grad_Model.back_step in Hs.
      destruct (pop _) as [[y rest]|]; [|discriminate].
      destruct (nth_error g y); [|discriminate]. destruct (gs_map st y); [|discriminate].
      destruct (gradient _ _ _) as [[[? ?] ?]|]; [|discriminate]. destruct (opgrad _ _ _) as [[? ?]|]; [|discriminate].
      destruct (debug && _); [discriminate|]. destruct (register _ _ _ _ _) as [[? ?]|]; discriminate.
  Qed.

  (** Progress: only a failing rule can stop the loop. *)
  Lemma step_progress st G : BInv st G ->
    (forall y gy s, good s -> valid y s gy -> (In y ys \/ (~ leaf g y /\ pm y = Some true)) ->
       exists gxs s', opgrad y gy s = Some (gxs, s') /\
         (debug = true -> gxs <> [] /\ forall n, nth_error g y = Some n -> length (get_backprop_inputs n) = length gxs)) ->
    (forall x l s, good s -> Forall (valid x s) l -> 2 <= length l -> addn l s <> None) ->
    back_step st <> Panic.
  Proof.
    intros HI Hrule Hadd. unfold Grad_Model.back_step.
    destruct (pop (gs_heap st)) as [[y heap]|] eqn:Hp; [|discriminate].
    pose proof (pop_perm _ _ Hpop _ _ _ Hp) as Hperm.
    assert (Hyh : In y (gs_heap st)) by (eapply Permutation_in; [symmetry; exact Hperm | left; auto]).
    destruct (b_heap _ _ HI y Hyh) as (Hylog & Hyk & Hyd & inf & Hinf & Hgne).
    destruct Hyd as (n & Hn & Hdiff). rewrite Hn, Hinf.
    destruct (b_acc _ _ HI y inf Hinf) as (Ey & HEy & Hun & _). specialize (Hun Hylog).
    destruct (Forall2_rep_den _ _ _ _ _ Hun) as [_ Hvl].
    destruct (gradient addn (grads inf) (gs_s st)) as [[[gy l'] s1]|] eqn:Hg.
    - destruct (gradient_spec _ _ _ _ _ _ _ _ (b_good _ _ HI) Hun Hg) as (HEne & Hg1 & He1 & Hvgy & _).
      destruct (Hrule y gy s1 Hg1 Hvgy (b_log_kind _ _ HI y (or_introl Hyh))) as (gxs & s2 & Ho & Hdb).
      rewrite Ho.
      destruct (debug && _) eqn:Hd.
      + apply andb_true_iff in Hd. destruct Hd as [Hd1 Hd2]. destruct (Hdb Hd1) as [A B].
        rewrite (B n Hn), Nat.eqb_refl in Hd2. simpl in Hd2. destruct gxs; [congruence | discriminate].
      + match goal with |- context [register g ?cs gxs ?m heap] =>
          destruct (register_spec cs gxs m heap 0) as (m' & new & Hreg & _) end.
        * intros c Hc. destruct (in_edge g _ _ _ Hn Hc) as (p & He). split; [|apply (rk_edge _ Hrk _ _ _ He)].
          assert (Hyd : differentiable g y) by (exists n; auto).
          pose proof (Hpm_closed y p (in_id c) Hyk Hyd He) as Hk. pose proof (b_flag _ _ HI (in_id c)) as Hf.
          unfold gm_set. destruct (in_id c =? y); [discriminate|]. intros Hcn. rewrite Hcn in Hf. apply Hk. symmetry. exact Hf.
        * rewrite Hreg. discriminate.
    - exfalso. unfold gradient in Hg. destruct (grads inf) as [|t0 [|t1 l]]; [congruence | discriminate|].
      destruct (addn (t0 :: t1 :: l) (gs_s st)) as [[? ?]|] eqn:Ha; [discriminate|].
      revert Ha. apply (Hadd y); auto; [apply (b_good _ _ HI) | simpl; lia].
  Qed.

  Lemma loop_progress fuel : forall st G, BInv st G ->
    (forall y gy s, good s -> valid y s gy -> (In y ys \/ (~ leaf g y /\ pm y = Some true)) ->
       exists gxs s', opgrad y gy s = Some (gxs, s') /\
         (debug = true -> gxs <> [] /\ forall n, nth_error g y = Some n -> length (get_backprop_inputs n) = length gxs)) ->
    (forall x l s, good s -> Forall (valid x s) l -> 2 <= length l -> addn l s <> None) ->
    back_loop fuel st <> Panic.
  Proof.
    induction fuel as [|fuel IH]; intros st G HI H1 H2; [discriminate|]. cbn [Grad_Model.back_loop].
    pose proof (step_progress _ _ HI H1 H2) as Hp.
    destruct (back_step st) as [[st1|]| |] eqn:Hs; try discriminate; try congruence.
    destruct (step_inv _ _ _ HI Hs) as (G1 & HI1 & _). eauto.
  Qed.

  (** ** The start *)
  Definition seeded (s : S) (gys : list T) : Prop :=
    length gys = length ys /\ length seeds = length ys /\
    forall k y t, nth_error ys k = Some y -> nth_error gys k = Some t -> valid y s t /\ den s t = nth k seeds zero.

  Lemma push_seeds_spec : forall ys' gys (m : @gradmap T), NoDup ys' -> length gys = length ys' ->
    (forall y, In y ys' -> m y <> None) ->
    exists m', push_seeds ys' gys m = Some m' /\
      (forall z, ~ In z ys' -> m' z = m z) /\
      (forall k y t inf, nth_error ys' k = Some y -> nth_error gys k = Some t -> m y = Some inf ->
         m' y = Some (Info (on_path inf) (grads inf ++ [t]))).
  Proof.
    induction ys' as [|y ys' IH]; intros gys m Hn Hl Hk; destruct gys as [|gy gys]; try discriminate; simpl.
    - exists m. split; auto. split; auto. intros k y t inf H. destruct k; discriminate.
    - inv Hn. unfold push_grad. destruct (m y) as [inf|] eqn:Hm; [|exfalso; apply (Hk y); [left; auto | auto]].
      set (m1 := gm_set m y (Info (on_path inf) (grads inf ++ [gy]))).
      destruct (IH gys m1) as (m' & Hp & Ho & Hs); auto.
      { intros y' Hy'. unfold m1, gm_set. destruct (y' =? y); [discriminate|]. apply Hk. right; auto. }
      exists m'. split; auto. split.
      + intros z Hz. rewrite Ho by (intros H; apply Hz; right; auto). unfold m1, gm_set.
        destruct (z =? y) eqn:E; auto. apply Nat.eqb_eq in E. exfalso. apply Hz. left; auto.
      + intros [|k] y' t inf' A B C; simpl in A, B.
        * inv A. inv B. rewrite Ho by auto. unfold m1, gm_set. rewrite Nat.eqb_refl. congruence.
        * eapply Hs; eauto. unfold m1, gm_set.
          destruct (y' =? y) eqn:E; auto. apply Nat.eqb_eq in E. subst y'. exfalso. apply H1.
          eapply nth_error_In; eauto.
  Qed.

  Lemma init_inv s gys : good s -> seeded s gys ->
    exists m, push_seeds ys gys (gm_init pm) = Some m /\ BInv (GState m ys s []) (fun _ => zero).
  Proof.
    intros Hg (Hl & Hls & Hsd).
    destruct (push_seeds_spec ys gys (gm_init pm) Hnd Hl) as (m & Hp & Ho & Hs).
    { intros y Hy. unfold gm_init. pose proof (Hpm_ys y Hy) as Hk. unfold known in Hk. destruct (pm y); [discriminate | congruence]. }
    exists m. split; auto.
    assert (Hcase : forall z, (~ In z ys /\ m z = option_map (fun b => Info b []) (pm z)) \/
              (exists k t b, nth_error ys k = Some z /\ nth_error gys k = Some t /\ pm z = Some b /\ m z = Some (Info b [t]))).
    { intros z. destruct (in_dec Nat.eq_dec z ys) as [Hin|Hin].
      - right. destruct (In_nth_error _ _ Hin) as (k & Hk).
        destruct (nth_error gys k) as [t|] eqn:Ht.
        + pose proof (Hpm_ys z Hin) as Hkn. unfold known in Hkn. destruct (pm z) as [b|] eqn:Hb; [|congruence].
          exists k, t, b. split; auto. split; auto. split; auto.
          rewrite (Hs k z t (Info b []) Hk Ht); auto. unfold gm_init. rewrite Hb. reflexivity.
        + apply nth_error_None in Ht. assert (k < length ys) by (apply nth_error_Some; congruence). lia.
      - left. split; auto. rewrite (Ho z Hin). reflexivity. }
    constructor; cbn [gs_map gs_heap gs_s gs_log]; auto.
    - intros z. destruct (Hcase z) as [[_ ->]|(k & t & b & _ & _ & -> & ->)]; auto. destruct (pm z); auto.
    - intros z inf Hz. destruct (Hcase z) as [[Hni Hmz]|(k & t & b & Hk & Ht & Hb & Hmz)].
      + rewrite Hmz in Hz. destruct (pm z) as [b|]; [|discriminate]. simpl in Hz. inv Hz. exists [].
        split; [split; [constructor|split]|split].
        * intros k. split; [intros [] | intros H; exfalso; apply Hni; eapply nth_error_In; eauto].
        * intros y p. simpl. tauto.
        * intros _. constructor.
        * intros [].
      + rewrite Hmz in Hz. inv Hz. exists [inl k]. split; [split; [|split]|split].
        * constructor; [intros [] | constructor].
        * intros k'. simpl. split.
          -- intros [H|[]]. inv H. auto.
          -- intros H. left. f_equal. eapply NoDup_nth_error; eauto; [apply nth_error_Some; congruence | congruence].
        * intros y p. simpl. split; [intros [H|[]]; discriminate | tauto].
        * intros _. constructor; [|constructor]. destruct (Hsd k z t Hk Ht). split; auto.
        * intros [].
    - intros z Hz. split; [intros []|]. split; [apply Hpm_ys; auto|]. split; [apply Hys; auto|].
      destruct (Hcase z) as [[Hni _]|(k & t & b & Hk & Ht & Hb & Hmz)]; [contradiction|].
      eexists. split; [exact Hmz | discriminate].
    - intros z inf Hz Hgr Hnl. destruct (Hcase z) as [[Hni Hmz]|(k & t & b & Hk & _)].
      + rewrite Hmz in Hz. destruct (pm z); [|discriminate]. simpl in Hz. inv Hz. simpl in Hgr. congruence.
      + left. eapply nth_error_In; eauto.
    - intros z y _ [].
    - constructor.
    - intros y [].
    - intros y [H|[]]. auto.
    - intros l1 a l2 b H. destruct l1; discriminate.
  Qed.

  (** ** Path sums *)
  Lemma path_value_snoc es y p m : path_value vjp (es ++ [(y, p)]) m = vjp y p (path_value vjp es m).
  Proof. revert m; induction es as [|[a b] es IH]; intros m; simpl; auto. Qed.

  Lemma path_last ok y es x : path g ok y es x -> es <> [] ->
    exists es0 w p, es = es0 ++ [(w, p)] /\ path g ok y es0 w /\ edge g w p x /\ ok w p /\ differentiable g x.
  Proof.
    intros H. induction H as [y|y p z es x He Ho Hd Hp IH]; [congruence|]. intros _.
    destruct es as [|e es].
    - inv Hp. exists [], y, p. simpl. repeat split; auto. constructor.
    - destruct IH as (es0 & w & q & Heq & A & B); [discriminate|].
      exists ((y, p) :: es0), w, q. rewrite Heq. split; auto. split; auto. econstructor; eauto.
  Qed.

  (** The sum over contributions is a sum over paths if it is for the consumers. *)
  Lemma contribs_path_sum (log : list nat) (G : nat -> M) (z : nat) (E : list contrib) :
    contribs log true z E -> differentiable g z ->
    (forall y p, edge g y p z -> passes y p -> (exists y0 es, In y0 ys /\ path g passes y0 es y) -> In y log) ->
    (forall y p, In (inr (y, p)) E -> is_path_sum g zero add vjp passes ys seeds y (G y)) ->
    is_path_sum g zero add vjp passes ys seeds z (msum (map (ev G) E)).
  Proof.
    intros (HnE & HE1 & HE2) Hdz Hall HG.
    assert (Hgen : forall E', NoDup E' -> (forall e, In e E' -> In e E) ->
      exists P : list (nat * list (nat * nat)), NoDup P /\
        (forall k es, In (k, es) P <-> (es = [] /\ In (inl k) E') \/
           exists es0 y p y0, es = es0 ++ [(y, p)] /\ In (inr (y, p)) E' /\ nth_error ys k = Some y0 /\ path g passes y0 es0 y) /\
        msum (map (ev G) E') = msum (map (fun '(k, es) => path_value vjp es (nth k seeds zero)) P)).
    { induction E' as [|e E' IH]; intros Hnd' Hsub.
      - exists []. split; [constructor|]. split; auto. intros k es. simpl. split; [intros [] |].
        intros [[_ []]|(es0 & y & p & y0 & _ & [] & _)].
      - inv Hnd'. destruct IH as (P & HP1 & HP2 & HP3); auto. { intros e' He'. apply Hsub. right; auto. }
        destruct e as [k0|[y p]].
        + exists ((k0, []) :: P). split; [constructor; auto|].
          { rewrite HP2. intros [[_ H]|(es0 & y & p & y0 & H & _)]; [contradiction|]. destruct es0; discriminate. }
          split; [|simpl; rewrite HP3; reflexivity].
          intros k es. simpl. rewrite HP2. split.
          * intros [H|[[-> H]|(es0 & y & p & y0 & A & B & C)]].
            -- inv H. left. auto.
            -- left. auto.
            -- right. exists es0, y, p, y0. auto.
          * intros [[-> [H|H]]|(es0 & y & p & y0 & A & [B|B] & C)].
            -- inv H. auto.
            -- right. left. auto.
            -- discriminate.
            -- right. right. exists es0, y, p, y0. auto.
        + destruct (HG y p (Hsub _ (or_introl eq_refl))) as (Py & HPy1 & HPy2 & HPy3).
          exists (map (fun '(k, es) => (k, es ++ [(y, p)])) Py ++ P).
          split; [|split].
          * apply NoDup_app_intro; auto.
            -- clear -HPy1. induction Py as [|[k es] Py IH]; simpl; [constructor|]. inv HPy1. constructor; auto.
               intros H. apply in_map_iff in H. destruct H as ((k' & es') & Heq & Hin). injection Heq as Hk Heq.
               apply app_inj_tail in Heq. destruct Heq as [He' _]. subst. contradiction.
            -- intros [k es] Ha Hb. apply in_map_iff in Ha. destruct Ha as ((k' & es') & Heq & Hin). inv Heq.
               apply HP2 in Hb. destruct Hb as [[Hb _]|(es0 & y' & p' & y0 & Hb & Hin' & _)].
               ++ destruct es'; discriminate.
               ++ apply app_inj_tail in Hb. destruct Hb as [_ Hb]. inv Hb. contradiction.
          * intros k es. rewrite in_app_iff, HP2, in_map_iff. split.
            -- intros [((k' & es') & Heq & Hin)|[[-> H]|(es0 & y' & p' & y0 & A & B & C)]].
               ++ inv Heq. apply HPy2 in Hin. destruct Hin as (y0 & Hy0 & Hp0).
                  right. exists es', y, p, y0. split; auto. split; [left; auto|]. auto.
               ++ left. split; auto. right; auto.
               ++ right. exists es0, y', p', y0. split; auto. split; [right; auto | auto].
            -- intros [[-> [H|H]]|(es0 & y' & p' & y0 & -> & [B|B] & C & D)].
               ++ discriminate.
               ++ right. left. auto.
               ++ inv B. left. exists (k, es0). split; auto. apply HPy2. eauto.
               ++ right. right. exists es0, y', p', y0. auto.
          * simpl. rewrite map_app, msum_app, HP3. f_equal. rewrite HPy3, <- msum_vjp. f_equal.
            rewrite !map_map. apply map_ext. intros [k es]. rewrite path_value_snoc. reflexivity. }
    destruct (Hgen E HnE (fun e H => H)) as (P & HP1 & HP2 & HP3).
    exists P. split; auto. split; [|exact HP3].
    intros k es. rewrite HP2. split.
    - intros [[-> Hk]|(es0 & y & p & y0 & -> & Hin & Hk & Hp)].
      + apply HE1 in Hk. exists z. split; auto. constructor.
      + exists y0. split; auto. apply HE2 in Hin. destruct Hin as (_ & He & Hps & _). apply path_snoc; auto.
    - intros (y0 & Hk & Hp). destruct es as [|e es].
      + left. split; auto. apply HE1. inv Hp. auto.
      + right. destruct (path_last _ _ _ _ Hp ltac:(discriminate)) as (es0 & w & q & Heq & A & B & C & D).
        exists es0, w, q, y0. split; auto. split; [|auto]. apply HE2. split; [|auto].
        apply (Hall w q); auto. exists y0, es0. split; auto. eapply nth_error_In; eauto.
  Qed.

  (** ** After the loop *)
  Section Final.
    Variables (st : state) (G : nat -> M).
    Hypothesis HI : BInv st G.
    Hypothesis Hempty : gs_heap st = [].

    Lemma final_known y0 es z : In y0 ys -> path g passes y0 es z -> known pm z.
    Proof. intros Hy Hp. eapply ys_known; eauto. eapply path_weaken; eauto. Qed.

    (** Consumers of an on-path tensor from which a gradient flows have been processed. *)
    Lemma consumers_done z : onpath g xs z ->
      forall y p, edge g y p z -> passes y p -> (exists y0 es, In y0 ys /\ path g passes y0 es y) -> In y (gs_log st).
    Proof.
      intros Hz y p He Hps (y0 & es & Hy0 & Hp).
      assert (Hdz : differentiable g z) by (destruct Hz; auto).
      pose proof (path_snoc g passes y0 es y p z Hp He Hps Hdz) as Hp'.
      apply (sources_done st G z HI Hz) with (y := y0) (es := es ++ [(y, p)]) (p := p); auto.
      - rewrite Hempty. intros w [].
      - apply (b_ys _ _ HI); auto.
      - apply in_or_app. right; left; auto.
    Qed.

    Lemma log_diff y : In y (gs_log st) -> differentiable g y.
    Proof.
      intros Hy. destruct (b_log_kind _ _ HI y (or_intror Hy)) as [H|[_ H]]; [apply Hys; auto|].
      apply (Hpm_val y true H). auto.
    Qed.

    Lemma log_known y : In y (gs_log st) -> known pm y.
    Proof.
      intros Hy. destruct (b_log_kind _ _ HI y (or_intror Hy)) as [H|[_ H]]; [apply Hpm_ys; auto|].
      unfold known; congruence.
    Qed.

    Lemma flag_of z inf : gs_map st z = Some inf -> onpath g xs z -> on_path inf = true.
    Proof.
      intros Hz Ho. pose proof (b_flag _ _ HI z) as Hf. rewrite Hz in Hf. simpl in Hf.
      apply (Hpm_val z (on_path inf)); auto.
    Qed.

    Lemma map_of z : known pm z -> exists inf, gs_map st z = Some inf.
    Proof.
      intros Hk. pose proof (b_flag _ _ HI z) as Hf. unfold known in Hk.
      destruct (gs_map st z) as [inf|]; eauto. simpl in Hf. congruence.
    Qed.

    Lemma rank_bound y : rank_of g y <= list_max (map n_rank g).
    Proof.
      unfold rank_of. destruct (nth_error g y) as [n|] eqn:Hn; [|lia].
      apply nth_error_In in Hn.
      assert (Hin : In (n_rank n) (map n_rank g)) by (apply in_map; auto).
      revert Hin. generalize (map n_rank g) as l. generalize (n_rank n) as r. clear.
      intros r l. pose proof (proj1 (list_max_le l (list_max l)) (Nat.le_refl _)) as H.
      rewrite Forall_forall in H. auto.
    Qed.

    Lemma processed_path_sum : forall d z, list_max (map n_rank g) - rank_of g z <= d ->
      In z (gs_log st) -> onpath g xs z -> is_path_sum g zero add vjp passes ys seeds z (G z).
    Proof.
      induction d as [|d IH]; intros z Hd Hz Ho;
        (destruct (map_of z (log_known z Hz)) as (inf & Hinf);
         destruct (b_acc _ _ HI z inf Hinf) as (E & HE & _ & Hpr);
         destruct (Hpr Hz) as (_ & HGz & _); rewrite HGz;
         rewrite (flag_of z inf Hinf Ho) in HE;
         apply (contribs_path_sum (gs_log st) G z E HE (log_diff z Hz) (consumers_done z Ho));
         intros y p Hin; destruct HE as (_ & _ & HE2); apply HE2 in Hin; destruct Hin as (Hyl & He & _ & _);
         destruct (rk_edge _ Hrk _ _ _ He) as [_ Hr]; pose proof (rank_bound y)).
      - lia.
      - apply IH; auto; [lia|]. eapply onpath_back; [apply log_diff; auto | | exact Ho].
        econstructor; [exact He | exact I | apply log_diff; exact Hz | constructor].
    Qed.

    (** What the accumulation list of an on-path tensor amounts to. *)
    Lemma final_sum z inf : onpath g xs z -> gs_map st z = Some inf ->
      exists E, accounts (gs_log st) (gs_s st) G z inf E /\
        is_path_sum g zero add vjp passes ys seeds z (msum (map (ev G) E)).
    Proof.
      intros Ho Hinf. destruct (b_acc _ _ HI z inf Hinf) as (E & HE). exists E. split; auto.
      destruct HE as (HE & _). rewrite (flag_of z inf Hinf Ho) in HE.
      assert (Hdz : differentiable g z) by (destruct Ho; auto).
      apply (contribs_path_sum (gs_log st) G z E HE Hdz (consumers_done z Ho)).
      intros y p Hin. destruct HE as (_ & _ & HE2). apply HE2 in Hin. destruct Hin as (Hyl & He & _ & _).
      apply processed_path_sum with (d := list_max (map n_rank g)); auto; [lia|].
      eapply onpath_back; [apply log_diff; auto | | exact Ho].
      econstructor; [exact He | exact I | exact Hdz | constructor].
    Qed.
  End Final.
End GradProofs.
