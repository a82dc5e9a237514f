(** Array graphs: the composed rules along all paths are the derivative. *)
From Coq Require Import String List Arith ZArith Bool Lia Reals Lra Relations FunctionalExtensionality Permutation Classical_Prop.
From Coquelicot Require Import Coquelicot.
Import ListNotations.
From Verif Require Import Graph_Model Eval_Model Eval_Spec Eval_Proofs Graph_Proofs Grad_Model Grad_Spec
  Grad_Path_Proofs Grad_Proofs Grad_Final Grad_Frame Scalar_Model Scalar_Spec Scalar_Rules Scalar_Proofs Scalar_Grad.
From Verif Require Import Array_Model Array_Proofs Array_Sum Arith_Model Arith_Proofs Arith_Final Vjp_Spec Vjp_Proofs
  Reduce_Model Reduce_Spec Reduce_Proofs Shape_Model Shape_Spec Shape_Proofs3
  Tens_Model Tens_Spec Tens_Fwd Tens_Build Tens_Rules Tens_Rules2 Tens_Rules3 Tens_Rules4 Tens_Ops Tens_Lax Tens_Grad Tens_Settle.
Local Set Bullet Behavior "Strict Subproofs".
Local Open Scope R_scope.

Lemma rsum_app {I} (a b : list I) f : rsum (a ++ b) f = rsum a f + rsum b f.
Proof. unfold sumf in *. induction a as [|x a IH]; simpl; [ring|]. rewrite IH. ring. Qed.
Lemma rsum_map {I J} (h : I -> J) l f : rsum (map h l) f = rsum l (fun i => f (h i)).
Proof. unfold sumf in *. induction l as [|x l IH]; simpl; [reflexivity|]. rewrite IH. reflexivity. Qed.

(** Inner product of a sequence with an array. *)
Definition ip (v : arr R) (m : vec) : R := rsum (indices (a_shape v)) (fun j => rget (unflat (a_shape v) m) j * rget v j).
Lemma ip_add v a b : ip v (vadd a b) = ip v a + ip v b.
Proof.
  unfold ip. rewrite <- rsum_add. apply rsum_idx_ext. intros j Hj. rewrite !unflat_get by auto. unfold vadd. ring.
Qed.
Lemma ip_zero v : ip v vzero = 0.
Proof. apply rsum_zero. intros j Hj. apply indices_in in Hj. rewrite unflat_get by auto. unfold vzero. ring. Qed.
Lemma ip_msum v l : ip v (msum vzero vadd l) = rsum l (ip v).
Proof.
  induction l as [|a l IH]; [apply ip_zero|]. rewrite rsum_cons, <- IH. apply ip_add.
Qed.
Lemma ip_flat sh v a : has_shape sh v -> has_shape sh a -> ip v (flat a) = dot a v.
Proof.
  intros Hv Ha. rewrite (dot_sum sh) by auto. unfold ip. destruct Hv as [-> _]. rewrite unflat_flat by auto. reflexivity.
Qed.

Section Deriv.
  Variable lax : bool.
  Variable ls : nat -> list nat.
  Variable g : tgraph.
  Hypothesis W : twf ls g.
  Variable rho : nat -> arr R.
  Hypothesis C : conform ls rho.
  Variable x : nat.
  Hypothesis Hleaf : t_input_leaf g x.
  Variable v : arr R.
  Hypothesis Hv : has_shape (ls x) v.

  (** Moving leaf [x] in direction [v]. *)
  Definition bend (t : R) : nat -> arr R := put rho x (step (rho x) v t).

  Lemma bend_conform t : conform ls (bend t).
  Proof.
    intros i. unfold bend, put. destruct (Nat.eqb_spec i x) as [->|]; [apply step_has_shape; auto|apply C].
  Qed.
  Lemma bend_zero : bend 0 = rho.
  Proof.
    apply functional_extensionality. intros i. unfold bend, put. destruct (Nat.eqb_spec i x) as [->|]; [|reflexivity].
    rewrite (step_tab (ls x)) by auto. destruct (C x) as [H1 H2].
    rewrite (tab_ext _ _ (rget (rho x))) by (intros; ring). rewrite <- H1 at 1. apply tab_aget. unfold wf. congruence.
  Qed.

  Notation passes := (a_passes g).
  Notation vjp := (a_vjp lax ls g rho).
  (** [L]: all paths from [i] to [x]; [D]: the velocity of tensor [i]. *)
  Definition paths_from (i : nat) (sh : list nat) (L : list (list (nat * nat))) (D : list nat -> R) : Prop :=
    NoDup L /\ (forall es, In es L <-> path g passes i es x) /\
    forall m, rsum L (fun es => ip v (path_value vjp es m)) = rsum (indices sh) (fun k => rget (unflat sh m) k * D k).

  Lemma path_depends ok i es : path g ok i es x -> depends g i x.
  Proof.
    induction 1 as [|y p z es x' He _ _ _ IH]; [apply rt_refl|].
    destruct He as (n & inc & Hn & Hp & Hz). rewrite (a_backprop ls g W n y Hn) in Hp.
    eapply depends_input; eauto. eapply nth_error_In; eauto. rewrite Hz. auto.
  Qed.

  Lemma paths_none i sh : (forall es, ~ path g passes i es x) -> paths_from i sh [] (fun _ => 0).
  Proof.
    intros H. split; [constructor|]. split.
    - intros es. split; [intros []|]. intros Hp. eapply H; eauto.
    - intros m. symmetry. apply rsum_zero. intros. ring.
  Qed.

  Lemma paths_self : paths_from x (ls x) [[]] (rget v).
  Proof.
    split; [constructor; [intros []|constructor]|]. split.
    - intros es. split.
      + intros [<-|[]]. constructor.
      + intros Hp. left. inv Hp; auto. exfalso. destruct (a_edge ls g W _ _ _ H) as (n & inc & Hn & Hi & _).
        destruct Hleaf as (n' & Hn' & Ho & _). assert (n' = n) by congruence. subst n'.
        destruct (twf_leaf ls g W x n Hn Ho) as [E _]. rewrite E in Hi. destruct p; discriminate.
    - intros m. rewrite rsum_cons. simpl path_value. unfold ip. destruct Hv as [-> _]. unfold sumf at 2. simpl. ring.
  Qed.

  (** Collecting the paths through the inputs of [i]. *)
  Lemma paths_inputs i (ok : nat -> incoming -> Prop) (c : nat -> vec -> R) ins : forall k,
    (forall p inc, nth_error ins p = Some inc -> exists L,
        NoDup L /\ (forall es, In es L <-> ok (k + p)%nat inc /\ path g passes (in_id inc) es x) /\
        forall m, rsum L (fun es => ip v (path_value vjp es (vjp i (k + p)%nat m))) = c (k + p)%nat m) ->
    exists L, NoDup L /\
      (forall es, In es L <-> exists p inc es', nth_error ins p = Some inc /\ es = (i, (k + p)%nat) :: es' /\
                                ok (k + p)%nat inc /\ path g passes (in_id inc) es' x) /\
      forall m, rsum L (fun es => ip v (path_value vjp es m)) = rsum (seq k (length ins)) (fun p => c p m).
  Proof.
    induction ins as [|inc ins IH]; intros k H.
    - exists []. split; [constructor|]. split; [|reflexivity].
      intros es. split; [intros []|]. intros (p & inc & es' & Hp & _). destruct p; discriminate.
    - destruct (IH (S k)) as (L & N & HL & HS).
      { intros p inc' Hp. specialize (H (S p) inc' Hp). rewrite Nat.add_succ_r in H. exact H. }
      destruct (H 0%nat inc eq_refl) as (L0 & N0 & HL0 & HS0). rewrite Nat.add_0_r in *.
      exists (map (cons (i, k)) L0 ++ L). split; [|split].
      + apply NoDup_app_intro.
        * clear -N0. induction N0 as [|a l Ha _ IHl]; simpl; constructor; auto.
          rewrite in_map_iff. intros (b & Hb & Hin). injection Hb as ->. contradiction.
        * auto.
        * intros es H1 H2. rewrite in_map_iff in H1. destruct H1 as (es1 & <- & _). apply HL in H2.
          destruct H2 as (p & ? & ? & _ & E & _). injection E as E _. lia.
      + intros es. rewrite in_app_iff, in_map_iff. split.
        * intros [(es1 & <- & H1)|H1].
          -- apply HL0 in H1. destruct H1. exists 0%nat, inc, es1. rewrite Nat.add_0_r. auto.
          -- apply HL in H1. destruct H1 as (p & inc' & es' & A & B & D & E). exists (S p), inc', es'.
             rewrite Nat.add_succ_r. auto.
        * intros (p & inc' & es' & A & B & D & E). destruct p as [|p].
          -- simpl in A. inv A. rewrite Nat.add_0_r in *. left. exists es'. split; auto. apply HL0. auto.
          -- right. apply HL. exists p, inc', es'. rewrite Nat.add_succ_r in *. auto.
      + intros m. rewrite rsum_app, rsum_map, HS. cbn [length seq]. rewrite rsum_cons, <- HS0. reflexivity.
  Qed.

  (** Tensors that do not depend on [x] do not move. *)
  Lemma tval_indep t : forall i ty, typed ls g i ty -> ~ depends g i x -> tval (bend t) g i = tval rho g i.
  Proof.
    induction i as [i IH] using (well_founded_induction lt_wf). intros ty Hty Hd.
    pose proof (typed_lt ls g i ty Hty) as Hl. apply nth_error_Some in Hl.
    destruct (nth_error g i) as [n|] eqn:Hn; [clear Hl|congruence].
    destruct (typed_inputs ls g i n ty Hn Hty) as [[Eo _]|(Ho & ts & HT & Hop)].
    - assert (Hix : i <> x) by (intros ->; apply Hd; apply rt_refl).
      unfold tval. rewrite (leaf_holds (bend t) g i n Hn Eo), (leaf_holds rho g i n Hn Eo).
      unfold bend, put. apply Nat.eqb_neq in Hix. rewrite Hix. reflexivity.
    - destruct (tval_eq ls (bend t) g i n ts ty (bend_conform t) Hn Ho HT Hop Hty) as [_ E1].
      destruct (tval_eq ls rho g i n ts ty C Hn Ho HT Hop Hty) as [_ E2].
      assert (E : in_vals (bend t) g n = in_vals rho g n); [|congruence].
      rewrite !in_vals_tval. apply map_ext_in. intros inc Hinc. pose proof Hinc as Hinc2. apply In_nth_error in Hinc.
      destruct Hinc as (k & Hk). destruct (Forall2_nth _ _ _ _ _ HT Hk) as (b & _ & _ & Hlt & Hb).
      eapply IH; eauto. intros Hdep. apply Hd. eapply depends_input; eauto.
  Qed.

  (** Sizes do not move either, and no gradient passes through them. *)
  Lemma size_still i n sh t : nth_error g i = Some n -> n_op n = TSize -> typed ls g i (TyA sh) ->
    aval (bend t) g i = aval rho g i.
  Proof.
    intros Hn Ho Hty. destruct (typed_inputs ls g i n (TyA sh) Hn Hty) as [[Eo _]|(Ho' & ts & HT & Hop)]; [congruence|].
    destruct (tval_eq ls (bend t) g i n ts _ (bend_conform t) Hn Ho' HT Hop Hty) as [V1 E1].
    destruct (tval_eq ls rho g i n ts _ C Hn Ho' HT Hop Hty) as [V2 E2].
    rewrite (tval_aval ls _ g i sh (bend_conform t) Hty) in E1. rewrite (tval_aval ls _ g i sh C Hty) in E2.
    rewrite Ho in *. destruct ts as [|[s0|] [|? ?]]; try discriminate Hop.
    clear -V1 V2 E1 E2. revert V1 V2 E1 E2. generalize (in_vals (bend t) g n) (in_vals rho g n). intros w1 w2 V1 V2 E1 E2.
    inversion V1 as [|a1 ? l1 ? HA1 HN1]; subst. inversion HN1; subst. apply has_tyA in HA1. destruct HA1 as (b1 & -> & [S1 L1]).
    inversion V2 as [|a2 ? l2 ? HA2 HN2]; subst. inversion HN2; subst. apply has_tyA in HA2. destruct HA2 as (b2 & -> & [S2 L2]).
    cbn [tcompute] in E1, E2. congruence.
  Qed.
  Lemma size_no_path i n es : nth_error g i = Some n -> n_op n = TSize -> ~ path g passes i es x.
  Proof.
    intros Hn Ho Hp. inv Hp.
    - destruct Hleaf as (n' & Hn' & Ho' & _). congruence.
    - destruct H0 as (n' & rs & e & Hn' & Hr & He). assert (n' = n) by congruence. subst n'. rewrite Ho in Hr. simpl in Hr. inv Hr.
      destruct p as [|[|]]; discriminate.
  Qed.

  Lemma paths_and_derivative y : t_smooth ls g rho x y -> usesx lax ls g y -> forall i sh, depends g y i -> typed ls g i (TyA sh) ->
    exists L D, paths_from i sh L D /\
      forall k, in_bounds sh k -> is_derive (fun t : R => rget (aval (bend t) g i) k) 0 (D k).
  Proof.
    intros Hsm Hfit. induction i as [i IH] using (well_founded_induction lt_wf). intros sh Hyi Hty.
    assert (Hstill : (forall es, ~ path g passes i es x) -> (forall t, aval (bend t) g i = aval rho g i) ->
      exists L D, paths_from i sh L D /\
      forall k, in_bounds sh k -> is_derive (fun t : R => rget (aval (bend t) g i) k) 0 (D k)).
    { intros H1 H2. exists [], (fun _ => 0). split; [apply paths_none; auto|]. intros k _.
      apply (is_derive_fext (fun _ => rget (aval rho g i) k)); [intros t; rewrite H2; reflexivity|]. apply @is_derive_const. }
    destruct (classic (depends g i x)) as [Hd|Hd].
    2: { apply Hstill.
         - intros es Hp. apply Hd. eapply path_depends; eauto.
         - intros t. pose proof (tval_indep t i _ Hty Hd) as E.
           rewrite (tval_aval ls _ g i sh (bend_conform t) Hty), (tval_aval ls _ g i sh C Hty) in E. congruence. }
    destruct (Nat.eq_dec i x) as [->|Hix].
    { destruct Hleaf as (n & Hn & Ho & _).
      assert (sh = ls x).
      { destruct (typed_inputs ls g x n _ Hn Hty) as [[_ E]|[E _]]; [congruence|congruence]. }
      subst sh. exists [[]], (rget v). split; [apply paths_self|]. intros k Hk.
      apply (is_derive_fext (fun t => rget (rho x) k + t * rget v k)).
      - intros t. rewrite (holds_aval (bend t) g x (bend t x)) by (eapply leaf_holds; eauto).
        unfold bend, put. rewrite Nat.eqb_refl. apply (step_get (ls x)); auto.
      - auto_derive; auto. ring. }
    pose proof (typed_lt ls g i _ Hty) as Hl. apply nth_error_Some in Hl.
    destruct (nth_error g i) as [n|] eqn:Hn; [clear Hl|congruence].
    assert (Hsz : n_op n = TSize \/ n_op n <> TSize) by (destruct (n_op n); auto; right; discriminate).
    destruct Hsz as [Hsz|Hsz].
    { apply Hstill; [intros es; eapply size_no_path; eauto|intros t; eapply size_still; eauto]. }
    destruct (Hsm i n sh Hyi Hd Hix Hn Hty Hsz) as (_ & Hdom & Hfroz).
    destruct (typed_inputs ls g i n (TyA sh) Hn Hty) as [[Eo _]|(Ho & ts & HT & Hop)].
    { exfalso. destruct (twf_leaf ls g W i n Hn Eo) as [E _]. apply Hix.
      apply clos_rt_rt1n in Hd. inv Hd; auto. destruct H as (m & inc & Hm & Hi & _).
      assert (m = n) by congruence. subst m. rewrite E in Hi. destruct Hi. }
    pose proof (typed_lookups ls g i n ts HT) as HL.
    assert (Hf : op_use lax (n_op n) ts = true) by (eapply Hfit; eauto).
    destruct (node_correct lax ls g rho C i n sh Hn Hty Ho ts HT Hop Hf) as (K & HK).
    assert (Hlen : length (n_inputs n) = length ts) by (eapply Forall2_len; eauto).
    pose (ok := fun (p : nat) (inc : incoming) => passes i p /\ differentiable g (in_id inc)).
    pose (contrib := fun (p : nat) (d : list nat -> R) (m : vec) =>
      match nth_error ts p with
      | Some (TyA shp) => rsum (indices sh) (fun k => rget (unflat sh m) k * rsum (indices shp) (fun j => K p k j * d j))
      | _ => 0
      end).
    pose (good_in := fun (p : nat) (inc : incoming) (d : list nat -> R) (L : list (list (nat * nat))) =>
      (forall shp j, nth_error ts p = Some (TyA shp) -> in_bounds shp j ->
         is_derive (fun t : R => rget (arr_of (tval (bend t) g (in_id inc))) j) 0 (d j)) /\
      (frozen (n_op n) p = true -> forall j, d j = 0) /\
      NoDup L /\ (forall es, In es L <-> ok p inc /\ path g passes (in_id inc) es x) /\
      forall m, rsum L (fun es => ip v (path_value vjp es (vjp i p m))) = contrib p d m).
    assert (HI : forall p inc, nth_error (n_inputs n) p = Some inc -> exists d L, good_in p inc d L).
    { intros p inc Hp. pose proof (nth_error_In _ _ Hp) as Hin.
      destruct (Forall2_nth _ _ _ _ _ HT Hp) as (ty & Hty' & _ & Hlt & Hit).
      assert (Hnone : (forall es, ~ (ok p inc /\ path g passes (in_id inc) es x)) ->
        (forall shp, ty = TyA shp -> forall t, aval (bend t) g (in_id inc) = aval rho g (in_id inc)) ->
        exists d L, good_in p inc d L).
      { intros Hno HD. exists (fun _ => 0), []. unfold good_in. split; [|split; [reflexivity|split; [constructor|split]]].
        - intros shp j Hs Hj. assert (ty = TyA shp) by congruence. subst ty.
          apply (is_derive_fext (fun _ => rget (aval rho g (in_id inc)) j)); [|apply @is_derive_const].
          intros t. rewrite (tval_aval ls _ g _ shp (bend_conform t) Hit), (HD shp eq_refl). reflexivity.
        - intros es. split; [intros []|]. intros H. eapply Hno; eauto.
        - intros m. unfold contrib. destruct (nth_error ts p) as [[shp|]|]; auto. symmetry. apply rsum_zero.
          intros k _. rewrite rsum_zero; [ring|]. intros; ring. }
      assert (Hpt : passes i p -> exists shp, ty = TyA shp).
      { intros Hpass. destruct (a_vjp_kernel lax ls g rho i n sh ts K p Hn Hty HL Hf HK Hpass) as (shp & E & _). exists shp. congruence. }
      destruct ty as [shp|l].
      2: { apply Hnone; [|discriminate]. intros es [[Hpass _] _]. destruct (Hpt Hpass) as (? & ?). discriminate. }
      pose proof (typed_lt ls g _ _ Hit) as Hl. apply nth_error_Some in Hl.
      destruct (nth_error g (in_id inc)) as [ni|] eqn:Hni; [clear Hl|congruence].
      assert (Hszi : n_op ni = TSize \/ n_op ni <> TSize) by (destruct (n_op ni); auto; right; discriminate).
      destruct Hszi as [Hszi|Hszi].
      { apply Hnone.
        - intros es [_ Hpath]. eapply size_no_path; eauto.
        - intros s Hs t. eapply size_still; eauto. }
      destruct (classic (depends g (in_id inc) x)) as [Hdi|Hdi].
      2: { apply Hnone.
           - intros es [_ Hpath]. apply Hdi. eapply path_depends; eauto.
           - intros s Hs t. pose proof (tval_indep t _ _ Hit Hdi) as E.
             rewrite (tval_aval ls _ g _ shp (bend_conform t) Hit), (tval_aval ls _ g _ shp C Hit) in E. congruence. }
      assert (Hdep : depends g y (in_id inc)).
      { eapply rt_trans; [exact Hyi|]. apply rt_step. exists n, inc. auto. }
      destruct (IH _ Hlt shp Hdep Hit) as (L & d & (N & HLp & HS) & HD).
      assert (Hdiff : differentiable g (in_id inc)).
      { destruct (Nat.eq_dec (in_id inc) x) as [->|Hne].
        - destruct Hleaf as (m & Hm & _ & Hd'). exists m. auto.
        - exists ni. split; auto. eapply (Hsm (in_id inc) ni); eauto. }
      assert (HD' : forall s j, nth_error ts p = Some (TyA s) -> in_bounds s j ->
         is_derive (fun t : R => rget (arr_of (tval (bend t) g (in_id inc))) j) 0 (d j)).
      { intros s j Hs Hj. assert (s = shp) by congruence. subst s.
        apply (is_derive_fext (fun t : R => rget (aval (bend t) g (in_id inc)) j)); [|apply HD; auto].
        intros t. rewrite (tval_aval ls _ g _ shp (bend_conform t) Hit). reflexivity. }
      destruct (classic (passes i p)) as [Hpass|Hpass].
      - exists d, L. split; [exact HD'|]. split; [intros Hz; exfalso; exact (Hfroz p inc Hp Hz Hdi)|]. split; auto. split.
        + intros es. rewrite HLp. unfold ok. tauto.
        + intros m. rewrite HS. destruct (a_vjp_kernel lax ls g rho i n sh ts K p Hn Hty HL Hf HK Hpass) as (shp' & E & HE).
          assert (shp' = shp) by congruence. subst shp'. rewrite HE.
          unfold contrib. rewrite Hty'. rewrite unflat_flat by (split; [reflexivity|apply tab_wf]).
          transitivity (rsum (indices shp) (fun j => rsum (indices sh) (fun k => rget (unflat sh m) k * (K p k j * d j)))).
          * apply rsum_idx_ext. intros j Hj. unfold applied. rewrite aget_tab by exact Hj. rewrite <- rsum_scale_r.
            apply rsum_ext. intros; ring.
          * rewrite rsum_swap. apply rsum_ext. intros k _. rewrite rsum_scale. reflexivity.
      - exists d, []. split; [exact HD'|]. split; [intros Hz; exfalso; exact (Hfroz p inc Hp Hz Hdi)|]. split; [constructor|]. split.
        + intros es. split; [intros []|]. intros [[A _] _]. contradiction.
        + intros m. unfold contrib. rewrite Hty'. symmetry. apply rsum_zero. intros k _. rewrite rsum_zero; [ring|].
          intros j _. destruct (trule (n_op n) (length (n_inputs n))) as [rs|] eqn:Er.
          * rewrite (us_zero _ _ _ _ _ _ _ HK rs p k j); [ring|rewrite <- Hlen; exact Er|]. intros e He. apply Hpass. exists n, rs, e. auto.
          * exfalso. destruct (n_op n); first [discriminate Er|congruence|destruct lax; discriminate Hf]. }
    (* choose the velocities *)
    assert (HC : exists d : nat -> list nat -> R,
      (forall p inc, nth_error (n_inputs n) p = Some inc -> exists L, good_in p inc (d p) L) /\
      forall p j, nth_error (n_inputs n) p = None -> d p j = 0).
    { assert (Q : forall ins k, (forall p inc, nth_error ins p = Some inc -> nth_error (n_inputs n) (k + p) = Some inc) ->
        exists ds : list (list nat -> R), length ds = length ins /\
        forall p inc, nth_error ins p = Some inc -> exists d L, nth_error ds p = Some d /\ good_in (k + p)%nat inc d L).
      { induction ins as [|inc ins IHi]; intros k Hk.
        - exists []. split; auto. intros [|p] inc H; discriminate.
        - destruct (IHi (S k)) as (ds & Hl & Hds).
          { intros p inc' Hp. specialize (Hk (S p) inc' Hp). rewrite Nat.add_succ_r in Hk. exact Hk. }
          destruct (HI (k + 0)%nat inc (Hk 0%nat inc eq_refl)) as (d & L & H).
          exists (d :: ds). split; [simpl; auto|]. intros [|p] inc' Hp.
          + simpl in Hp. inv Hp. exists d, L. split; auto.
          + simpl in Hp. destruct (Hds p inc' Hp) as (d' & L' & H'). exists d', L'. rewrite Nat.add_succ_r. exact H'. }
      destruct (Q (n_inputs n) 0%nat) as (ds & Hl & Hds); [auto|].
      exists (fun p => nth p ds (fun _ => 0)). split; [|intros p j Hp; apply nth_error_None in Hp; rewrite nth_overflow by lia; reflexivity]. intros p inc Hp. destruct (Hds p inc Hp) as (d & L & E & H). exists L.
      rewrite (nth_error_nth _ _ _ E). exact H. }
    destruct HC as (d & HC & HC0).
    destruct (paths_inputs i ok (fun p => contrib p (d p)) (n_inputs n) 0) as (L & N & HLp & HS).
    { intros p inc Hp. destruct (HC p inc Hp) as (L & _ & _ & B). exists L. exact B. }
    exists L, (fun k => spread ts K k d). split.
    - split; auto. split.
      + intros es. rewrite HLp. split.
        * intros (p & inc & es' & Hp & -> & [Hpass Hdf] & Hpath). eapply path_cons; eauto.
          exists n, inc. rewrite (a_backprop ls g W n i Hn). auto.
        * intros Hp. inv Hp; [congruence|]. destruct H as (n' & inc & Hn' & Hp & Hz).
          rewrite (a_backprop ls g W n' i Hn') in Hp. assert (n' = n) by congruence. subst n'.
          exists p, inc, es0. subst z. simpl. unfold ok. auto.
      + intros m. rewrite HS. unfold spread. rewrite Hlen.
        transitivity (rsum (seq 0 (length ts)) (fun p => rsum (indices sh) (fun k => rget (unflat sh m) k *
           match nth_error ts p with Some (TyA shp) => rsum (indices shp) (fun j => K p k j * d p j) | _ => 0 end))).
        * apply rsum_ext. intros p _. unfold contrib. destruct (nth_error ts p) as [[shp|]|]; auto;
            symmetry; apply rsum_zero; intros; ring.
        * rewrite rsum_swap. apply rsum_ext. intros k _. rewrite rsum_scale. reflexivity.
    - apply (node_diff lax ls g rho C bend bend_conform bend_zero i n sh ts K d Hn Hty Ho HT Hop Hf HK Hdom).
      + intros p j Hz. destruct (nth_error (n_inputs n) p) as [inc|] eqn:Hp; [|apply HC0; exact Hp].
        destruct (HC p inc Hp) as (L' & _ & A & _). apply A. exact Hz.
      + intros p inc shp j Hp Hs Hj. destruct (HC p inc Hp) as (L' & A & _).
        destruct (Forall2_nth _ _ _ _ _ HT Hp) as (ty & Hty' & _ & _ & Hit). assert (ty = TyA shp) by congruence. subst ty.
        apply (is_derive_fext (fun t : R => rget (arr_of (tval (bend t) g (in_id inc))) j)); [|apply (A shp j Hs Hj)].
        intros t. rewrite (tval_aval ls _ g _ shp (bend_conform t) Hit). reflexivity.
      + intros a shp j La Da Ta Hj. destruct (IH a La shp) as (L' & D' & _ & A); [eapply rt_trans; eauto|exact Ta|]. exists (D' j). apply A. exact Hj.
  Qed.
End Deriv.
