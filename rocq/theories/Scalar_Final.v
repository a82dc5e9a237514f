(** Scalar graphs: [grad] and [grad_with_default] compute derivatives, and
    evaluation returns them. *)
From Coq Require Import String List Arith ZArith Bool Reals Lra Lia Relations Classical_Prop.
From Coquelicot Require Import Coquelicot.
Import ListNotations.
From Verif Require Import Graph_Model Eval_Model Eval_Spec Eval_Proofs Graph_Proofs Grad_Model Grad_Spec
  Grad_Path_Proofs Grad_Proofs Grad_Final Grad_Frame Scalar_Model Scalar_Spec Scalar_Rules Scalar_Proofs Scalar_Grad.
Local Open Scope R_scope.
Local Set Bullet Behavior "Strict Subproofs".

Lemma input_leaf_leaf g x : swf g -> input_leaf g x -> leaf g x /\ numeric g x /\ differentiable g x.
Proof.
  intros W (n & Hn & Ho & Hd). split.
  - exists n. split; auto. apply (swf_leaf g W x n Hn Ho).
  - split; [|exists n; auto]. destruct (swf_typed g W x n Hn) as (t & Ht). unfold numeric. rewrite Ht.
    destruct (typed_inputs g x n t Hn Ht) as [[_ ->]|[H _]]; [auto|congruence].
Qed.

(** ** Several outputs *)
Section Total.
  Variable g : sgraph.
  Hypothesis W : swf g.
  Variable rho : nat -> R.
  Variable x : nat.

  Lemma total_paths (seeds : list R) ys ds : forall k,
    (forall p y, nth_error ys p = Some y -> exists L d, nth_error ds p = Some d /\ paths_from g rho x y L d) ->
    length ds = length ys ->
    exists P, NoDup P /\
      (forall j es, In (j, es) P <-> exists p y, nth_error ys p = Some y /\ j = (k + p)%nat /\ path g (s_passes g) y es x) /\
      fold_right Rplus 0 (map (fun '(j, es) => path_value (s_vjp g rho) es (nth j seeds 0)) P)
      = wsum (fun j => nth j seeds 0) k ds.
  Proof.
    revert ds. induction ys as [|y ys IH]; intros ds k H Hlen.
    - destruct ds; [|discriminate]. exists []. split; [constructor|]. split; [|reflexivity].
      intros j es. split; [intros []|]. intros (p & y & Hp & _). destruct p; discriminate.
    - destruct ds as [|d ds]; [discriminate|]. injection Hlen as Hlen.
      destruct (IH ds (S k)) as (P & N & HP & HS); auto.
      { intros p y' Hp. apply (H (S p) y' Hp). }
      destruct (H 0%nat y eq_refl) as (L & d0 & Hd0 & NL & HL & HSL). injection Hd0 as <-.
      exists (map (pair k) L ++ P). split; [|split].
      + apply NoDup_app_intro; auto.
        * clear -NL. induction NL as [|a l Ha _ IHl]; simpl; constructor; auto.
          rewrite in_map_iff. intros (b & Hb & Hin). injection Hb as ->. contradiction.
        * intros [j es] H1 H2. rewrite in_map_iff in H1. destruct H1 as (es1 & E & _). injection E as E1 E2.
          apply HP in H2. destruct H2 as (p & ? & _ & E & _). lia.
      + intros j es. rewrite in_app_iff, in_map_iff. split.
        * intros [(es1 & E & H1)|H1].
          -- injection E as <- <-. apply HL in H1. exists 0%nat, y. rewrite Nat.add_0_r. auto.
          -- apply HP in H1. destruct H1 as (p & y' & A & B & C). exists (S p), y'. rewrite Nat.add_succ_r. auto.
        * intros (p & y' & A & B & C). destruct p as [|p].
          -- simpl in A. inv A. rewrite Nat.add_0_r. left. exists es. split; auto. apply HL. auto.
          -- right. apply HP. exists p, y'. rewrite Nat.add_succ_r in *. auto.
      + rewrite map_app, fold_right_app, map_map. simpl.
        assert (Q : forall (l : list R) z, fold_right Rplus z l = fold_right Rplus 0 l + z).
        { clear. induction l as [|a l IHl]; intros z; simpl; [ring|]. rewrite IHl. ring. }
        rewrite Q, HS, HSL. ring.
  Qed.

  Lemma total_sum seeds ys ds :
    (forall p y, nth_error ys p = Some y -> exists L d, nth_error ds p = Some d /\ paths_from g rho x y L d) ->
    length ds = length ys ->
    is_path_sum g 0 Rplus (s_vjp g rho) (s_passes g) ys seeds x (wsum (fun j => nth j seeds 0) 0 ds).
  Proof.
    intros H Hl. destruct (total_paths seeds ys ds 0 H Hl) as (P & N & HP & HS).
    exists P. split; auto. split.
    - intros k es. rewrite HP. simpl. split.
      + intros (p & y & A & -> & B). eauto.
      + intros (y & A & B). eauto.
    - rewrite <- HS. reflexivity.
  Qed.
End Total.

Lemma derive_wsum (F : nat -> R -> R) (w : nat -> R) t0 : forall (ys : list nat) (ds : list R) k,
  length ds = length ys ->
  (forall p y, nth_error ys p = Some y -> exists d : R, nth_error ds p = Some d /\ is_derive (F y) t0 d) ->
  is_derive (fun v => wsum w k (map (fun y => F y v) ys)) t0 (wsum w k ds).
Proof.
  induction ys as [|y ys IH]; intros [|d ds] k Hl H; try discriminate; simpl.
  - apply @is_derive_const.
  - destruct (H 0%nat y eq_refl) as (d' & E & D). simpl in E. inv E.
    apply (is_derive_plus (fun v => w k * F y v)).
    + apply (is_derive_scal (F y)). exact D.
    + apply IH; [injection Hl; auto|]. intros p y' Hp. apply (H (S p) y' Hp).
Qed.

(** ** [grad_with_default] *)
Theorem grad_with_default_derivative pop debug fuel ys xs gys g l g' log :
  swf g -> heap_pop g (pop g) ->
  NoDup ys -> (forall y, In y ys -> differentiable g y /\ numeric g y) ->
  NoDup xs -> (forall x, In x xs -> input_leaf g x /\ ~ In x ys) ->
  (forall t, gys = Some t -> length t = length ys /\ List.Forall (numeric g) t) ->
  s_grad_with_default pop debug fuel ys xs gys g = Ok (l, g', log) ->
  swf g' /\ grows g g' /\
  Forall2 (fun x r => numeric g' (fst r) /\
     forall rho, (forall y, In y ys -> smooth g rho x y) ->
       let ws := match gys with Some t => map (val rho g) t | None => map (fun _ => 1) ys end in
       derivable_pt_lim (fun v => wsum (fun k => nth k ws 0) 0 (map (val (set_leaf rho x v) g) ys))
         (rho x) (val rho g' (fst r)))
    xs l.
Proof.
  intros W Hpop Nys Hys Nxs Hxs Hgys H.
  assert (Hacc : forall x, In x xs -> accum_once g ys x).
  { intros x Hx. left. destruct (Hxs x Hx) as [Hl Hn]. split; auto. apply (input_leaf_leaf g x W Hl). }
  destruct (s_result g W (pop g) Hpop debug ys xs (fun y Hy => proj1 (Hys y Hy)) Nys
     (fun x Hx => proj1 (proj2 (input_leaf_leaf g x W (proj1 (Hxs x Hx))))) Nxs Hacc fuel gys g l g' log) as (W' & G' & HF); auto.
  { split; auto. apply grows_refl. }
  split; auto. split; auto.
  assert (Q : forall x (r : nat * bool), In x xs -> numeric g' (fst r) ->
    (forall rho, is_path_sum g 0 Rplus (s_vjp g rho) (s_passes g) ys
        (match gys with Some t => map (val rho g) t | None => map (fun _ => 1) ys end) x (val rho g' (fst r))) ->
    forall rho, (forall y, In y ys -> smooth g rho x y) ->
       let ws := match gys with Some t => map (val rho g) t | None => map (fun _ => 1) ys end in
       derivable_pt_lim (fun v => wsum (fun k => nth k ws 0) 0 (map (val (set_leaf rho x v) g) ys))
         (rho x) (val rho g' (fst r))).
  { intros x r Hx Hnr HP rho Hsm ws. destruct (Hxs x Hx) as [Hleaf Hny].
    destruct (input_leaf_leaf g x W Hleaf) as (Hlf & Hxn & Hxd).
    assert (HD : exists ds : list R, length ds = length ys /\ forall p y, nth_error ys p = Some y ->
       exists L d, nth_error ds p = Some d /\ paths_from g rho x y L d /\
         is_derive (fun v => val (set_leaf rho x v) g y) (rho x) d).
    { assert (HY : forall y, In y ys -> exists L d, paths_from g rho x y L d /\
         is_derive (fun v => val (set_leaf rho x v) g y) (rho x) d).
      { intros y Hy. apply (paths_and_derivative g W rho x Hlf Hxn Hleaf y); auto.
        - apply rt_refl.
        - apply Hys. auto. }
      clear -HY. induction ys as [|y ys IH].
      - exists []. split; auto. intros [|p] y H; discriminate.
      - destruct IH as (ds & Hl & Hds); [intros; apply HY; right; auto|].
        destruct (HY y (or_introl eq_refl)) as (L & d & A & B). exists (d :: ds). split; [simpl; auto|].
        intros [|p] y' Hp; simpl in Hp.
        + inv Hp. exists L, d. auto.
        + apply Hds. auto. }
    destruct HD as (ds & Hl & Hds).
    replace (val rho g' (fst r)) with (wsum (fun k => nth k ws 0) 0 ds).
    - apply is_derive_Reals.
      apply (derive_wsum (fun y v => val (set_leaf rho x v) g y) (fun k => nth k ws 0) (rho x) ys ds 0); auto.
      intros p y Hp. destruct (Hds p y Hp) as (L & d & A & _ & B). eauto.
    - apply (path_sum_unique g 0 Rplus (s_vjp g rho) (s_passes g) ys ws x).
      + intros; ring.
      + intros; ring.
      + apply total_sum; auto. intros p y Hp. destruct (Hds p y Hp) as (L & d & A & B & _). eauto.
      + apply HP. }
  clear -HF Q.
  assert (HN : Forall2 (fun x r => numeric g' (fst r) /\ forall rho, is_path_sum g 0 Rplus (s_vjp g rho) (s_passes g) ys
        (match gys with Some t => map (val rho g) t | None => map (fun _ => 1) ys end) x (val rho g' (fst r))) xs l).
  { clear Q. assert (Hlen : length xs = length l) by (eapply Forall2_len; apply (HF (fun _ => 0))).
    assert (Z : forall p x (r : nat * bool), nth_error xs p = Some x -> nth_error l p = Some r -> numeric g' (fst r) /\
        forall rho, is_path_sum g 0 Rplus (s_vjp g rho) (s_passes g) ys
        (match gys with Some t => map (val rho g) t | None => map (fun _ => 1) ys end) x (val rho g' (fst r))).
    { intros p x r Hx Hr. split.
      - destruct (Forall2_nth _ _ _ _ _ (HF (fun _ => 0)) Hx) as (r' & Hr' & A & _). congruence.
      - intros rho. destruct (Forall2_nth _ _ _ _ _ (HF rho) Hx) as (r' & Hr' & _ & A). congruence. }
    clear HF. revert l Hlen Z. induction xs as [|x xs IH]; intros [|r l] Hlen Z; try discriminate; constructor.
    - apply (Z 0%nat); auto.
    - apply IH; [injection Hlen; auto|]. intros p x' r' A B. apply (Z (S p)); auto. }
  clear HF. induction HN as [|x r xs l [A B] _ IH]; constructor.
  - split; auto. apply Q; auto. left; auto.
  - apply IH. intros; apply Q; auto. right; auto.
Qed.

(** ** [grad] *)
Lemma depends_prefix g g' i j : swf g -> grows g g' -> (i < length g)%nat -> depends g' i j -> depends g i j.
Proof.
  intros W G Hi Hd. apply clos_rt_rt1n in Hd. revert Hi. induction Hd as [|i k j (n & inc & Hn & Hin & Hk) _ IH]; intros Hi.
  - apply rt_refl.
  - pose proof Hi as Hi2. apply nth_error_Some in Hi2. destruct (nth_error g i) as [m|] eqn:Hm; [clear Hi2|congruence].
    rewrite (grows_nth g g' i m G Hm) in Hn. inv Hn.
    assert (Hlt : (in_id inc < length g)%nat).
    { destruct (swf_typed g W i n Hm) as (t & Ht).
      destruct (typed_inputs g i n t Hm Ht) as [[Eo _]|(_ & ts & HT & _)].
      - destruct (swf_leaf g W i n Hm Eo) as [E _]. rewrite E in Hin. destruct Hin.
      - apply In_nth_error in Hin. destruct Hin as (p & Hp). destruct (Forall2_nth _ _ _ _ _ HT Hp) as (b & _ & _ & H & _). lia. }
    eapply rt_trans; [|apply IH; auto]. apply rt_step. exists n, inc. auto.
Qed.

Lemma types_prefix g g' i : grows g g' -> (i < length g)%nat -> nth_error (types g') i = nth_error (types g) i.
Proof. intros [new ->] H. unfold types. apply scan_prefix. auto. Qed.

Lemma nth_prefix g g' i (n : node sop) : grows g g' -> (i < length g)%nat -> nth_error g' i = Some n -> nth_error g i = Some n.
Proof. intros [new ->] H Hn. rewrite nth_error_app1 in Hn; auto. Qed.

Lemma node_inputs_lt g i n inc : swf g -> nth_error g i = Some n -> In inc (n_inputs n) -> (in_id inc < i)%nat.
Proof.
  intros W Hm Hin. destruct (swf_typed g W i n Hm) as (t & Ht).
  destruct (typed_inputs g i n t Hm Ht) as [[Eo _]|(_ & ts & HT & _)].
  - destruct (swf_leaf g W i n Hm Eo) as [E _]. rewrite E in Hin. destruct Hin.
  - apply In_nth_error in Hin. destruct Hin as (p & Hp). destruct (Forall2_nth _ _ _ _ _ HT Hp) as (b & _ & _ & H & _). lia.
Qed.

Lemma depends_le g i j : swf g -> depends g i j -> (j <= i)%nat.
Proof.
  intros W H. apply clos_rt_rt1n in H. induction H as [|i k j (n & inc & Hn & Hin & Hk) _ IH]; auto.
  pose proof (node_inputs_lt g i n inc W Hn Hin). lia.
Qed.

(** Smoothness only looks at the tensors below. *)
Lemma smooth_grows g g' rho x y : swf g -> grows g g' -> (y < length g)%nat -> smooth g rho x y -> smooth g' rho x y.
Proof.
  intros W G Hy Hs i n Hyi Hix Hne Hn Hnum.
  apply (depends_prefix g g' y i W G Hy) in Hyi.
  assert (Hi : (i < length g)%nat) by (pose proof (depends_le g y i W Hyi); lia).
  apply (depends_prefix g g' i x W G Hi) in Hix.
  pose proof (nth_prefix g g' i n G Hi Hn) as Hn'. unfold numeric in Hnum. rewrite (types_prefix g g' i G Hi) in Hnum.
  destruct (Hs i n Hyi Hix Hne Hn' Hnum) as [A B]. split; auto.
  erewrite map_ext_in; [exact B|]. intros inc Hin. simpl. apply grows_val; auto.
  pose proof (node_inputs_lt g i n inc W Hn' Hin). lia.
Qed.

Definition sum_node (y : nat) (n : node sop) : Prop :=
  n_op n = OSumAll /\ n_inputs n = [Incoming y false 0] /\ n_diff n = true.

Lemma t_sum_all_node e s t s' : t_sum_all e s = Some (t, s') ->
  t = length s /\ exists n, s' = s ++ [n] /\ sum_node e n.
Proof.
  unfold t_sum_all, mk. destruct (build s _ OSumAll) as [[s1 id]|] eqn:Hb; [|discriminate]. intros H; inv H.
  apply build_spec in Hb. destruct Hb as (-> & _ & ->). split; auto. eexists. split; [reflexivity|].
  repeat split.
Qed.

Lemma sum_alls_spec : forall ys s ys' s', swf s -> List.Forall (numeric s) ys -> sum_alls ys s = Some (ys', s') ->
  swf s' /\ grows s s' /\ NoDup ys' /\
  Forall2 (fun y y' => (length s <= y')%nat /\ numeric s' y' /\ (forall rho, val rho s' y' = val rho s' y) /\
                       exists n, nth_error s' y' = Some n /\ sum_node y n) ys ys'.
Proof.
  induction ys as [|y ys IH]; intros s ys' s' W HF H; cbn [sum_alls] in H.
  - inv H. split; auto. split; [apply grows_refl|]. split; constructor.
  - bindH H. bindH H. inv H. inversion HF as [|? ? Hy HF']; subst.
    destruct (t_sum_all_node _ _ _ _ E) as (Ht & n & Hs0 & Hsn).
    pose proof (t_sum_all_spec _ _ _ _ W Hy E) as (W1 & G1 & N1 & V1).
    apply IH in E0; auto.
    2: { eapply Forall_impl; [|exact HF']. intros; nn. }
    destruct E0 as (W2 & G2 & ND & HF2).
    assert (Hlen : length s0 = S (length s)) by (subst s0; rewrite app_length; simpl; lia).
    split; auto. split; [eauto using grows_trans|]. split.
    + constructor; auto. intros Hin. apply In_nth_error in Hin. destruct Hin as (k & Hk).
      destruct (Forall2_nth2 _ _ _ _ _ HF2 Hk) as (b & _ & Hle & _). lia.
    + constructor.
      * split; [lia|]. split; [nn|]. split.
        -- intros rho. rewrite (grows_nval rho s0 s'), V1; auto. symmetry. eapply grows_nval; eauto using grows_trans.
        -- exists n. split; auto. eapply grows_nth; eauto. subst s0 t. rewrite nth_error_app2, Nat.sub_diag; auto.
      * eapply Forall2_imp; [|exact HF2]. simpl. intros a b (A & B & C & D). split; [lia|auto].
Qed.

Lemma smooth_sum g g' rho x y y' n : swf g -> swf g' -> grows g g' -> numeric g y -> (length g <= y')%nat -> (x < length g)%nat ->
  nth_error g' y' = Some n -> sum_node y n -> smooth g rho x y -> smooth g' rho x y'.
Proof.
  intros W W' G Hy Hle Hx Hn (So & Si & Sd) Hs.
  pose proof (smooth_grows g g' rho x y W G (numeric_lt g y Hy) Hs) as Hs'.
  intros i m Hyi Hix Hne Hm Hnum. apply clos_rt_rt1n in Hyi. inv Hyi.
  - assert (m = n) by congruence. subst m. split; auto. rewrite So, Si. simpl. exact I.
  - destruct H as (n' & inc & Hn' & Hin & Hk). assert (n' = n) by congruence. subst n'. rewrite Si in Hin.
    destruct Hin as [<-|[]]. simpl in Hk. subst y0. apply (Hs' i m); auto. apply clos_rt1n_rt. auto.
Qed.

Lemma wsum_ones w ds : (forall j, w j = 1) -> forall k, wsum w k ds = fold_right Rplus 0 ds.
Proof. intros H. induction ds as [|d ds IH]; intros k; simpl; [reflexivity|]. rewrite H, IH. ring. Qed.

Theorem grad_derivative pop debug fuel ys xs g l g' log :
  swf g -> (forall g, heap_pop g (pop g)) ->
  (forall y, In y ys -> numeric g y) ->
  NoDup xs -> (forall x, In x xs -> input_leaf g x) ->
  s_grad pop debug fuel ys xs g = Ok (l, g', log) ->
  swf g' /\ grows g g' /\
  Forall2 (fun x r => numeric g' (fst r) /\
     forall rho, (forall y, In y ys -> smooth g rho x y) ->
       derivable_pt_lim (fun v => fold_right Rplus 0 (map (val (set_leaf rho x v) g) ys))
         (rho x) (val rho g' (fst r)))
    xs l.
Proof.
  intros W Hpop Hys Nxs Hxs H. unfold s_grad in H.
  destruct (sum_alls ys g) as [[ys' g1]|] eqn:Hsum; [|discriminate].
  destruct (sum_alls_spec ys g ys' g1 W) as (W1 & G1 & ND & HF); auto.
  { apply Forall_forall. auto. }
  apply grad_with_default_derivative in H; auto; try discriminate.
  - destruct H as (W' & G' & HR). split; auto. split; [eauto using grows_trans|].
    assert (Q : forall x (r : nat * bool), In x xs -> (numeric g' (fst r) /\
       (forall rho, (forall y, In y ys' -> smooth g1 rho x y) ->
       let ws := map (fun _ => 1) ys' in
       derivable_pt_lim (fun v => wsum (fun k => nth k ws 0) 0 (map (val (set_leaf rho x v) g1) ys'))
         (rho x) (val rho g' (fst r)))) ->
       numeric g' (fst r) /\
     forall rho, (forall y, In y ys -> smooth g rho x y) ->
       derivable_pt_lim (fun v => fold_right Rplus 0 (map (val (set_leaf rho x v) g) ys))
         (rho x) (val rho g' (fst r))).
    { intros x r Hx [A B]. split; auto. intros rho Hsm.
      assert (Hsm' : forall y, In y ys' -> smooth g1 rho x y).
      { intros y' Hy'. apply In_nth_error in Hy'. destruct Hy' as (k & Hk).
        destruct (Forall2_nth2 _ _ _ _ _ HF Hk) as (y & Hy & Hle & _ & _ & n & Hn & Hsn).
        apply nth_error_In in Hy. eapply (smooth_sum g g1 rho x y y' n); eauto.
        apply numeric_lt. apply (input_leaf_leaf g x W (Hxs x Hx)). }
      specialize (B rho Hsm'). cbv zeta in B. apply is_derive_Reals in B. apply is_derive_Reals.
      eapply is_derive_ext; [|exact B]. intros v. cbv beta.
      rewrite <- (wsum_ext (fun _ => 1)).
      - rewrite wsum_one. f_equal. clear -HF Hys G1. induction HF as [|y y' ys ys' (_ & _ & V & _) _ IH]; simpl; [reflexivity|].
        rewrite V. f_equal; [apply grows_nval; auto; apply Hys; left; auto|]. apply IH. intros; apply Hys; right; auto.
      - intros i Hi. rewrite map_length in Hi. simpl in Hi. clear -Hi.
        rewrite (nth_indep _ 0 1) by (rewrite map_length; lia).
        symmetry. apply (map_nth (fun _ : nat => 1) ys' 0%nat). }
    clear -HR Q. induction HR as [|x r xs l A _ IH]; constructor.
    + apply Q; auto. left; auto.
    + apply IH. intros; apply Q; auto. right; auto.
  - intros y' Hy'. apply In_nth_error in Hy'. destruct Hy' as (k & Hk).
    destruct (Forall2_nth2 _ _ _ _ _ HF Hk) as (y & Hy & Hle & N & _ & n & Hn & _ & _ & Hd). split; auto. exists n; auto.
  - intros x Hx. destruct (Hxs x Hx) as (n & Hn & A & B). split.
    + exists n. split; [eapply grows_nth; eauto|auto].
    + intros Hin. apply In_nth_error in Hin. destruct Hin as (k & Hk).
      destruct (Forall2_nth2 _ _ _ _ _ HF Hk) as (y & Hy & Hle & _).
      assert (x < length g)%nat by (apply nth_error_Some; congruence). lia.
Qed.

(** ** Evaluating scalar graphs *)
Section Evaluation.
  Variable g : sgraph.
  Hypothesis W : swf g.
  Variable debug : bool.
  Variable feeds : list (ph_key * sval).
  Variable env : list sval.
  Variable rho : nat -> R.
  Hypothesis HL : leaf_values g feeds env rho.

  Lemma scalar_value i n t : nth_error g i = Some n -> n_op n <> OLeaf -> nth_error (types g) i = Some (Some t) ->
    value sval_shape scalar_compute debug g feeds env i (inl [sv rho g i]).
  Proof.
    revert n t. induction i as [i IH] using (well_founded_induction lt_wf). intros n t Hn Ho Ht.
    destruct (typed_inputs g i n t Hn Ht) as [[Eo _]|(_ & ts & HT & Hop)]; [congruence|].
    assert (HA : exists xs, Forall2 (arg sval_shape scalar_compute debug g feeds env) (n_inputs n) xs /\
                   map opin_val xs = map (fun inc => sv rho g (in_id inc)) (n_inputs n)).
    { clear -HT IH W HL. induction HT as [|inc ty ins ts (Hs & Hlt & Hty) _ IH2].
      - exists []. split; [constructor|reflexivity].
      - destruct IH2 as (xs & HX & HM).
        assert (HB : exists b, arg sval_shape scalar_compute debug g feeds env inc b /\ opin_val b = sv rho g (in_id inc)).
        { assert (Hlt2 : (in_id inc < length g)%nat).
          { rewrite <- (scan_length node_ty g). apply nth_error_Some. unfold types in Hty. congruence. }
          apply nth_error_Some in Hlt2. destruct (nth_error g (in_id inc)) as [m|] eqn:Hm; [clear Hlt2|congruence].
          destruct (typed_inputs g _ m ty Hm Hty) as [[Eo ->]|(Ho & _)].
          - assert (Hsv : sv rho g (in_id inc) = Num (rho (in_id inc))).
            { unfold sv, values. rewrite (scan_nth _ _ _ _ Hm). unfold node_val at 1. rewrite Eo. reflexivity. }
            destruct (HL _ m Hm Eo) as [(vid & Hv & Hp & He)|[Hv Hf]].
            + eexists. split; [eapply arg_var; eauto|]. rewrite Hsv. destruct (in_mut inc); reflexivity.
            + eexists. split; [eapply arg_ph; eauto|]. auto.
          - eexists. split; [eapply arg_op|].
            + destruct (swf_op g W _ m Hm Ho). split; [exact Hm|]. split; auto.
            + apply (IH _ Hlt m ty); auto.
            + rewrite Hs. reflexivity.
            + reflexivity. }
        destruct HB as (b & Hb & Hv). exists (b :: xs). split; [constructor; auto|]. simpl. congruence. }
    destruct HA as (xs & HX & HM).
    apply (value_run _ _ _ _ _ _ i n xs [] [sv rho g i] None); auto.
    - destruct (swf_op g W i n Hn Ho). split; [exact Hn|]. split; auto.
    - unfold scalar_compute. rewrite HM, (sv_eq rho g i n ts t); auto.
    - intros _. discriminate.
  Qed.

  Theorem scalar_tensor_value i : numeric g i ->
    tensor_value sval_shape scalar_compute debug g feeds env i (inl (Num (val rho g i))).
  Proof.
    intros H. pose proof (numeric_lt g i H) as Hl. apply nth_error_Some in Hl.
    destruct (nth_error g i) as [n|] eqn:Hn; [clear Hl|congruence].
    assert (Hsv : sv rho g i = Num (val rho g i)).
    { pose proof (numeric_val rho g i H) as E. unfold sv. rewrite E. reflexivity. }
    destruct (typed_inputs g i n TNum Hn H) as [[Eo _]|(Ho & _)].
    - rewrite (leaf_val rho g i n Hn Eo). destruct (HL i n Hn Eo) as [(vid & Hv & Hp & He)|[Hv Hf]].
      + eapply tv_var; eauto.
      + eapply tv_ph; eauto.
    - rewrite <- Hsv. apply (tv_ok _ _ _ _ _ _ i (sv rho g i) []). eapply scalar_value; eauto.
  Qed.
End Evaluation.

Lemma swf_graph g : swf g -> wf_graph g /\ acyclic g.
Proof.
  intros W. split; [split|].
  - intros i j (n & inc & Hn & Hin & <-). pose proof (node_inputs_lt g i n inc W Hn Hin).
    assert (i < length g)%nat by (apply nth_error_Some; congruence). lia.
  - intros i n Hn Hs. destruct (n_op n) eqn:Eo; try (destruct (swf_op g W i n Hn) as [A B];
      [congruence|unfold is_variable, is_placeholder in Hs; rewrite A, B in Hs; discriminate]).
    apply (swf_leaf g W i n Hn Eo).
  - intros i H.
    assert (Q : forall a b, clos_trans nat (reads_from g) a b -> (b < a)%nat).
    { induction 1 as [a b (n & inc & Hn & Hin & <-)|a b c _ IH1 _ IH2]; [|lia].
      apply (node_inputs_lt g a n inc W Hn Hin). }
    specialize (Q i i H). lia.
Qed.
