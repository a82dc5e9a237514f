(** Scalar graphs: differentiation denotes the derivative. *)
From Coq Require Import String List Arith ZArith Bool Reals Lra Lia Relations Classical_Prop.
From Coquelicot Require Import Coquelicot.
Import ListNotations.
From Verif Require Import Graph_Model Eval_Model Eval_Spec Eval_Proofs Graph_Proofs Grad_Model Grad_Spec
  Grad_Path_Proofs Grad_Proofs Grad_Final Grad_Frame Scalar_Model Scalar_Spec Scalar_Rules Scalar_Proofs.
Local Open Scope R_scope.
Local Set Bullet Behavior "Strict Subproofs".

(** ** The denotation of gradient construction on scalar graphs *)
Section Den.
  Variable g : sgraph.
  Hypothesis W : swf g.
  Variable rho : nat -> R.

  Definition s_vjp (y p : nat) (m : R) : R :=
    match nth_error g y with
    | Some n => op_vjp (n_op n) (map (fun inc => val rho g (in_id inc)) (n_inputs n)) (val rho g y) p m
    | None => 0
    end.
  Definition s_passes (y p : nat) : Prop := exists n rs e, nth_error g y = Some n /\
    rule (n_op n) (length (n_inputs n)) = Some rs /\ nth_error rs p = Some (Some e).
  Definition s_good (s : sgraph) : Prop := swf s /\ grows g s.

  Lemma s_vjp_linear y p m : s_vjp y p m = m * s_vjp y p 1.
  Proof. unfold s_vjp. destruct (nth_error g y); [apply op_vjp_linear|ring]. Qed.

  Lemma msum_Rsum l : msum 0 Rplus l = fold_right Rplus 0 l.
  Proof. reflexivity. Qed.

  Lemma s_denotes : denotes g 0 Rplus s_vjp s_good (fun _ => numeric) (val rho) grows s_passes (s_opgrad g) t_add_n.
  Proof.
    constructor.
    - intros; ring.
    - intros; ring.
    - intros; ring.
    - intros y p a b. rewrite (s_vjp_linear y p (a + b)), (s_vjp_linear y p a), (s_vjp_linear y p b). ring.
    - intros y p. rewrite s_vjp_linear. ring.
    - apply grows_refl.
    - apply grows_trans.
    - intros x s s' t G H. split; [eapply grows_numeric; eauto|apply grows_nval; auto].
    - intros x l s t s' [Ws Gs] HF _ H. apply t_add_n_spec in H; auto. destruct H as (A & B & C & D).
      split; [split; [auto|eauto using grows_trans]|]. split; auto. split; auto. rewrite D. reflexivity.
    - intros y gy s gxs s' [Ws Gs] Hgy H. unfold s_opgrad in H.
      destruct (nth_error g y) as [n|] eqn:En; [|discriminate].
      destruct (rule (n_op n) (length (n_inputs n))) as [rs|] eqn:Er; [|discriminate].
      destruct (swf_typed g W y n En) as (ty & Hty).
      destruct (typed_inputs g y n ty En Hty) as [[Eo _]|(Ho & ts & HT & Hop)].
      { rewrite Eo in Er. discriminate. }
      assert (HTs : Forall2 (fun i ty => nth_error (types s) i = Some (Some ty)) (map in_id (n_inputs n)) ts).
      { clear -HT Gs. induction HT as [|inc ty ins ts (_ & _ & Hi) _ IH]; simpl; constructor; auto.
        eapply grows_ty; eauto. }
      assert (Hlen : length ts = length (n_inputs n)) by (symmetry; eapply Forall2_len; eauto).
      assert (Hok : forall p e, nth_error rs p = Some (Some e) -> ty = TNum /\ rexp_ok ts 0 e = true).
      { intros p e Hp. eapply rule_ok; eauto. rewrite Hlen. exact Er. }
      apply (build_rules_spec _ ts) in H; auto.
      2: { intros p e Hp. destruct (Hok p e Hp) as [-> Hr]. split; auto. eapply grows_ty; eauto. }
      destruct H as (W1 & G1 & L1 & P1).
      split; [split; [auto|eauto using grows_trans]|]. split; auto.
      intros p. specialize (P1 p). split.
      + split.
        * intros (n' & rs' & e & En' & Er' & Hp). assert (n' = n) by congruence. subst n'.
          assert (rs' = rs) by congruence. subst rs'. rewrite Hp in P1. destruct P1 as (t & Ht & _). eauto.
        * intros (t & Ht). exists n, rs. destruct (nth_error rs p) as [[e|]|] eqn:Hp.
          -- eauto.
          -- congruence.
          -- congruence.
      + intros t Ht. destruct (nth_error rs p) as [[e|]|] eqn:Hp; try congruence.
        destruct P1 as (t' & Ht' & N' & V'). assert (t' = t) by congruence. subst t'. split; auto.
        rewrite V'. destruct (Hok p e Hp) as [-> _]. unfold s_vjp, op_vjp. rewrite En, map_length, Er, Hp.
        rewrite map_map. rewrite (grows_nval rho g s y) by auto. f_equal. apply map_ext_in. intros inc Hinc.
        apply In_nth_error in Hinc. destruct Hinc as (k & Hk). destruct (Forall2_nth _ _ _ _ _ HT Hk) as (b & _ & _ & Hlt & _).
        apply grows_val; auto. assert (y < length g)%nat by (apply nth_error_Some; congruence). lia.
  Qed.

  Lemma s_one : forall X, builds s_good (fun _ => numeric) (val rho) grows X (t_scalar 1) 1.
  Proof.
    intros X s t s' [Ws Gs] H. apply t_scalar_spec in H; auto. destruct H as (A & B & C & D).
    split; [split; [auto|eauto using grows_trans]|]. auto.
  Qed.

  (** [zeros_like] for the tensors that are numbers. *)
  Definition s_zeros (x : nat) : bld nat :=
    match nth_error (types g) x with Some (Some TNum) => t_zeros_like x | _ => fun _ => None end.
  Lemma s_zeros_ok x : builds s_good (fun _ => numeric) (val rho) grows (eq x) (s_zeros x) 0.
  Proof.
    intros s t s' [Ws Gs] H. unfold s_zeros in H.
    destruct (nth_error (types g) x) as [[[]|]|] eqn:E; try discriminate.
    apply t_zeros_like_spec in H; [|auto|eapply grows_ty; eauto]. destruct H as (A & B & C & D).
    split; [split; [auto|eauto using grows_trans]|]. auto.
  Qed.

  Lemma s_backprop n y : nth_error g y = Some n -> get_backprop_inputs n = n_inputs n.
  Proof. intros H. unfold get_backprop_inputs. rewrite (swf_backprop g W y n H). reflexivity. Qed.

  Lemma s_edge y p x : edge g y p x -> exists n inc, nth_error g y = Some n /\ nth_error (n_inputs n) p = Some inc /\
    in_id inc = x /\ (x < y)%nat.
  Proof.
    intros (n & inc & Hn & Hp & Hx). rewrite (s_backprop n y Hn) in Hp. exists n, inc. repeat (split; auto).
    destruct (swf_typed g W y n Hn) as (ty & Hty).
    destruct (typed_inputs g y n ty Hn Hty) as [[Eo _]|(Ho & ts & HT & Hop)].
    - destruct (swf_leaf g W y n Hn Eo) as [E _]. rewrite E in Hp. destruct p; discriminate.
    - destruct (Forall2_nth _ _ _ _ _ HT Hp) as (b & _ & _ & Hlt & _). lia.
  Qed.

  Lemma s_ranked : ranked g.
  Proof.
    constructor.
    - intros y p x H. destruct (s_edge y p x H) as (n & inc & Hn & Hp & Hx & Hl).
      assert (y < length g)%nat by (apply nth_error_Some; congruence). split; [lia|].
      unfold rank_of at 2. rewrite Hn. subst x. eapply (swf_rank g W); eauto. eapply nth_error_In; eauto.
    - intros y p x (m & Hm & Hi) H. destruct (s_edge y p x H) as (n & inc & Hn & Hp & _).
      assert (m = n) by congruence. subst. rewrite Hi in Hp. destruct p; discriminate.
  Qed.
End Den.

Lemma extract_all_zeros {S T} (addn : list T -> S -> option (T * S)) z z' xs :
  (forall x s, In x xs -> z x s = z' x s) ->
  forall m s, extract_all addn z xs m s = extract_all addn z' xs m s.
Proof.
  induction xs as [|x xs IH]; intros H m s; simpl; [reflexivity|].
  destruct (extract_grad addn m x s) as [[[[t|] m'] s']|]; [rewrite IH by (intros; apply H; right; auto)| |]; auto.
  rewrite (H x s' (or_introl eq_refl)). destruct (z' x s') as [[t s1]|]; auto.
  rewrite IH by (intros; apply H; right; auto). reflexivity.
Qed.

(** ** The construction, for all leaf values at once *)
Section Result.
  Variable g : sgraph.
  Hypothesis W : swf g.
  Variable pop : list nat -> option (nat * list nat).
  Hypothesis Hpop : heap_pop g pop.
  Variable debug : bool.
  Variables ys xs : list nat.
  Hypothesis Hys : forall y, In y ys -> differentiable g y.
  Hypothesis Hnd : NoDup ys.
  Hypothesis Hxs : forall x, In x xs -> numeric g x.
  Hypothesis Hndx : NoDup xs.
  Hypothesis Hacc : forall x, In x xs -> accum_once g ys x.

  Lemma s_result fuel gys s l s' log :
    s_good g s ->
    (forall t, gys = Some t -> length t = length ys /\ List.Forall (numeric s) t) ->
    grad_with_default g (s_opgrad g) t_add_n (t_scalar 1) t_zeros_like pop debug fuel ys xs gys s = Ok (l, s', log) ->
    swf s' /\ grows g s' /\
    forall rho, Forall2 (fun x r => numeric s' (fst r) /\
      is_path_sum g 0 Rplus (s_vjp g rho) (s_passes g) ys
        (match gys with Some t => map (val rho s) t | None => map (fun _ => 1) ys end) x (val rho s' (fst r))) xs l.
  Proof.
    intros Hs Hg H.
    assert (E : grad_with_default g (s_opgrad g) t_add_n (t_scalar 1) (s_zeros g) pop debug fuel ys xs gys s = Ok (l, s', log)).
    { rewrite <- H. unfold grad_with_default. destruct (no_outputs ys); auto. destruct (compute_gradients _ _ _ _ _ _ _ _ _ _ _) as [st| |]; auto.
      rewrite (extract_all_zeros t_add_n (s_zeros g) t_zeros_like xs); auto.
      intros x s0 Hx. unfold s_zeros. specialize (Hxs x Hx). unfold numeric in Hxs. rewrite Hxs. reflexivity. }
    assert (HV : forall rho, seed_values (fun _ => numeric) (val rho) 1 ys gys s
               (match gys with Some t => map (val rho s) t | None => map (fun _ => 1) ys end)).
    { intros rho. destruct gys as [t|]; simpl; auto. destruct (Hg t eq_refl) as [Hl HF]. split; auto. clear -Hl HF.
      revert ys Hl. induction HF; intros [|y ys] Hl; try discriminate; constructor; auto. }
    assert (Hgood : s_good g s').
    { eapply (grad_good g 0 1 Rplus (s_vjp g (fun _ => 0)) (s_good g) (fun _ => numeric) (val (fun _ => 0)) grows (s_passes g)
         (s_opgrad g) t_add_n (t_scalar 1) (s_zeros g)); eauto using s_ranked, s_denotes, s_one, s_zeros_ok. }
    destruct Hgood as [W' G']. split; auto. split; auto. intros rho.
    pose proof (grad_path_sum g 0 1 Rplus (s_vjp g rho) (s_good g) (fun _ => numeric) (val rho) grows (s_passes g)
         (s_opgrad g) t_add_n (t_scalar 1) (s_zeros g) pop debug ys xs (s_ranked g W) Hys Hnd Hpop
         (s_denotes g W rho) (s_one g rho _) (s_zeros_ok g rho) fuel gys s _ l s' log Hs (HV rho) Hndx Hacc E) as HF.
    eapply Forall2_imp; [|exact HF]. intros a b (A & B & _). auto.
  Qed.
End Result.

(** ** Values of nodes *)
Lemma value_eq rho g i n vs : nth_error g i = Some n -> n_op n <> OLeaf ->
  Forall2 (fun inc v => in_sel inc = 0%nat /\ (in_id inc < i)%nat /\ nth_error (values rho g) (in_id inc) = Some (Some v))
    (n_inputs n) vs ->
  nth_error (values rho g) i = Some (scompute (n_op n) vs).
Proof.
  intros Hn Ho HF. assert (Hl : (i < length g)%nat) by (apply nth_error_Some; congruence).
  unfold values. rewrite (scan_nth _ _ _ _ Hn). f_equal. rewrite node_val_op by auto.
  replace (lookups _ (n_inputs n)) with (Some vs); [reflexivity|]. symmetry. apply lookups_spec.
  eapply Forall2_imp; [|exact HF]. simpl. intros inc v (A & B & C). split; auto.
  unfold values in C. rewrite <- (firstn_skipn i g) in C. rewrite scan_prefix in C; auto.
  rewrite firstn_length. lia.
Qed.

Lemma leaf_val rho g i n : nth_error g i = Some n -> n_op n = OLeaf -> val rho g i = rho i.
Proof.
  intros Hn Ho. unfold val, values. rewrite (scan_nth _ _ _ _ Hn). unfold node_val at 1. rewrite Ho. reflexivity.
Qed.

(** The operation equation of a typed node, through a total reading function. *)
Definition sv (rho : nat -> R) (g : sgraph) (i : nat) : sval :=
  match nth_error (values rho g) i with Some (Some v) => v | _ => Shp end.

Lemma sv_typed rho g i t : nth_error (types g) i = Some (Some t) ->
  nth_error (values rho g) i = Some (Some (sv rho g i)) /\ has_ty (sv rho g i) t.
Proof. intros H. destruct (typed_values rho g i t H) as (v & Hv & Ht). unfold sv. rewrite Hv. auto. Qed.
Lemma sv_val rho g i t : nth_error (types g) i = Some (Some t) -> val rho g i = num (sv rho g i).
Proof. intros H. destruct (typed_values rho g i t H) as (v & Hv & _). unfold sv, val. rewrite Hv. reflexivity. Qed.

Lemma sv_eq rho g i n ts t : nth_error g i = Some n -> n_op n <> OLeaf ->
  Forall2 (fun inc ty => in_sel inc = 0%nat /\ (in_id inc < i)%nat /\ nth_error (types g) (in_id inc) = Some (Some ty))
    (n_inputs n) ts ->
  nth_error (types g) i = Some (Some t) ->
  scompute (n_op n) (map (fun inc => sv rho g (in_id inc)) (n_inputs n)) = Some (sv rho g i).
Proof.
  intros Hn Ho HT Ht.
  assert (E : nth_error (values rho g) i = Some (scompute (n_op n) (map (fun inc => sv rho g (in_id inc)) (n_inputs n)))).
  { apply value_eq; auto. clear -HT. induction HT as [|inc ty ins ts (A & B & C) _ IH]; simpl; constructor; auto.
    repeat (split; auto). apply (sv_typed rho g _ _ C). }
  destruct (sv_typed rho g i t Ht) as [E2 _]. congruence.
Qed.

Lemma depends_input {O} (g : graph O) i n inc x : nth_error g i = Some n -> In inc (n_inputs n) ->
  depends g (in_id inc) x -> depends g i x.
Proof. intros Hn Hi Hd. eapply rt_trans; [|exact Hd]. apply rt_step. exists n, inc. auto. Qed.

(** Values do not change with leaves they do not depend on. *)
Lemma sv_indep g rho x v : swf g -> forall i, ~ depends g i x -> sv (set_leaf rho x v) g i = sv rho g i.
Proof.
  intros W. induction i as [i IH] using (well_founded_induction lt_wf). intros Hd.
  destruct (nth_error g i) as [n|] eqn:Hn.
  - destruct (swf_typed g W i n Hn) as (t & Ht).
    destruct (typed_inputs g i n t Hn Ht) as [[Eo _]|(Ho & ts & HT & Hop)].
    + assert (Hix : i <> x) by (intros ->; apply Hd; apply rt_refl).
      unfold sv, values. rewrite !(scan_nth _ _ _ _ Hn). unfold node_val at 1 3. rewrite Eo.
      unfold set_leaf. apply Nat.eqb_neq in Hix. rewrite Hix. reflexivity.
    + assert (E : Some (sv (set_leaf rho x v) g i) = Some (sv rho g i)); [|congruence].
      rewrite <- (sv_eq _ g i n ts t Hn Ho HT Ht), <- (sv_eq _ g i n ts t Hn Ho HT Ht). f_equal.
      apply map_ext_in. intros inc Hinc. pose proof Hinc as Hinc2. apply In_nth_error in Hinc. destruct Hinc as (k & Hk).
      destruct (Forall2_nth _ _ _ _ _ HT Hk) as (b & _ & _ & Hlt & _). apply IH; auto.
      intros Hdep. apply Hd. eapply depends_input; eauto.
  - unfold sv. replace (nth_error (values (set_leaf rho x v) g) i) with (@None (option sval)).
    + replace (nth_error (values rho g) i) with (@None (option sval)); [reflexivity|].
      symmetry. apply nth_error_None. unfold values. rewrite scan_length. apply nth_error_None. auto.
    + symmetry. apply nth_error_None. unfold values. rewrite scan_length. apply nth_error_None. auto.
Qed.
Lemma val_sv rho g i : val rho g i = num (sv rho g i).
Proof. unfold val, sv. destruct (nth_error (values rho g) i) as [[v|]|]; reflexivity. Qed.
Lemma set_leaf_id rho x : forall i, set_leaf rho x (rho x) i = rho i.
Proof. intros i. unfold set_leaf. destruct (i =? x)%nat eqn:E; auto. apply Nat.eqb_eq in E. congruence. Qed.
Lemma values_ext rho rho' (g : sgraph) : (forall i, rho i = rho' i) -> values rho g = values rho' g.
Proof.
  intros H. induction g as [|n g IH] using rev_ind; [reflexivity|]. unfold values in *. rewrite !scan_snoc, IH.
  f_equal. f_equal. unfold node_val. rewrite H. reflexivity.
Qed.

(** ** Paths and derivatives *)
Lemma path_value_linear g rho es : forall m, path_value (s_vjp g rho) es m = m * path_value (s_vjp g rho) es 1.
Proof.
  induction es as [|[y p] es IH]; intros m; simpl; [ring|].
  rewrite IH, (IH (s_vjp g rho y p 1)), s_vjp_linear. ring.
Qed.

Lemma rule_pass_num o tys ty rs p e : o <> OLeaf -> op_ty o tys = Some ty -> rule o (length tys) = Some rs ->
  nth_error rs p = Some (Some e) -> nth_error tys p = Some TNum.
Proof.
  intros Ho Hty Hr Hp. destruct o; try congruence.
  10: { unfold op_ty in Hty. destruct tys as [|t0 tys]; [discriminate|]. destruct (forallb _ (t0 :: tys)) eqn:E; [|discriminate].
        unfold rule in Hr. injection Hr as <-.
        assert (Hlt : (p < length (t0 :: tys))%nat).
        { assert (Q : (p < length (Some RGy :: repeat (Some RGy) (length tys)))%nat) by (apply nth_error_Some; congruence).
          simpl in *. rewrite repeat_length in Q. exact Q. }
        apply nth_error_Some in Hlt. destruct (nth_error (t0 :: tys) p) as [t|] eqn:Et; [|congruence].
        rewrite forallb_forall in E. specialize (E t (nth_error_In _ _ Et)). destruct t; try discriminate. reflexivity. }
  all: destruct tys as [|[] [|[] [|? ?]]]; try discriminate Hty; unfold rule in Hr; inv Hr; simpl in Hty; inv Hty;
    try (destruct p as [|[|[|p]]]; simpl in Hp; inv Hp; reflexivity).
  destruct b; destruct p as [|[|[|p]]]; simpl in Hp; inv Hp; reflexivity.
Qed.

Section Deriv.
  Variable g : sgraph.
  Hypothesis W : swf g.
  Variable rho : nat -> R.
  Variable x : nat.
  Hypothesis Hleaf : leaf g x.
  Hypothesis Hxn : numeric g x.
  Hypothesis Hop : exists n, nth_error g x = Some n /\ n_op n = OLeaf /\ n_diff n = true.

  Notation passes := (s_passes g).
  Notation vjp := (s_vjp g rho).
  Definition paths_from (i : nat) (L : list (list (nat * nat))) (d : R) : Prop :=
    NoDup L /\ (forall es, In es L <-> path g passes i es x) /\
    forall m, fold_right Rplus 0 (map (fun es => path_value vjp es m) L) = m * d.

  Lemma path_depends ok i es : path g ok i es x -> depends g i x.
  Proof.
    induction 1 as [|y p z es x' He _ _ _ IH]; [apply rt_refl|].
    destruct He as (n & inc & Hn & Hp & Hz). rewrite (s_backprop g W n y Hn) in Hp.
    eapply depends_input; eauto. eapply nth_error_In; eauto. rewrite Hz. auto.
  Qed.

  Lemma paths_none i : ~ depends g i x -> paths_from i [] 0.
  Proof.
    intros H. split; [constructor|]. split.
    - intros es. split; [intros []|]. intros Hp. apply H. eapply path_depends; eauto.
    - intros m. simpl. ring.
  Qed.

  Lemma paths_self : paths_from x [[]] 1.
  Proof.
    split; [constructor; [intros []|constructor]|]. split.
    - intros es. split.
      + intros [<-|[]]. constructor.
      + intros Hp. left. inv Hp; auto. exfalso. eapply (rk_leaf g (s_ranked g W)); eauto.
    - intros m. simpl. ring.
  Qed.

  (** Collecting the paths through the inputs of [i]. *)
  Lemma paths_inputs i (ok : nat -> incoming -> Prop) ins ds : forall k,
    (forall p inc, nth_error ins p = Some inc -> exists d L, nth_error ds p = Some d /\
        NoDup L /\ (forall es, In es L <-> ok (k + p)%nat inc /\ path g passes (in_id inc) es x) /\
        forall m, fold_right Rplus 0 (map (fun es => path_value vjp es (vjp i (k + p)%nat m)) L) = m * (vjp i (k + p)%nat 1 * d)) ->
    length ds = length ins ->
    exists L, NoDup L /\
      (forall es, In es L <-> exists p inc es', nth_error ins p = Some inc /\ es = (i, (k + p)%nat) :: es' /\
                                ok (k + p)%nat inc /\ path g passes (in_id inc) es' x) /\
      forall m, fold_right Rplus 0 (map (fun es => path_value vjp es m) L) = m * wsum (fun p => vjp i p 1) k ds.
  Proof.
    revert ds. induction ins as [|inc ins IH]; intros ds k H Hlen.
    - destruct ds; [|discriminate]. exists []. split; [constructor|]. split.
      + intros es. split; [intros []|]. intros (p & inc & es' & Hp & _). destruct p; discriminate.
      + intros m. simpl. ring.
    - destruct ds as [|d ds]; [discriminate|]. injection Hlen as Hlen.
      destruct (IH ds (S k)) as (L & N & HL & HS); auto.
      { intros p inc' Hp. specialize (H (S p) inc' Hp). rewrite Nat.add_succ_r in H. exact H. }
      destruct (H 0%nat inc eq_refl) as (d0 & L0 & Hd0 & N0 & HL0 & HS0). injection Hd0 as <-.
      rewrite Nat.add_0_r in *.
      exists (map (cons (i, k)) L0 ++ L). split; [|split].
      + apply NoDup_app_intro.
        * clear -N0. induction N0 as [|a l Ha _ IHl]; simpl; constructor; auto.
          rewrite in_map_iff. intros (b & Hb & Hin). injection Hb as ->. contradiction.
        * auto.
        * intros es H1 H2. rewrite in_map_iff in H1. destruct H1 as (es1 & <- & _). apply HL in H2.
          destruct H2 as (p & ? & ? & _ & E & _). injection E as E _. lia.
      + intros es. rewrite in_app_iff, in_map_iff. split.
        * intros [(es1 & <- & H1)|H1].
          -- apply HL0 in H1. destruct H1. exists 0%nat, inc, es1. rewrite Nat.add_0_r. auto.
          -- apply HL in H1. destruct H1 as (p & inc' & es' & A & B & C & D). exists (S p), inc', es'.
             rewrite Nat.add_succ_r. auto.
        * intros (p & inc' & es' & A & B & C & D). destruct p as [|p].
          -- simpl in A. inv A. rewrite Nat.add_0_r in *. left. exists es'. split; auto. apply HL0. auto.
          -- right. apply HL. exists p, inc', es'. rewrite Nat.add_succ_r in *. auto.
      + intros m. rewrite map_app, fold_right_app, map_map. simpl.
        assert (Q : forall (l : list R) z, fold_right Rplus z l = fold_right Rplus 0 l + z).
        { clear. induction l as [|a l IHl]; intros z; simpl; [ring|]. rewrite IHl. ring. }
        rewrite Q, HS, HS0. ring.
  Qed.

  Lemma paths_and_derivative y : smooth g rho x y -> forall i, depends g y i -> numeric g i ->
    exists L d, paths_from i L d /\ is_derive (fun v => val (set_leaf rho x v) g i) (rho x) d.
  Proof.
    intros Hsm. induction i as [i IH] using (well_founded_induction lt_wf). intros Hyi Hnum.
    destruct (classic (depends g i x)) as [Hd|Hd].
    2: { exists [], 0. split; [apply paths_none; auto|].
         apply is_derive_ext with (f := fun _ => val rho g i); [|apply @is_derive_const].
         intros v. rewrite !val_sv. rewrite sv_indep; auto. }
    destruct (Nat.eq_dec i x) as [->|Hix].
    { exists [[]], 1. split; [apply paths_self|]. destruct Hop as (n & Hn & Ho & _).
      apply is_derive_ext with (f := fun v => v); [|apply @is_derive_id].
      intros v. rewrite (leaf_val _ _ _ _ Hn Ho). unfold set_leaf. rewrite Nat.eqb_refl. reflexivity. }
    pose proof (numeric_lt g i Hnum) as Hl. apply nth_error_Some in Hl.
    destruct (nth_error g i) as [n|] eqn:Hn; [clear Hl|congruence].
    destruct (Hsm i n Hyi Hd Hix Hn Hnum) as [_ Hdom].
    destruct (typed_inputs g i n TNum Hn Hnum) as [[Eo _]|(Ho & ts & HT & Hty)].
    { exfalso. destruct (swf_leaf g W i n Hn Eo) as [E _]. apply Hix.
      apply clos_rt_rt1n in Hd. inv Hd; auto. destruct H as (m & inc & Hm & Hi & _).
      assert (m = n) by congruence. subst m. rewrite E in Hi. destruct Hi. }
    pose (ok := fun (p : nat) (inc : incoming) => passes i p /\ differentiable g (in_id inc)).
    (* per input: derivative and paths *)
    assert (HI : forall p inc, nth_error (n_inputs n) p = Some inc ->
      exists d L, is_derive (fun v => num (sv (set_leaf rho x v) g (in_id inc))) (rho x) d /\
        NoDup L /\ (forall es, In es L <-> ok p inc /\ path g passes (in_id inc) es x) /\
        forall m, fold_right Rplus 0 (map (fun es => path_value vjp es (vjp i p m)) L) = m * (vjp i p 1 * d)).
    { intros p inc Hp. pose proof (nth_error_In _ _ Hp) as Hin.
      destruct (Forall2_nth _ _ _ _ _ HT Hp) as (ty & Hty' & _ & Hlt & Hit).
      assert (Hnone : (~ (ok p inc /\ depends g (in_id inc) x)) ->
        is_derive (fun v => num (sv (set_leaf rho x v) g (in_id inc))) (rho x) 0 ->
        exists d L, is_derive (fun v => num (sv (set_leaf rho x v) g (in_id inc))) (rho x) d /\
        NoDup L /\ (forall es, In es L <-> ok p inc /\ path g passes (in_id inc) es x) /\
        forall m, fold_right Rplus 0 (map (fun es => path_value vjp es (vjp i p m)) L) = m * (vjp i p 1 * d)).
      { intros Hno HD. exists 0, []. split; auto. split; [constructor|]. split.
        - intros es. split; [intros []|]. intros [A B]. apply Hno. split; auto. eapply path_depends; eauto.
        - intros m. simpl. ring. }
      destruct (classic (depends g (in_id inc) x)) as [Hdi|Hdi].
      2: { apply Hnone; [tauto|]. apply is_derive_ext with (f := fun _ => num (sv rho g (in_id inc))); [|apply @is_derive_const].
           intros v. rewrite sv_indep; auto. }
      destruct ty.
      - (* a number *)
        assert (Hdep : depends g y (in_id inc)).
        { eapply rt_trans; [exact Hyi|]. apply rt_step. exists n, inc. auto. }
        destruct (IH _ Hlt Hdep Hit) as (L & d & (N & HL & HS) & HD).
        assert (Hdiff : differentiable g (in_id inc)).
        { destruct (Nat.eq_dec (in_id inc) x) as [->|Hne].
          - destruct Hop as (m & Hm & _ & Hd'). exists m. auto.
          - pose proof (numeric_lt g _ Hit) as Hl. apply nth_error_Some in Hl.
            destruct (nth_error g (in_id inc)) as [m|] eqn:Hm; [|congruence]. exists m. split; auto.
            apply (Hsm (in_id inc) m); auto. }
        assert (HD' : is_derive (fun v => num (sv (set_leaf rho x v) g (in_id inc))) (rho x) d).
        { eapply is_derive_ext; [|exact HD]. intros v. apply val_sv. }
        destruct (classic (passes i p)) as [Hpass|Hpass].
        + exists d, L. split; auto. split; auto. split.
          * intros es. rewrite HL. unfold ok. tauto.
          * intros m. rewrite HS, s_vjp_linear. ring.
        + exists d, []. split; auto. split; [constructor|]. split.
          * intros es. split; [intros []|]. intros [[A _] _]. contradiction.
          * intros m. simpl. replace (vjp i p 1) with 0; [ring|]. unfold s_vjp. rewrite Hn. unfold op_vjp. rewrite map_length.
            destruct (rule (n_op n) (length (n_inputs n))) as [rs|] eqn:Er; auto.
            destruct (nth_error rs p) as [[e|]|] eqn:Ep; auto. exfalso. apply Hpass. exists n, rs, e. auto.
      - apply Hnone.
        + intros [[(n' & rs & e & Hn' & Hr & He) _] _]. assert (n' = n) by congruence. subst n'.
          rewrite (Forall2_len _ _ _ HT) in Hr.
          rewrite (rule_pass_num _ _ _ _ _ _ Ho Hty Hr He) in Hty'. discriminate.
        + apply is_derive_ext with (f := fun _ => 0); [|apply @is_derive_const].
          intros v. destruct (sv_typed (set_leaf rho x v) g _ _ Hit) as [_ H]. destruct (sv _ g (in_id inc)); simpl in *; tauto.
      - apply Hnone.
        + intros [[(n' & rs & e & Hn' & Hr & He) _] _]. assert (n' = n) by congruence. subst n'.
          rewrite (Forall2_len _ _ _ HT) in Hr.
          rewrite (rule_pass_num _ _ _ _ _ _ Ho Hty Hr He) in Hty'. discriminate.
        + apply is_derive_ext with (f := fun _ => 0); [|apply @is_derive_const].
          intros v. destruct (sv_typed (set_leaf rho x v) g _ _ Hit) as [_ H]. destruct (sv _ g (in_id inc)); simpl in *; tauto. }
    (* choose the derivatives *)
    assert (HC : exists ds : list R, length ds = length (n_inputs n) /\
      forall p inc, nth_error (n_inputs n) p = Some inc -> exists d L, nth_error ds p = Some d /\
        is_derive (fun v => num (sv (set_leaf rho x v) g (in_id inc))) (rho x) d /\
        NoDup L /\ (forall es, In es L <-> ok p inc /\ path g passes (in_id inc) es x) /\
        forall m, fold_right Rplus 0 (map (fun es => path_value vjp es (vjp i p m)) L) = m * (vjp i p 1 * d)).
    { assert (Q : forall ins k, (forall p inc, nth_error ins p = Some inc -> nth_error (n_inputs n) (k + p) = Some inc) ->
        exists ds : list R, length ds = length ins /\
        forall p inc, nth_error ins p = Some inc -> exists d L, nth_error ds p = Some d /\
        is_derive (fun v => num (sv (set_leaf rho x v) g (in_id inc))) (rho x) d /\
        NoDup L /\ (forall es, In es L <-> ok (k + p)%nat inc /\ path g passes (in_id inc) es x) /\
        forall m, fold_right Rplus 0 (map (fun es => path_value vjp es (vjp i (k + p)%nat m)) L) = m * (vjp i (k + p)%nat 1 * d)).
      { induction ins as [|inc ins IHi]; intros k Hk.
        - exists []. split; auto. intros [|p] inc H; discriminate.
        - destruct (IHi (S k)) as (ds & Hl & Hds).
          { intros p inc' Hp. specialize (Hk (S p) inc' Hp). rewrite Nat.add_succ_r in Hk. exact Hk. }
          destruct (HI (k + 0)%nat inc (Hk 0%nat inc eq_refl)) as (d & L & H).
          exists (d :: ds). split; [simpl; auto|]. intros [|p] inc' Hp.
          + simpl in Hp. inv Hp. exists d, L. split; auto.
          + simpl in Hp. destruct (Hds p inc' Hp) as (d' & L' & H'). exists d', L'. rewrite Nat.add_succ_r. exact H'. }
      apply (Q (n_inputs n) 0%nat). auto. }
    destruct HC as (ds & Hlen & HC).
    destruct (paths_inputs i ok (n_inputs n) ds 0) as (L & N & HL & HS); auto.
    { intros p inc Hp. destruct (HC p inc Hp) as (d & L & A & _ & B). exists d, L. auto. }
    exists L, (wsum (fun p => vjp i p 1) 0 ds). split.
    - split; auto. split; auto. intros es. rewrite HL. split.
      + intros (p & inc & es' & Hp & -> & [Hpass Hdf] & Hpath). eapply path_cons; eauto.
        exists n, inc. rewrite (s_backprop g W n i Hn). auto.
      + intros Hp. inv Hp; [congruence|]. destruct H as (n' & inc & Hn' & Hp & Hz).
        rewrite (s_backprop g W n' i Hn') in Hp. assert (n' = n) by congruence. subst n'.
        exists p, inc, es0. subst z. simpl. unfold ok. auto.
    - set (Fs := map (fun inc v => sv (set_leaf rho x v) g (in_id inc)) (n_inputs n)).
      assert (Hval : forall inc, val rho g (in_id inc) = num (sv (set_leaf rho x (rho x)) g (in_id inc))).
      { intros inc. rewrite val_sv. unfold sv. rewrite (values_ext (set_leaf rho x (rho x)) rho); auto. apply set_leaf_id. }
      assert (D : is_derive (fun v => num (sv (set_leaf rho x v) g i)) (rho x)
        (wsum (fun p => op_vjp (n_op n) (map (fun F => num (F (rho x))) Fs) (num (sv (set_leaf rho x (rho x)) g i)) p 1) 0 ds)).
      { apply (op_rule_correct (n_op n) Fs ts ds (rho x) (fun v => sv (set_leaf rho x v) g i)); auto.
        - unfold Fs. clear -HT. induction HT as [|inc ty ins ts (_ & _ & C) _ IHf]; simpl; constructor; auto.
          intros t. apply (sv_typed _ g _ _ C).
        - unfold Fs. clear -HC Hlen. revert ds Hlen HC. generalize (n_inputs n).
          assert (Q : forall (l : list incoming) (ds : list R), length ds = length l ->
             (forall p inc, nth_error l p = Some inc -> exists d, nth_error ds p = Some d /\
                is_derive (fun v => num (sv (set_leaf rho x v) g (in_id inc))) (rho x) d) ->
             Forall2 (fun F (d : R) => is_derive (fun t => num (F t)) (rho x) d)
               (map (fun inc v => sv (set_leaf rho x v) g (in_id inc)) l) ds).
          { induction l as [|inc l IHl]; intros [|d ds] Hl H; try discriminate; simpl; constructor.
            - destruct (H 0%nat inc eq_refl) as (d' & E & HD). simpl in E. inv E. auto.
            - apply IHl; [injection Hl; auto|]. intros p inc' Hp. apply (H (S p) inc' Hp). }
          intros l ds Hl HC. apply Q; auto. intros p inc Hp. destruct (HC p inc Hp) as (d & L & A & B & _). eauto.
        - unfold Fs. rewrite map_map. erewrite map_ext; [exact Hdom|]. intros inc. simpl. symmetry. apply Hval.
        - intros t. unfold Fs. rewrite map_map. apply (sv_eq _ g i n ts TNum); auto. }
      eapply is_derive_ext; [intros v; symmetry; apply val_sv|].
      evar_last; [exact D|]. apply wsum_ext. intros p _. unfold s_vjp. rewrite Hn. f_equal.
      + unfold Fs. rewrite map_map. apply map_ext. intros inc. simpl. symmetry. apply Hval.
      + rewrite val_sv. unfold sv. rewrite (values_ext (set_leaf rho x (rho x)) rho); auto. apply set_leaf_id.
  Qed.
End Deriv.
