(** An optimizer step on a model: what the parameters become and how the loss
    changes. *)
From Coq Require Import String List Arith ZArith Bool Reals Lra Lia Relations.
From Coquelicot Require Import Coquelicot.
Import ListNotations.
From Verif Require Import Graph_Model Eval_Model Eval_Spec Eval_Proofs Eval_Proofs2 Graph_Proofs Eval_Update Var_Model Grad_Model Grad_Spec Grad_Proofs Scalar_Proofs.
From Verif Require Import Array_Model Array_Proofs Array_Sum Arith_Model Arith_Proofs Vjp_Spec Vjp_Proofs
  Tens_Model Tens_Spec Tens_Fwd Tens_Build Tens_Lax Tens_Rules Tens_Grad Tens_Deriv Tens_Final Tens_Joint.
From Verif Require Import Opt_Model Opt_Proofs Opt_Effect Opt_Steps P_Opt Num_Model Num_Spec Num_Proofs P_Num Train_Spec Train_Proofs.
Local Open Scope R_scope.
Local Set Bullet Behavior "Strict Subproofs".

Lemma finite_choice {A} (P : nat -> A -> Prop) (d : A) (l : list nat) :
  (forall x, In x l -> exists a, P x a) -> exists f, forall x, In x l -> P x (f x).
Proof.
  induction l as [|b l IH]; intros H; [exists (fun _ => d); intros x []|].
  destruct IH as (f & Hf); [intros x Hx; apply H; right; exact Hx|]. destruct (H b (or_introl eq_refl)) as (a & Ha).
  exists (fun x => if Nat.eqb x b then a else f x). intros x Hx. destruct (Nat.eqb_spec x b) as [->|Hne]; [exact Ha|].
  destruct Hx as [->|Hx]; [congruence|]. apply Hf. exact Hx.
Qed.
Lemma sum_negative {I} (l : list I) (f : I -> R) : (forall i, In i l -> f i <= 0) -> (exists i, In i l /\ f i < 0) ->
  fold_right Rplus 0 (map f l) < 0.
Proof.
  induction l as [|a l IH]; intros H (i & Hi & Hf); [destruct Hi|]. cbn [map fold_right].
  assert (Q : fold_right Rplus 0 (map f l) <= 0).
  { clear - H. induction l as [|b l IH]; cbn [map fold_right]; [lra|]. pose proof (H b (or_intror (or_introl eq_refl))).
    assert (fold_right Rplus 0 (map f l) <= 0); [|lra]. apply IH. intros i [->|Hi]; apply H; [left; reflexivity|right; right; exact Hi]. }
  pose proof (H a (or_introl eq_refl)). destruct Hi as [->|Hi]; [lra|].
  assert (fold_right Rplus 0 (map f l) < 0); [|lra]. apply IH; [intros j Hj; apply H; right; exact Hj|eauto].
Qed.
Lemma against sh gv (s : list nat -> R) : has_shape sh gv -> (forall i, in_bounds sh i -> 0 < s i) ->
  dot gv (tab sh (fun i => - (s i * rget gv i))) <= 0 /\
  ((exists i, in_bounds sh i /\ rget gv i <> 0) -> dot gv (tab sh (fun i => - (s i * rget gv i))) < 0).
Proof.
  intros Hg Hs. assert (E : dot gv (tab sh (fun i => - (s i * rget gv i))) = rsum (indices sh) (fun i => - (s i * (rget gv i * rget gv i)))).
  { rewrite (dot_sum sh) by (auto; apply tab_has_shape). apply rsum_idx_ext. intros i Hi. rewrite aget_tab by exact Hi. ring. }
  assert (Z : forall i, In i (indices sh) -> - (s i * (rget gv i * rget gv i)) <= 0).
  { intros i Hi. apply indices_in in Hi. pose proof (Hs i Hi). pose proof (Rle_0_sqr (rget gv i)) as Q. unfold Rsqr in Q.
    assert (0 <= s i * (rget gv i * rget gv i)); [|lra]. apply Rmult_le_pos; lra. }
  rewrite E, Comp_Proofs.rsum_list. split.
  - clear E. induction (indices sh) as [|a l IH]; cbn [map fold_right]; [lra|]. pose proof (Z a (or_introl eq_refl)).
    assert (fold_right Rplus 0 (map (fun i => - (s i * (rget gv i * rget gv i))) l) <= 0); [|lra]. apply IH. intros i Hi. apply Z. right. exact Hi.
  - intros (i & Hi & Hne). apply sum_negative; [exact Z|]. exists i. split; [apply indices_in; exact Hi|].
    assert (0 < s i * (rget gv i * rget gv i)); [|lra]. apply Rmult_lt_0_compat; [apply Hs; exact Hi|].
    apply Rsqr_pos_lt in Hne. exact Hne.
Qed.

Lemma state_rate opt lr e vid sids : state_ids (with_rate opt lr) e vid sids <-> state_ids opt e vid sids.
Proof. destruct opt; reflexivity. Qed.
Lemma operand_rate opt lr e v x : operand (with_rate opt lr) e v x <-> operand opt e v x.
Proof. destruct opt; reflexivity. Qed.
Lemma updatable_rate {O} opt lr e (g : graph O) ps gs : updatable opt e g ps gs -> updatable (with_rate opt lr) e g ps gs.
Proof. intros U. destruct opt; destruct U; constructor; auto. Qed.
Lemma shared_rate {O} opt lr e (g : graph O) ps gs : shared_readers opt e g ps gs -> shared_readers (with_rate opt lr) e g ps gs.
Proof. intros U. destruct opt; exact U. Qed.
Lemma state_ids_fun opt e vid s1 : forall s2, state_ids opt e vid s1 -> state_ids opt e vid s2 -> s1 = s2.
Proof.
  unfold state_ids. generalize (state_names opt vid). intros names. revert names.
  induction s1 as [|a s1 IH]; intros names s2 H1 H2; inversion H1; subst; inversion H2; subst; [reflexivity|].
  f_equal; [congruence|]. eapply IH; eauto.
Qed.
Lemma lookups_fun (env : list (arr R)) sids a b :
  Forall2 (fun sid x => nth_error env sid = Some x) sids a -> Forall2 (fun sid x => nth_error env sid = Some x) sids b -> a = b.
Proof.
  intros H. revert b. induction H as [|s x sids a E _ IH]; intros b Hb; inversion Hb; subst; [reflexivity|].
  f_equal; [congruence|]. apply IH. assumption.
Qed.
Lemma one_reader {O} (c : context O) p q vid : good c -> var_tensor (c_graph c) p vid -> var_tensor (c_graph c) q vid -> p = q.
Proof.
  intros [[_ _ [_ K]] _] (n & Hn & _ & Hv) (m & Hm & _ & Hw). pose proof (K _ _ _ Hn Hv). pose proof (K _ _ _ Hm Hw). congruence.
Qed.
Lemma combine_nth {A B} (l : list A) (m : list B) k a b : nth_error l k = Some a -> nth_error m k = Some b -> In (a, b) (combine l m).
Proof.
  revert m k. induction l as [|x l IH]; intros m k Hl Hm; [destruct k; discriminate|]. destruct m as [|y m]; [destruct k; discriminate|].
  destruct k; cbn in *; [left; congruence|right; eapply IH; eauto].
Qed.
Lemma in_combine_nth {A B} (l : list A) (m : list B) a b : In (a, b) (combine l m) -> exists k, nth_error l k = Some a /\ nth_error m k = Some b.
Proof.
  revert m. induction l as [|x l IH]; intros [|y m] H; cbn in H; try contradiction.
  destruct H as [E|H]; [injection E as <- <-; exists 0%nat; auto|]. destruct (IH m H) as (k & K). exists (S k). exact K.
Qed.

Section TrainStep.
  Variable lax : bool.
  Variable rnd : Z -> Z.
  Variable powf : R -> R -> R.
  Variable pop : tgraph -> list nat -> option (nat * list nat).
  Variable debug : bool.
  Variable fuel : nat.
  Variable ls : nat -> list nat.
  Variables ys xs : list nat.
  Variables g g' : tgraph.
  Variable l : list (nat * bool).
  Variable log : list nat.
  Hypothesis W : sound lax ls g.
  Hypothesis Hpop : forall g, heap_pop g (pop g).
  Hypothesis Hys : forall y, In y ys -> usesx lax ls g y /\ exists sh, shaped ls g y sh.
  Hypothesis Nxs : NoDup xs.
  Hypothesis Hxs : forall x, In x xs -> t_input_leaf g x.
  Hypothesis HG : t_grad pop debug fuel ys xs g = Ok (l, g', log).
  Hypothesis Hex : exact_inx lax rnd ls g'.
  Variable e : env (arr R).
  Variable c : context nop.
  Variable feeder : list (ph_key * arr R).
  Variable rho : nat -> arr R.
  Hypothesis C : conform ls rho.
  Hypothesis HL : leaf_arrays g' feeder (array_list e) rho.
  Hypothesis Hsm : forall x y, In x xs -> In y ys -> t_smooth ls g rho x y.
  Hypothesis Hc : c_graph c = num_graph g'.
  Hypothesis Hgood : good c.
  Variable opt : optimizer.
  Hypothesis HU : updatable opt e (c_graph c) xs (map fst l).
  Hypothesis HSh : shared_readers opt e (c_graph c) xs (map fst l).

  Let DD := tgrad_derivative_x lax pop debug fuel ys xs ls g l g' log W Hpop Hys Nxs Hxs HG.
  Let W' : sound lax ls g' := proj1 DD.
  Let Gr : grows g g' := proj1 (proj2 DD).
  Let HF := proj2 (proj2 DD).

  Lemma params_hold x vid : In x xs -> var_tensor (c_graph c) x vid -> nth_error (array_list e) vid = Some (rho x).
  Proof.
    intros Hx (n & Hn & Hph & Hv). rewrite Hc in Hn. unfold num_graph in Hn. rewrite nth_error_map in Hn.
    destruct (nth_error g' x) as [n0|] eqn:En; [|discriminate]. injection Hn as <-. cbn in Hph, Hv.
    destruct (Hxs x Hx) as (m & Hm & Ho & _). pose proof (grows_nth _ _ _ _ Gr Hm) as Hm'. assert (m = n0) by congruence. subst m.
    destruct (HL x n0 En Ho) as [(vid' & A & _ & B)|(A & _)]; congruence.
  Qed.
  Lemma gradient_value k x r : nth_error xs k = Some x -> nth_error l k = Some r ->
    tensor_value a_shape (num_compute rnd powf) debug (c_graph c) feeder (array_list e) (fst r) (inl (aval rho g' (fst r))) /\
    has_shape (ls x) (aval rho g' (fst r)) /\
    forall v, has_shape (ls x) v ->
      derivable_pt_lim (fun t => total_loss (put rho x (step (rho x) v t)) g ys) 0 (dot (aval rho g' (fst r)) v).
  Proof.
    intros Hk Hr. destruct (Forall2_nth _ _ _ _ _ HF Hk) as (r' & Hr' & Hs & HD). assert (r' = r) by congruence. subst r'.
    rewrite Hc. split.
    { pose proof (num_tensor_value_x lax rnd powf ls g' (twf_loose ls g' (proj1 W')) Hex debug feeder (array_list e) rho C HL (fst r) _ Hs) as A.
      rewrite (wtval_aval ls lax rho g' (fst r) _ C Hs) in A. exact A. }
    split; [apply (wtyped_aval ls lax rho g' (fst r) _ C Hs)|].
    intros v Hv. apply HD; auto. intros y Hy. apply Hsm; auto. eapply nth_error_In; exact Hk.
  Qed.
  Lemma output_value y e2 rho2 : In y ys -> conform ls rho2 -> leaf_arrays g' feeder (array_list e2) rho2 ->
    tensor_value a_shape (num_compute rnd powf) debug (c_graph c) feeder (array_list e2) y (inl (aval rho2 g y)).
  Proof.
    intros Hy C2 HL2. destruct (Hys y Hy) as (_ & sh & Hs).
    assert (Hlt : (y < length g)%nat) by (eapply typed_lt; exact Hs).
    rewrite Hc, <- (grows_aval rho2 g g' y Gr Hlt).
    pose proof (typed_wtyped ls lax g' y _ (grows_typed ls g g' y _ Gr Hs)) as Hw.
    pose proof (num_tensor_value_x lax rnd powf ls g' (twf_loose ls g' (proj1 W')) Hex debug feeder (array_list e2) rho2 C2 HL2 y _ Hw) as A.
    rewrite (wtval_aval ls lax rho2 g' y _ C2 Hw) in A. exact A.
  Qed.

  (** What one call of [update] does to the parameters. *)
  Lemma step_result o fuel2 c' e' :
    updatable o e (c_graph c) xs (map fst l) -> shared_readers o e (c_graph c) xs (map fst l) ->
    update (NTens TLeaf) NOpt (num_compute rnd powf) debug fuel2 o e c xs (map fst l) feeder = Ok (c', e') ->
    (forall k x r vid, nth_error xs k = Some x -> nth_error l k = Some r -> var_tensor (c_graph c) x vid ->
       exists sids svs p' svs', state_ids o e vid sids /\
         Forall2 (fun sid a => nth_error (array_list e) sid = Some a) sids svs /\
         opt_step powf o (rho x) (aval rho g' (fst r)) svs = Some (p', svs') /\
         nth_error (array_list e') vid = Some p' /\
         Forall2 (fun sid a => nth_error (array_list e') sid = Some a) sids svs') /\
    (forall v, (forall x vid, In x xs -> var_tensor (c_graph c) x vid -> ~ operand o e vid v) ->
       nth_error (array_list e') v = nth_error (array_list e) v).
  Proof.
    intros U S Hup.
    destruct (C26_simultaneous_when_shared nop unit powf (NTens TLeaf) NOpt (num_compute rnd powf) debug o e e' c c' xs (map fst l) feeder fuel2)
      as (_ & _ & P & Q); auto.
    split; [|exact Q]. intros k x r vid Hk Hr Hv.
    destruct (P k x (fst r) vid Hk) as (sids & pv & gv & svs & p' & svs' & H1 & H2 & H3 & H4 & H5 & H6 & H7); auto.
    { rewrite nth_error_map, Hr. reflexivity. }
    rewrite (params_hold x vid) in H2 by (auto; eapply nth_error_In; exact Hk).
    destruct (gradient_value k x r Hk Hr) as (H4' & _ & _). pose proof (tensor_value_fun _ _ _ _ _ _ _ _ _ H4 H4') as E.
    assert (gv = aval rho g' (fst r)) by congruence. assert (pv = rho x) by congruence. subst. eauto 12.
  Qed.

  Hypothesis Hst : forall x vid sids s i, In x xs -> var_tensor (c_graph c) x vid -> state_ids opt e vid sids -> In s sids ->
    ~ var_tensor (c_graph c) i s.
  Hypothesis Hnm : forall x vid, In x xs -> var_tensor (c_graph c) x vid -> exists sids svs, state_ids opt e vid sids /\
    Forall2 (fun sid a => nth_error (array_list e) sid = Some a) sids svs /\ no_momentum powf opt (ls x) svs.
  Hypothesis Hnz : exists x r i, In (x, r) (combine xs l) /\ in_bounds (ls x) i /\ aget 0 (aval rho g' (fst r)) i <> 0.

  Theorem step_descends : exists delta, 0 < delta /\
    forall lr fuel2 c' e', 0 < lr < delta ->
      update (NTens TLeaf) NOpt (num_compute rnd powf) debug fuel2 (with_rate opt lr) e c xs (map fst l) feeder = Ok (c', e') ->
      exists rho', conform ls rho' /\ leaf_arrays g' feeder (array_list e') rho' /\ total_loss rho' g ys < total_loss rho g ys.
  Proof.
    pose (P := fun (x : nat) (dx : arr R) => has_shape (ls x) dx /\
      (forall r, In (x, r) (combine xs l) -> dot (aval rho g' (fst r)) dx <= 0 /\
         ((exists i, in_bounds (ls x) i /\ aget 0 (aval rho g' (fst r)) i <> 0) -> dot (aval rho g' (fst r)) dx < 0)) /\
      (forall vid r, var_tensor (c_graph c) x vid -> In (x, r) (combine xs l) -> exists sids svs, state_ids opt e vid sids /\
         Forall2 (fun sid a => nth_error (array_list e) sid = Some a) sids svs /\
         forall lr, exists sts', opt_step powf (with_rate opt lr) (rho x) (aval rho g' (fst r)) svs = Some (step (rho x) dx lr, sts'))).
    assert (HD : exists d : nat -> arr R, forall x, In x xs -> P x (d x)).
    { apply (finite_choice P (rho 0%nat)). intros x Hx. destruct (u_params _ _ _ _ _ HU x Hx) as (vid & Hv).
      destruct (Hnm x vid Hx Hv) as (sids & svs & S1 & S2 & S3). apply In_nth_error in Hx. destruct Hx as (k & Hk).
      destruct (Forall2_nth _ _ _ _ _ HF Hk) as (r & Hr & _). destruct (gradient_value k x r Hk Hr) as (_ & Hgs & _).
      destruct (downhill_step powf opt (ls x) (rho x) _ svs (C x) Hgs S3) as (s & Hs & Hstep).
      assert (Hone : forall r', In (x, r') (combine xs l) -> r' = r).
      { intros r' H'. apply in_combine_nth in H'. destruct H' as (k' & A & B). assert (k' = k); [|congruence].
        eapply (proj1 (NoDup_nth_error xs) Nxs); [apply nth_error_Some; congruence|congruence]. }
      exists (tab (ls x) (fun i => - (s i * rget (aval rho g' (fst r)) i))). unfold P. split; [apply tab_has_shape|]. split.
      - intros r' H'. apply Hone in H'. subst r'. apply against; auto.
      - intros vid' r' Hv' H'. apply Hone in H'. subst r'. assert (vid' = vid).
        { destruct Hv as (n1 & A1 & _ & B1), Hv' as (n2 & A2 & _ & B2). congruence. }
        subst vid'. exists sids, svs. split; [exact S1|]. split; [exact S2|]. intros lr. destruct (Hstep lr) as (p' & sts' & E1 & E2 & E3).
        exists sts'. rewrite E1. do 2 f_equal. rewrite (tab_eq (ls x) p' _ E2 E3). symmetry. apply tab_eq.
        + apply step_has_shape; [apply C|apply tab_has_shape].
        + intros i Hi. rewrite (step_get (ls x)) by (auto; apply tab_has_shape). rewrite aget_tab by exact Hi. ring. }
    destruct HD as (d & HD). unfold P in HD. clear P.
    assert (Hd : forall x, In x xs -> has_shape (ls x) (d x)) by (intros x Hx; apply (HD x Hx)).
    pose proof (total_derivative_x lax pop debug fuel ls ys xs g g' l log W Hpop Hys Nxs Hxs HG rho C Hsm d Hd) as HT.
    apply falls in HT.
    2: { apply (sum_negative (combine xs l) (fun p => dot (aval rho g' (fst (snd p))) (d (fst p)))).
         - intros [x r] Hp. cbn [fst snd]. apply HD; auto. apply in_combine_l in Hp. exact Hp.
         - destruct Hnz as (x & r & i & Hp & Hi & Hne). exists (x, r). split; [exact Hp|]. cbn [fst snd].
           apply (HD x (in_combine_l _ _ _ _ Hp)); eauto. }
    destruct HT as (delta & Hdel & Hlow). exists delta. split; [exact Hdel|]. intros lr fuel2 c' e' Hlr Hup.
    destruct (step_result (with_rate opt lr) fuel2 c' e' (updatable_rate _ _ _ _ _ _ HU) (shared_rate _ _ _ _ _ _ HSh) Hup) as (P & Q).
    exists (move rho xs d lr). split; [apply (glide_conform ls rho C xs d Hd lr)|]. split.
    - intros i n Hn Ho. destruct (HL i n Hn Ho) as [(vid & A & B & D)|(A & B)].
      + left. exists vid. split; [exact A|]. split; [exact B|].
        assert (Hvt : var_tensor (c_graph c) i vid).
        { exists (num_node n). rewrite Hc. unfold num_graph. rewrite nth_error_map, Hn. split; [reflexivity|]. split; auto. }
        destruct (in_dec Nat.eq_dec i xs) as [Hi|Hi].
        * pose proof Hi as Hi2. apply In_nth_error in Hi2. destruct Hi2 as (k & Hk). destruct (Forall2_nth _ _ _ _ _ HF Hk) as (r & Hr & _).
          destruct (P k i r vid Hk Hr Hvt) as (sids & svs & p' & svs' & P1 & P2 & P3 & P4 & _).
          destruct (HD i Hi) as (_ & _ & H3). destruct (H3 vid r Hvt (combine_nth _ _ _ _ _ Hk Hr)) as (sids2 & svs2 & T1 & T2 & T3).
          apply state_rate in P1. assert (sids2 = sids) by (eapply state_ids_fun; eauto). subst sids2.
          assert (svs2 = svs) by (eapply lookups_fun; eauto). subst svs2. destruct (T3 lr) as (sts' & T4). rewrite T4 in P3.
          change (move rho xs d lr i) with (glide rho xs d lr i). rewrite (glide_in rho xs d lr i Hi). congruence.
        * change (move rho xs d lr i) with (glide rho xs d lr i). rewrite (glide_out rho xs d lr i Hi), Q; [exact D|].
          intros x vid' Hx Hv' Hop. apply operand_rate in Hop. destruct Hop as [<-|(sids & Hs & Hin)].
          -- apply Hi. rewrite (one_reader c i x vid); auto.
          -- eapply Hst; eauto.
      + right. split; [exact A|]. change (move rho xs d lr i) with (glide rho xs d lr i). rewrite glide_out; [exact B|]. intros Hi.
        destruct (u_params _ _ _ _ _ HU i Hi) as (vid & m & Hm & _ & Hv). rewrite Hc in Hm. unfold num_graph in Hm. rewrite nth_error_map, Hn in Hm.
        injection Hm as <-. cbn in Hv. congruence.
    - specialize (Hlow lr Hlr). change (move rho xs d 0) with (glide rho xs d 0) in Hlow.
      rewrite (glide_zero ls rho C xs d Hd) in Hlow. exact Hlow.
  Qed.
End TrainStep.
