(** Checkers for concrete training programs: a graph whose leaves are the variables
    0 .. n-1 in this order. *)
From Coq Require Import String List Arith ZArith Bool Reals Lra Lia Relations.
From Coquelicot Require Import Coquelicot.
Import ListNotations.
From Verif Require Import Graph_Model Eval_Model Eval_Spec Eval_Proofs Eval_Proofs2 Graph_Proofs Eval_Update Var_Model Grad_Model Grad_Spec Grad_Examples Scalar_Proofs.
From Verif Require Import Array_Model Array_Proofs Arith_Model Vjp_Spec Vjp_Proofs Scalar_Model
  Tens_Model Tens_Spec Tens_Build Tens_Grad Tens_Final Tens_Joint Tens_Examples.
From Verif Require Import Opt_Model Opt_Proofs Opt_Effect Num_Model Num_Spec Num_Proofs P_Num Train_Spec Train_Proofs Train_Step.
Local Open Scope R_scope.
Local Set Bullet Behavior "Strict Subproofs".

(** Everything that the tensors of [todo] depend on; ids fall along inputs, so one
    pass from [i - 1] down to 0 suffices. *)
Fixpoint reach {O} (g : graph O) (i : nat) (seen : list nat) : list nat :=
  match i with
  | O => seen
  | S i => reach g i (if existsb (Nat.eqb i) seen
                      then match nth_error g i with Some n => map in_id (n_inputs n) ++ seen | None => seen end
                      else seen)
  end.
Lemma reach_keeps {O} (g : graph O) i : forall seen j, In j seen -> In j (reach g i seen).
Proof.
  induction i as [|i IH]; intros seen j H; cbn [reach]; [exact H|]. apply IH.
  destruct (existsb _ _); [|exact H]. destruct (nth_error g i); [|exact H]. apply in_or_app. right. exact H.
Qed.
Lemma reach_sound {O} (g : graph O) t i : forall seen, (forall j, In j seen -> depends g t j) -> forall j, In j (reach g i seen) -> depends g t j.
Proof.
  induction i as [|i IH]; intros seen H j Hj; cbn [reach] in Hj; [auto|]. revert j Hj. apply IH.
  destruct (existsb (Nat.eqb i) seen) eqn:E; [|exact H]. apply existsb_exists in E. destruct E as (i' & Hi & E). apply Nat.eqb_eq in E. subst i'.
  destruct (nth_error g i) as [n|] eqn:Hn; [|exact H]. intros j Hj. apply in_app_or in Hj. destruct Hj as [Hj|Hj]; [|auto].
  apply in_map_iff in Hj. destruct Hj as (inc & <- & Hinc). eapply rt_trans; [apply H; exact Hi|]. apply rt_step. exists n, inc. auto.
Qed.
Lemma reach_complete {O} (g : graph O) : (forall i n inc, nth_error g i = Some n -> In inc (n_inputs n) -> (in_id inc < i)%nat) ->
  forall i t j, (t < i)%nat -> depends g t j -> In j (reach g i [t]).
Proof.
  intros D.
  assert (Inv : forall i seen, (forall a n inc, In a seen -> (i <= a)%nat -> nth_error g a = Some n -> In inc (n_inputs n) -> In (in_id inc) seen) ->
    forall a n inc, In a (reach g i seen) -> nth_error g a = Some n -> In inc (n_inputs n) -> In (in_id inc) (reach g i seen)).
  { induction i as [|i IH]; intros seen H a n inc Ha Hn Hi; cbn [reach] in Ha |- *.
    - apply (H a n inc); auto. lia.
    - apply (IH _) with (a := a) (n := n); auto. clear a n inc Ha Hn Hi. intros a n inc Ha Hle Hn Hi.
      destruct (existsb (Nat.eqb i) seen) eqn:E.
      + apply existsb_exists in E. destruct E as (i' & Hi' & E). apply Nat.eqb_eq in E. subst i'.
        destruct (nth_error g i) as [m|] eqn:Hm.
        * apply in_app_or in Ha. destruct Ha as [Ha|Ha].
          -- apply in_map_iff in Ha. destruct Ha as (inc' & <- & Hinc'). pose proof (D _ _ _ Hm Hinc'). lia.
          -- destruct (Nat.eq_dec a i) as [->|Hne].
             ++ rewrite Hm in Hn. injection Hn as <-. apply in_or_app. left. apply in_map. exact Hi.
             ++ apply in_or_app. right. apply (H a n inc); auto. lia.
        * destruct (Nat.eq_dec a i) as [->|Hne]; [congruence|]. apply (H a n inc); auto. lia.
      + destruct (Nat.eq_dec a i) as [->|Hne]; [|apply (H a n inc); auto; lia].
        exfalso. assert (existsb (Nat.eqb i) seen = true) by (apply existsb_exists; exists i; split; [exact Ha|apply Nat.eqb_refl]). congruence. }
  intros i t j Hlt Hd.
  assert (HI : forall a n inc, In a (reach g i [t]) -> nth_error g a = Some n -> In inc (n_inputs n) -> In (in_id inc) (reach g i [t])).
  { apply Inv. intros a n inc [<-|[]] Hle. lia. }
  assert (Ht : In t (reach g i [t])) by (apply reach_keeps; left; reflexivity).
  apply clos_rt_rt1n in Hd. revert HI Ht. generalize (reach g i [t]). clear Hlt. intros s HI.
  induction Hd as [a|a c b (n & inc & Hn & Hi & <-) _ IH]; intros Ha; [exact Ha|]. apply IH. exact (HI a n inc Ha Hn Hi).
Qed.

Section Variables.
  Variable nv : nat.
  Variable ls : nat -> list nat.
  Variable g : tgraph.
  Hypothesis T : twf ls g.
  Hypothesis B : var_leaves_b nv g = true.
  Hypothesis L : forall v, (v < nv)%nat -> exists n, nth_error g v = Some n /\ n_op n = TLeaf.
  Definition own_ids (n : nat) : list (nat * nat) := map (fun i => (i, i)) (seq 0 n).
  Let c := Context (num_graph g) (own_ids nv).
  Lemma vn_nodes i n : nth_error (num_graph g) i = Some n -> exists m, nth_error g i = Some m /\ n = num_node m.
  Proof. unfold num_graph. rewrite nth_error_map. destruct (nth_error g i); [|discriminate]. intros E. injection E as <-. eauto. Qed.
  Lemma vn_leaf i m : nth_error g i = Some m -> n_op m = TLeaf -> n_var m = Some i /\ n_ph m = None /\ (i < nv)%nat.
  Proof.
    intros Hm Eo. pose proof (on_nodes_sound _ _ B i m Hm) as A. cbv beta in A. rewrite Eo in A.
    apply andb_prop in A. destruct A as [A1 A2]. apply Nat.ltb_lt in A1. destruct (n_var m); [|discriminate]. destruct (n_ph m); [discriminate|].
    apply Nat.eqb_eq in A2. subst. auto.
  Qed.
  Lemma vn_vars p v : var_tensor (num_graph g) p v -> p = v /\ (v < nv)%nat.
  Proof.
    intros (n & Hn & _ & Hv). destruct (vn_nodes p n Hn) as (m & Hm & ->). cbn in Hv.
    assert (Dm : n_op m = TLeaf \/ n_op m <> TLeaf) by (destruct (n_op m); auto; right; discriminate). destruct Dm as [Eo|Ho].
    - destruct (vn_leaf p m Hm Eo) as (A & _ & Hl). assert (p = v) by congruence. subst. auto.
    - destruct (twf_op _ _ T p m Hm Ho) as [E _]. congruence.
  Qed.
  Lemma vn_var v : (v < nv)%nat -> var_tensor (num_graph g) v v.
  Proof.
    intros H. destruct (L v H) as (n & Hn & Ho). destruct (vn_leaf v n Hn Ho) as (A & A' & _). exists (num_node n).
    unfold num_graph. rewrite nth_error_map, Hn. split; [reflexivity|]. split; auto.
  Qed.
  Lemma vn_plain i m vid : nth_error g i = Some m -> n_var m = Some vid -> n_ph m = None.
  Proof.
    intros Hm Hv. assert (Dm : n_op m = TLeaf \/ n_op m <> TLeaf) by (destruct (n_op m); auto; right; discriminate). destruct Dm as [Eo|Ho].
    - apply (vn_leaf i m Hm Eo).
    - apply (twf_op _ _ T i m Hm Ho).
  Qed.
  Lemma vn_good : good c.
  Proof.
    split; [split|].
    - intros i n inc Hn Hi. destruct (vn_nodes i n Hn) as (m & Hm & ->). pose proof (twf_input _ _ T i m inc Hm Hi) as Hlt.
      assert (Hl : (i < length (num_graph g))%nat) by (apply nth_error_Some; intros Q; unfold c in Hn; cbn [c_graph] in Hn; congruence). exact (Nat.lt_trans _ _ _ Hlt Hl).
    - intros i n Hn Hs. destruct (vn_nodes i n Hn) as (m & Hm & ->).
      assert (Dm : n_op m = TLeaf \/ n_op m <> TLeaf) by (destruct (n_op m); auto; right; discriminate). destruct Dm as [Eo|Ho].
      + apply (twf_leaf _ _ T i m Hm Eo).
      + destruct (twf_op _ _ T i m Hm Ho) as [A A']. unfold is_variable, is_placeholder in Hs. cbn in Hs. rewrite A, A' in Hs. discriminate.
    - assert (LK : forall k s vid, find_var vid (map (fun i => (i, i)) (seq s k)) = if ((s <=? vid) && (vid <? s + k))%nat then Some vid else None).
      { induction k as [|k IH]; intros s vid.
        - rewrite Nat.add_0_r. unfold find_var. cbn [seq map find option_map]. destruct (Nat.leb_spec s vid); [|reflexivity]. destruct (Nat.ltb_spec vid s); [lia|reflexivity].
        - unfold find_var in *. cbn [seq map find fst]. destruct (Nat.eqb_spec s vid) as [->|Hne].
          + cbn [option_map snd]. destruct (Nat.leb_spec vid vid); [|lia]. destruct (Nat.ltb_spec vid (vid + S k)); [reflexivity|lia].
          + rewrite IH. destruct (Nat.leb_spec (S s) vid), (Nat.leb_spec s vid); try lia; [|reflexivity].
            cbn [andb]. replace (s + S k)%nat with (S s + k)%nat by lia. reflexivity. }
      split.
      + intros vid tid H. unfold c, own_ids in H. cbn [c_vars] in H. rewrite LK in H.
        destruct ((0 <=? vid) && (vid <? 0 + nv))%nat eqn:E; [|discriminate]. injection H as <-.
        apply andb_prop in E. destruct E as [_ E]. apply Nat.ltb_lt in E. destruct (vn_var vid E) as (n & Hn & _ & Hv). exists n. auto.
      + intros tid n vid Hn Hv. destruct (vn_nodes tid n Hn) as (m & Hm & E). subst n.
        assert (V : var_tensor (num_graph g) tid vid).
        { exists (num_node m). split; [exact Hn|]. split; [|exact Hv]. exact (vn_plain tid m vid Hm Hv). }
        apply vn_vars in V. destruct V as [-> V]. unfold c, own_ids. cbn [c_vars]. rewrite LK. apply Nat.ltb_lt in V. cbn [Nat.add]. rewrite V. reflexivity.
    - intros i n vid Hn Hv. destruct (vn_nodes i n Hn) as (m & Hm & E). subst n. exact (vn_plain i m vid Hm Hv).
  Qed.

  Variable e : env (arr R).
  Variable lr : R.
  Lemma vn_sgd_operand v x : operand (SGD lr) e v x -> x = v.
  Proof. intros [->|(sids & Hs & Hin)]; [reflexivity|]. inversion Hs; subst. destruct Hin. Qed.
  Variables ps gs : list nat.
  Hypothesis Nps : NoDup ps.
  Hypothesis Hps : forall p, In p ps -> (p < nv)%nat.
  Hypothesis Hgs : forall gr, In gr gs -> (nv <= gr < length (num_graph g))%nat.
  Lemma vn_updatable : updatable (SGD lr) e (num_graph g) ps gs.
  Proof.
    constructor.
    - intros p Hp. exists p. apply vn_var. apply Hps. exact Hp.
    - intros gr Hg. apply Hgs. exact Hg.
    - intros gr i vid _ _ (n & p & [Hn _] & (inc & m & Hi & Hmut & _)). destruct (vn_nodes i n Hn) as (n0 & Hn0 & ->).
      rewrite (twf_mut _ _ T i n0 inc Hn0 (nth_error_In _ _ Hi)) in Hmut. discriminate.
    - intros k l p q v w x Hk Hl Hp Hq Hx Hy. apply vn_sgd_operand in Hx. apply vn_sgd_operand in Hy. subst. apply vn_vars in Hp. apply vn_vars in Hq.
      destruct Hp as [-> _], Hq as [-> _]. apply (proj1 (NoDup_nth_error ps) Nps); [apply nth_error_Some; congruence|congruence].
    - intros p v sids _ _ Hs. inversion Hs; subst. constructor; [intros []|constructor].
    - intros gr p v x Hg _ _ _ Hv. apply vn_vars in Hv. destruct Hv as [-> Hv]. specialize (Hgs x Hg). lia.
  Qed.
  (** The readers of a parameter among what the gradients listed before its own depend on. *)
  Definition readers_in_time_b : bool :=
    let from gr := reach (num_graph g) (length (num_graph g)) [gr] in
    forallb (fun l => match nth_error ps l with
      | Some p => let late := flat_map from (skipn l gs) in
          forallb (fun gr => forallb (fun j =>
            negb (match nth_error (num_graph g) j with Some n => existsb (fun inc => (in_id inc =? p)%nat) (n_inputs n) | None => false end) ||
            existsb (Nat.eqb j) late) (from gr)) (firstn l gs)
      | None => true
      end) (seq 0 (length ps)).
  Lemma vn_shared : readers_in_time_b = true -> shared_readers (SGD lr) e (num_graph g) ps gs.
  Proof.
    intros RB.
    assert (D : forall i n inc, nth_error (num_graph g) i = Some n -> In inc (n_inputs n) -> (in_id inc < i)%nat).
    { intros i n inc Hn Hi. destruct (vn_nodes i n Hn) as (m & Hm & ->). exact (twf_input _ _ T i m inc Hm Hi). }
    intros k l p gr v j x Hkl Hp Hg Hv Hx Hd (n & inc & m & Hn & Hi & Hm & Hph & Hvm). apply vn_sgd_operand in Hx. subst x.
    assert (E : in_id inc = p).
    { destruct (vn_vars p v Hv) as [-> _]. apply vn_vars. exists m. auto. }
    unfold readers_in_time_b in RB. cbv zeta in RB. rewrite forallb_forall in RB. specialize (RB l). rewrite in_seq in RB.
    assert (Hl : (l < length ps)%nat) by (apply nth_error_Some; congruence). specialize (RB ltac:(lia)). rewrite Hp in RB.
    rewrite forallb_forall in RB.
    assert (Hf : In gr (firstn l gs)).
    { clear -Hkl Hg. revert k l Hkl Hg. induction gs as [|a gs' IH]; intros [|k] [|l] Hkl Hg; try discriminate; try lia; cbn in *.
      - left. congruence.
      - right. apply (IH k); auto. lia. }
    specialize (RB gr Hf). rewrite forallb_forall in RB.
    assert (Hgl : (gr < length (num_graph g))%nat) by (apply Hgs; eapply nth_error_In; exact Hg).
    specialize (RB j (reach_complete _ D _ _ _ Hgl Hd)). rewrite Hn in RB. apply orb_prop in RB. destruct RB as [RB|RB].
    - apply negb_true_iff in RB. rewrite <- not_true_iff_false in RB. exfalso. apply RB. apply existsb_exists. exists inc. split; [exact Hi|].
      apply Nat.eqb_eq. exact E.
    - apply existsb_exists in RB. destruct RB as (j' & Hj' & Q). apply Nat.eqb_eq in Q. subst j'.
      apply in_flat_map in Hj'. destruct Hj' as (gr' & Hgr' & Hj').
      assert (Q : exists i, nth_error gs (l + i) = Some gr').
      { apply In_nth_error in Hgr'. destruct Hgr' as (i & Hi'). exists i. rewrite <- Hi'. clear. revert l. induction gs as [|a gs' IH]; intros [|l]; cbn; auto. destruct i; reflexivity. }
      destruct Q as (i & Hgi). exists (l + i)%nat, gr'. split; [lia|]. split; [exact Hgi|].
      revert Hj'. apply reach_sound. intros j' [<-|[]]. apply rt_refl.
  Qed.
End Variables.

Lemma leaves_first_sound (g : tgraph) nv :
  forallb (fun v => match nth_error g v with Some n => is_leaf_op (n_op n) | None => false end) (seq 0 nv) = true ->
  forall v, (v < nv)%nat -> exists n, nth_error g v = Some n /\ n_op n = TLeaf.
Proof.
  intros B v Hv. rewrite forallb_forall in B. specialize (B v). rewrite in_seq in B. specialize (B ltac:(lia)).
  destruct (nth_error g v) as [n|]; [|discriminate]. exists n. split; [reflexivity|]. destruct (n_op n); try discriminate. reflexivity.
Qed.
Lemma ids_between_sound (lo hi : nat) l : forallb (fun i => (lo <=? i) && (i <? hi))%nat l = true -> forall i, In i l -> (lo <= i < hi)%nat.
Proof.
  intros B i H. rewrite forallb_forall in B. specialize (B i H). apply andb_prop in B. destruct B as [B1 B2].
  apply Nat.leb_le in B1. apply Nat.ltb_lt in B2. exact (conj B1 B2).
Qed.
