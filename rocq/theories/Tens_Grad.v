(** Array graphs: what gradient construction denotes. *)
From Coq Require Import String List Arith ZArith Bool Lia Reals Lra Relations FunctionalExtensionality Permutation.
Import ListNotations.
From Verif Require Import Graph_Model Eval_Model Eval_Spec Eval_Proofs Graph_Proofs Grad_Model Grad_Spec
  Grad_Path_Proofs Grad_Proofs Grad_Final Grad_Frame Scalar_Model Scalar_Spec Scalar_Rules Scalar_Proofs Scalar_Grad.
From Verif Require Import Array_Model Array_Proofs Array_Sum Arith_Model Arith_Proofs Arith_Final Vjp_Spec Vjp_Proofs
  Reduce_Model Reduce_Spec Reduce_Proofs Shape_Model Shape_Spec Shape_Proofs3
  Tens_Model Tens_Spec Tens_Fwd Tens_Build Tens_Rules Tens_Rules2 Tens_Rules3 Tens_Rules4 Tens_Ops Tens_Lax.
Local Set Bullet Behavior "Strict Subproofs".
Local Open Scope R_scope.

(** ** Gradients as plain sequences of numbers *)
Notation vec := (nat -> R).
Definition vzero : vec := fun _ => 0.
Definition vadd (a b : vec) : vec := fun k => a k + b k.
Definition flat (a : arr R) : vec := fun k => nth k (a_data a) 0.
Definition unflat (sh : list nat) (m : vec) : arr R := Arr sh (map m (seq 0 (prod sh))).

Lemma unflat_shape sh m : has_shape sh (unflat sh m).
Proof. split; [reflexivity|]. simpl. rewrite map_length, seq_length. reflexivity. Qed.
Lemma unflat_flat sh a : has_shape sh a -> unflat sh (flat a) = a.
Proof.
  intros [H1 H2]. unfold unflat, flat. rewrite <- H2, map_seq_nth. destruct a; simpl in *. congruence.
Qed.
Lemma unflat_get sh m i : in_bounds sh i -> rget (unflat sh m) i = m (ravel sh i).
Proof.
  intros H. unfold aget, unflat. cbn [a_shape a_data]. pose proof (ravel_lt _ _ H).
  rewrite (nth_indep _ 0 (m 0%nat)) by (rewrite map_length, seq_length; auto).
  rewrite map_nth, seq_nth by auto. reflexivity.
Qed.
Lemma flat_tab_nth sh f k : flat (tab sh f) k = match nth_error (indices sh) k with Some i => f i | None => 0 end.
Proof.
  unfold flat, tab. cbn [a_data]. generalize (indices sh). intros l. revert k.
  induction l as [|a l IH]; intros [|k]; simpl; auto.
Qed.
Lemma flat_tab_add sh f h : flat (tab sh (fun i => f i + h i)) = vadd (flat (tab sh f)) (flat (tab sh h)).
Proof.
  apply functional_extensionality. intros k. unfold vadd. rewrite !flat_tab_nth. destruct (nth_error (indices sh) k); ring.
Qed.
Lemma flat_tab_zero sh : flat (tab sh (fun _ => 0)) = vzero.
Proof. apply functional_extensionality. intros k. rewrite flat_tab_nth. destruct (nth_error (indices sh) k); reflexivity. Qed.
Lemma flat_total sh l : List.Forall (has_shape sh) l -> flat (tab sh (total l)) = msum vzero vadd (map flat l).
Proof.
  induction 1 as [|a l Ha _ IH]; simpl.
  - apply flat_tab_zero.
  - rewrite <- IH. rewrite (tab_ext sh (total (a :: l)) (fun i => rget a i + total l i)) by reflexivity.
    rewrite flat_tab_add. f_equal. destruct Ha as [H1 H2]. rewrite <- H1, tab_aget by (unfold wf; congruence). reflexivity.
Qed.

Lemma applied_add shp sh k a b : flat (applied shp sh k (unflat sh (vadd a b))) =
  vadd (flat (applied shp sh k (unflat sh a))) (flat (applied shp sh k (unflat sh b))).
Proof.
  unfold applied. rewrite <- flat_tab_add. f_equal. apply tab_ext. intros j _. rewrite <- rsum_add. apply rsum_idx_ext.
  intros i Hi. rewrite !unflat_get by auto. unfold vadd. ring.
Qed.
Lemma applied_zero shp sh k : flat (applied shp sh k (unflat sh vzero)) = vzero.
Proof.
  transitivity (flat (tab shp (fun _ => 0))); [|apply flat_tab_zero]. unfold applied. f_equal. apply tab_ext. intros j _. apply rsum_zero.
  intros i Hi. apply indices_in in Hi. rewrite !unflat_get by auto. unfold vzero. ring.
Qed.

(** ** The value at a tensor *)
Definition tval (rho : nat -> arr R) (g : tgraph) (i : nat) : tv :=
  match nth_error (tvalues rho g) i with Some (Some v) => v | _ => TI [] end.
Lemma in_vals_tval rho g n : in_vals rho g n = map (fun inc => tval rho g (in_id inc)) (n_inputs n).
Proof. reflexivity. Qed.
Lemma tval_typed ls rho g i t : conform ls rho -> typed ls g i t -> holds rho g i (tval rho g i) /\ has_ty (tval rho g i) t.
Proof. intros C H. destruct (typed_values ls rho g C i t H) as (v & Hv & Ht). unfold tval. rewrite Hv. auto. Qed.
Lemma tval_aval ls rho g i sh : conform ls rho -> typed ls g i (TyA sh) -> tval rho g i = TA (aval rho g i).
Proof. intros C H. destruct (typed_aval ls rho g i sh C H) as [Hh _]. unfold tval. rewrite Hh. reflexivity. Qed.

(** The operation equation. *)
Lemma tval_eq ls rho g i n ts t : conform ls rho -> nth_error g i = Some n -> n_op n <> TLeaf ->
  Forall2 (fun inc ty => in_sel inc = 0%nat /\ (in_id inc < i)%nat /\ typed ls g (in_id inc) ty) (n_inputs n) ts ->
  op_ty (n_op n) ts = Some t -> typed ls g i t ->
  Forall2 has_ty (in_vals rho g n) ts /\ tcompute (n_op n) (in_vals rho g n) = Some (tval rho g i).
Proof.
  intros C Hn Ho HT Hop Ht.
  assert (HV : Forall2 has_ty (in_vals rho g n) ts).
  { rewrite in_vals_tval. clear -C HT. induction HT as [|inc ty ins ts (_ & _ & H) _ IH]; simpl; constructor; auto.
    apply (tval_typed ls rho g _ _ C H). }
  split; auto. destruct (op_ty_sound _ _ _ _ Hop Ho HV) as (v & Hv & _). rewrite Hv. f_equal.
  assert (Hh : holds rho g i v).
  { eapply node_holds; eauto. rewrite in_vals_tval. clear -C HT.
    induction HT as [|inc ty ins ts (A & B & H) _ IH]; simpl; constructor; auto.
    repeat (split; auto). apply (tval_typed ls rho g _ _ C H). }
  destruct (tval_typed ls rho g i t C Ht) as [Hh2 _]. eapply holds_fun; eauto.
Qed.

Lemma typed_lookups ls (g : tgraph) i (n : node top) ts :
  Forall2 (fun inc ty => in_sel inc = 0%nat /\ (in_id inc < i)%nat /\ typed ls g (in_id inc) ty) (n_inputs n) ts ->
  lookups (ttypes ls g) (n_inputs n) = Some ts.
Proof. intros H. apply lookups_spec. eapply Forall2_imp; [|exact H]. simpl. tauto. Qed.

Lemma fits_input lax ls (g : tgraph) y n inc : nth_error g y = Some n -> In inc (n_inputs n) -> usesx lax ls g y -> usesx lax ls g (in_id inc).
Proof. intros Hn Hi H i m ts Hd. apply H. eapply depends_input; eauto. Qed.

(** ** The denotation *)
Section Den.
  Variable lax : bool.
  Variable ls : nat -> list nat.
  Variable g : tgraph.
  Hypothesis W : twf ls g.
  Variable rho : nat -> arr R.
  Hypothesis C : conform ls rho.

  (** What the rule of [y] propagates to its [p]-th input. *)
  Definition a_vjp (y p : nat) (m : vec) : vec :=
    match nth_error g y, nth_error (ttypes ls g) y with
    | Some n, Some (Some (TyA sh)) =>
        match lookups (ttypes ls g) (n_inputs n), trule (n_op n) (length (n_inputs n)) with
        | Some ts, Some rs =>
            match nth_error rs p with
            | Some (Some e) =>
                if op_use lax (n_op n) ts then
                  match eeval (in_vals rho g n) (TA (aval rho g y)) (TA (unflat sh m)) [] e with
                  | Some (TA a) => flat a
                  | _ => vzero
                  end
                else vzero
            | _ => vzero
            end
        | _, _ => vzero
        end
    | _, _ => vzero
    end.
  Definition a_passes (y p : nat) : Prop := exists n rs e, nth_error g y = Some n /\
    trule (n_op n) (length (n_inputs n)) = Some rs /\ nth_error rs p = Some (Some e).
  Definition a_good (s : tgraph) : Prop := sound lax ls s /\ grows g s.
  (** A gradient of [y] has [y]'s shape. *)
  Definition a_valid (y : nat) (s : tgraph) (t : nat) : Prop :=
    usesx lax ls g y /\ exists sh, typed ls g y (TyA sh) /\ wtyped ls lax s t (TyA sh).
  Definition a_den (s : tgraph) (t : nat) : vec := flat (aval rho s t).

  (** A usable node with its kernel. *)
  Lemma node_correct y n sh : nth_error g y = Some n -> typed ls g y (TyA sh) -> n_op n <> TLeaf ->
    forall ts, Forall2 (fun inc ty => in_sel inc = 0%nat /\ (in_id inc < y)%nat /\ typed ls g (in_id inc) ty) (n_inputs n) ts ->
    op_ty (n_op n) ts = Some (TyA sh) -> op_use lax (n_op n) ts = true ->
    exists K, usable lax (n_op n) ts (in_vals rho g n) sh (aval rho g y) K.
  Proof.
    intros Hn Hy Ho ts HT Hop Hf. destruct (tval_eq ls rho g y n ts (TyA sh) C Hn Ho HT Hop Hy) as [HV HE].
    rewrite (tval_aval ls rho g y sh C Hy) in HE. apply op_usable; auto.
  Qed.

  Lemma a_vjp_kernel y n sh ts K p : nth_error g y = Some n -> typed ls g y (TyA sh) ->
    lookups (ttypes ls g) (n_inputs n) = Some ts -> op_use lax (n_op n) ts = true ->
    usable lax (n_op n) ts (in_vals rho g n) sh (aval rho g y) K -> a_passes y p ->
    exists shp, nth_error ts p = Some (TyA shp) /\ forall m, a_vjp y p m = flat (applied shp sh (K p) (unflat sh m)).
  Proof.
    intros Hn Hy HL Hf HK (n' & rs & e & Hn' & Hr & He). assert (n' = n) by congruence. subst n'.
    assert (Hlen : length (n_inputs n) = length ts) by (apply lookups_spec in HL; eapply Forall2_len; eauto).
    pose proof Hr as Hr'. rewrite Hlen in Hr'.
    destruct (us_rule _ _ _ _ _ _ _ HK rs p e Hr' He) as (shp & A & _ & B). exists shp. split; auto. intros m.
    unfold a_vjp. rewrite Hn. unfold typed in Hy. rewrite Hy, HL, Hr, He, Hf, B by apply unflat_shape. reflexivity.
  Qed.

  Lemma a_vjp_cases y p : (forall m, a_vjp y p m = vzero) \/
    exists shp sh k, forall m, a_vjp y p m = flat (applied shp sh k (unflat sh m)).
  Proof.
    unfold a_vjp. destruct (nth_error g y) as [n|] eqn:Hn; [|left; reflexivity].
    destruct (nth_error (ttypes ls g) y) as [[[sh|l]|]|] eqn:Hy; try (left; reflexivity).
    destruct (lookups (ttypes ls g) (n_inputs n)) as [ts|] eqn:HL; [|left; reflexivity].
    destruct (trule (n_op n) (length (n_inputs n))) as [rs|] eqn:Hr; [|left; reflexivity].
    destruct (nth_error rs p) as [[e|]|] eqn:He; try (left; reflexivity).
    destruct (op_use lax (n_op n) ts) eqn:Hf; [|left; reflexivity]. right.
    destruct (typed_inputs ls g y n (TyA sh) Hn Hy) as [[Eo _]|(Ho & ts' & HT & Hop)].
    { rewrite Eo in Hr. discriminate. }
    assert (ts' = ts) by (rewrite (typed_lookups ls g y n ts' HT) in HL; congruence). subst ts'.
    destruct (node_correct y n sh Hn Hy Ho ts HT Hop Hf) as (K & HK).
    assert (Hp : a_passes y p) by (exists n, rs, e; auto).
    destruct (a_vjp_kernel y n sh ts K p Hn Hy HL Hf HK Hp) as (shp & _ & B).
    exists shp, sh, (K p). intros m. rewrite <- B. unfold a_vjp. rewrite Hn, Hy, HL, Hr, He, Hf. reflexivity.
  Qed.

  Lemma vadd_zero : vadd vzero vzero = vzero.
  Proof. apply functional_extensionality. intros k. unfold vadd, vzero. ring. Qed.

  Lemma a_backprop n y : nth_error g y = Some n -> get_backprop_inputs n = n_inputs n.
  Proof. intros H. unfold get_backprop_inputs. rewrite (twf_backprop ls g W y n H). reflexivity. Qed.
  Lemma a_edge y p x : edge g y p x -> exists n inc, nth_error g y = Some n /\ nth_error (n_inputs n) p = Some inc /\
    in_id inc = x /\ (x < y)%nat.
  Proof.
    intros (n & inc & Hn & Hp & Hx). rewrite (a_backprop n y Hn) in Hp. exists n, inc. repeat (split; auto).
    subst x. eapply (twf_input ls g W); eauto. eapply nth_error_In; eauto.
  Qed.
  Lemma a_ranked : ranked g.
  Proof.
    constructor.
    - intros y p x H. destruct (a_edge y p x H) as (n & inc & Hn & Hp & Hx & Hl).
      assert (y < length g)%nat by (apply nth_error_Some; congruence). split; [lia|].
      unfold rank_of at 2. rewrite Hn. subst x. eapply (twf_rank ls g W); eauto. eapply nth_error_In; eauto.
    - intros y p x (m & Hm & Hi) H. destruct (a_edge y p x H) as (n & inc & Hn & Hp & _).
      assert (m = n) by congruence. subst. rewrite Hi in Hp. destruct p; discriminate.
  Qed.

  Lemma a_denotes : denotes g vzero vadd a_vjp a_good a_valid a_den grows a_passes (t_opgrad g) a_add_n.
  Proof.
    constructor.
    - intros a b. apply functional_extensionality. intros k. unfold vadd. ring.
    - intros a b c. apply functional_extensionality. intros k. unfold vadd. ring.
    - intros a. apply functional_extensionality. intros k. unfold vadd, vzero. ring.
    - intros y p a b. destruct (a_vjp_cases y p) as [H|(shp & sh & k & H)]; rewrite !H.
      + symmetry. apply vadd_zero.
      + apply applied_add.
    - intros y p. destruct (a_vjp_cases y p) as [H|(shp & sh & k & H)]; rewrite !H; [reflexivity|apply applied_zero].
    - apply grows_refl.
    - apply grows_trans.
    - intros x s s' t G (F & sh & A & B). split.
      + split; auto. exists sh. split; auto. eapply grows_wtyped; eauto.
      + unfold a_den. rewrite (grows_aval rho s s') by (auto; eapply wtyped_lt; eauto). reflexivity.
    - intros x l s t s' [Ws Gs] HF Hl H.
      destruct l as [|t0 l0]; [simpl in Hl; lia|]. pose proof HF as HF0. inversion HF0 as [|? ? (F & sh & A & _) _]; subst. clear HF0.
      assert (HS : List.Forall (fun z => wtyped ls lax s z (TyA sh)) (t0 :: l0)).
      { eapply Forall_impl; [|exact HF]. intros z (_ & sh' & A' & B'). pose proof (typed_fun _ _ _ _ _ A A'). congruence. }
      apply (a_add_n_x ls lax _ sh) in H; auto. destruct H as ((W1 & G1 & T1 & V1) & S1).
      split; [split; [auto|eapply grows_trans; eauto]|]. split; auto. split; [split; eauto|].
      unfold a_den. set (L := t0 :: l0) in *. pose (w := map (aval rho s) L).
      assert (Hw : List.Forall (has_shape sh) w).
      { unfold w. clear -HS C. induction HS; simpl; constructor; auto. apply (wtyped_aval ls lax rho s _ sh C H). }
      rewrite (holds_aval rho s' t (tab sh (total w))).
      + rewrite (flat_total sh w Hw). unfold w. rewrite map_map. reflexivity.
      + apply V1. exists w. split.
        * unfold w, holdsl. clear -HS C. induction HS; simpl; constructor; auto. apply (wtyped_aval ls lax rho s _ sh C H).
        * apply Tens_Build.addn_ok; auto. unfold w, L. discriminate.
    - intros y gy s gxs s' [Ws Gs] (Hfit & sh & Hy & Hgy) H. unfold t_opgrad in H.
      destruct (nth_error g y) as [n|] eqn:En; [|discriminate].
      destruct (trule (n_op n) (length (n_inputs n))) as [rs|] eqn:Er; [|discriminate].
      destruct (typed_inputs ls g y n (TyA sh) En Hy) as [[Eo _]|(Ho & ts & HT & Hop)].
      { rewrite Eo in Er. discriminate. }
      pose proof (typed_lookups ls g y n ts HT) as HL.
      assert (Hf : op_use lax (n_op n) ts = true) by (eapply Hfit; eauto; apply rt_refl).
      destruct (node_correct y n sh En Hy Ho ts HT Hop Hf) as (K & HK).
      assert (Hlen : length (n_inputs n) = length ts) by (eapply Forall2_len; eauto).
      assert (Er' : trule (n_op n) (length ts) = Some rs) by (rewrite <- Hlen; auto).
      assert (HTs : typedl ls s (map in_id (n_inputs n)) ts).
      { clear -HT Gs. unfold typedl. induction HT as [|inc ty ins ts (_ & _ & Hi) _ IH]; simpl; constructor; auto.
        eapply grows_typed; eauto. }
      assert (HVs : holdsl rho s (map in_id (n_inputs n)) (in_vals rho g n)).
      { rewrite in_vals_tval. clear -HT Gs C. unfold holdsl. induction HT as [|inc ty ins ts (_ & _ & Hi) _ IH]; simpl; constructor; auto.
        eapply grows_holds; eauto. apply (tval_typed ls rho g _ _ C Hi). }
      apply (build_exprs_x ls lax _ ts y gy (TyA sh) (TyA sh)) in H; auto.
      2: { eapply grows_typed; eauto. }
      2: { intros p e Hp. destruct (us_rule _ _ _ _ _ _ _ HK rs p e Er' Hp) as (shp & _ & E & _). eauto. }
      destruct H as (W1 & G1 & L1 & P1).
      split; [split; [auto|eapply grows_trans; eauto]|]. split; auto.
      intros p. specialize (P1 p). split.
      + split.
        * intros (n' & rs' & e & En' & Er2 & Hp). assert (n' = n) by congruence. subst n'.
          assert (rs' = rs) by congruence. subst rs'. rewrite Hp in P1. destruct P1 as (t & ? & Ht & _). eauto.
        * intros (t & Ht). exists n, rs. destruct (nth_error rs p) as [[e|]|] eqn:Hp; [eauto|congruence|congruence].
      + intros t Ht. destruct (nth_error rs p) as [[e|]|] eqn:Hp; try congruence.
        destruct P1 as (t' & ty & Ht' & Hety & Htt & HVt). assert (t' = t) by congruence. subst t'.
        destruct (us_rule _ _ _ _ _ _ _ HK rs p e Er' Hp) as (shp & Hts & E & HE).
        assert (ty = TyA shp) by congruence. subst ty. split.
        * intros x Hedge. destruct (a_edge y p x Hedge) as (n' & inc & Hn' & Hpi & Hx & _).
          assert (n' = n) by congruence. subst n' x. split.
          -- eapply fits_input; eauto. eapply nth_error_In; eauto.
          -- exists shp. split; auto. destruct (Forall2_nth _ _ _ _ _ HT Hpi) as (b & Hb & _ & _ & Hbt). congruence.
        * assert (Hp' : a_passes y p) by (exists n, rs, e; auto).
          destruct (a_vjp_kernel y n sh ts K p En Hy HL Hf HK Hp') as (shp' & Hts' & B).
          assert (shp' = shp) by congruence. subst shp'. rewrite B. unfold a_den.
          destruct (wtyped_aval ls lax rho s gy sh C Hgy) as [Hgh Hgs]. rewrite unflat_flat by auto.
          rewrite (holds_aval rho s' t (applied shp sh (K p) (aval rho s gy))); [reflexivity|].
          apply HVt. split; auto. exists (in_vals rho g n), (TA (aval rho g y)), (TA (aval rho s gy)), [].
          split; auto. split; [eapply grows_holds; eauto; apply (typed_aval ls rho g y sh C Hy)|]. split; auto. split; [constructor|]. apply HE; auto.
  Qed.

  Variables ys xs : list nat.
  Variable gys : option (list nat).
  Definition a_one : tbld nat := match gys with None => a_scalar 1 | Some _ => fun _ => None end.
  Definition a_zeros (x : nat) : tbld nat := if in_dec Nat.eq_dec x xs then a_zeros_like x else fun _ => None.
  Definition v_one : vec := flat (Arr [] [1]).

  Lemma a_one_ok : (gys = None -> forall y, In y ys -> usesx lax ls g y /\ typed ls g y (TyA [])) ->
    builds a_good a_valid a_den grows (fun y => In y ys) a_one v_one.
  Proof.
    intros HN s t s' [Ws Gs] H. unfold a_one in H. destruct gys as [|]; [discriminate|].
    apply (a_scalar_x ls lax) in H; auto. destruct H as ((A & B & T & D) & S).
    split; [split; [auto|eapply grows_trans; eauto]|]. split; auto. split.
    - intros y Hy. destruct (HN eq_refl y Hy). split; eauto using typed_wtyped.
    - unfold a_den. rewrite (holds_aval rho s' t (Arr [] [1])); auto.
  Qed.
  Lemma a_zeros_ok : (forall x, In x xs -> usesx lax ls g x /\ exists sh, typed ls g x (TyA sh)) ->
    forall x, builds a_good a_valid a_den grows (eq x) (a_zeros x) vzero.
  Proof.
    intros HN x s t s' [Ws Gs] H. unfold a_zeros in H. destruct (in_dec Nat.eq_dec x xs) as [Hx|]; [|discriminate].
    destruct (HN x Hx) as (F & sh & Hsh).
    apply (a_zeros_like_x ls lax x sh) in H; auto; [|eapply grows_typed; eauto]. destruct H as ((A & B & T & D) & S).
    split; [split; [auto|eapply grows_trans; eauto]|]. split; auto. split.
    - intros y <-. split; eauto using typed_wtyped.
    - unfold a_den. rewrite (holds_aval rho s' t (full sh 0)) by auto. apply flat_tab_zero.
  Qed.
End Den.

(** ** The construction, for all leaf values at once *)
Section Result.
  Variable lax : bool.
  Variable ls : nat -> list nat.
  Variable g : tgraph.
  Hypothesis W : twf ls g.
  Variable pop : list nat -> option (nat * list nat).
  Hypothesis Hpop : heap_pop g pop.
  Variable debug : bool.
  Variables ys xs : list nat.
  Hypothesis Hys : forall y, In y ys -> differentiable g y.
  Hypothesis Hnd : NoDup ys.
  Hypothesis Hxs : forall x, In x xs -> usesx lax ls g x /\ exists sh, typed ls g x (TyA sh).
  Hypothesis Hndx : NoDup xs.
  Hypothesis Hacc : forall x, In x xs -> accum_once g ys x.

  Lemma conform_exists : exists rho, conform ls rho.
  Proof. exists (fun i => full (ls i) 0). intros i. apply full_shape. Qed.

  Lemma a_result fuel gys s l s' log :
    a_good lax ls g s ->
    match gys with
    | Some t => Forall2 (fun y t => a_valid lax ls g y s t) ys t
    | None => forall y, In y ys -> usesx lax ls g y /\ typed ls g y (TyA [])
    end ->
    grad_with_default g (t_opgrad g) a_add_n (a_scalar 1) a_zeros_like pop debug fuel ys xs gys s = Ok (l, s', log) ->
    sound lax ls s' /\ grows g s' /\
    forall rho, conform ls rho -> Forall2 (fun x r => a_valid lax ls g x s' (fst r) /\
      is_path_sum g vzero vadd (a_vjp lax ls g rho) (a_passes g) ys
        (match gys with Some t => map (a_den rho s) t | None => map (fun _ => v_one) ys end) x (a_den rho s' (fst r))) xs l.
  Proof.
    intros Hs Hg H.
    assert (E : grad_with_default g (t_opgrad g) a_add_n (a_one gys) (a_zeros xs) pop debug fuel ys xs gys s = Ok (l, s', log)).
    { rewrite <- H. unfold grad_with_default. destruct (no_outputs ys); auto.
      replace (compute_gradients g (t_opgrad g) a_add_n (a_one gys) pop debug fuel ys xs gys s)
        with (compute_gradients g (t_opgrad g) a_add_n (a_scalar 1) pop debug fuel ys xs gys s).
      2: { unfold a_one. destruct gys; [|reflexivity]. reflexivity. }
      destruct (compute_gradients _ _ _ _ _ _ _ _ _ _ _) as [st| |]; auto.
      rewrite (extract_all_zeros a_add_n (a_zeros xs) a_zeros_like xs); auto.
      intros x s0 Hx. unfold a_zeros. destruct (in_dec Nat.eq_dec x xs); [reflexivity|contradiction]. }
    assert (HV : forall rho, seed_values (a_valid lax ls g) (a_den rho) v_one ys gys s
               (match gys with Some t => map (a_den rho s) t | None => map (fun _ => v_one) ys end)).
    { intros rho. destruct gys as [t|]; simpl; auto. }
    assert (HO : forall rho, builds (a_good lax ls g) (a_valid lax ls g) (a_den rho) grows (fun y => In y ys) (a_one gys) v_one).
    { intros rho. apply a_one_ok. intros ->. exact Hg. }
    destruct conform_exists as (rho0 & C0).
    assert (Hgood : a_good lax ls g s').
    { eapply (grad_good g vzero v_one vadd (a_vjp lax ls g rho0) (a_good lax ls g) (a_valid lax ls g) (a_den rho0) grows (a_passes g)
         (t_opgrad g) a_add_n (a_one gys) (a_zeros xs)); eauto using a_ranked, a_denotes, a_zeros_ok. }
    destruct Hgood as [W' G']. split; auto. split; auto. intros rho C.
    pose proof (grad_path_sum g vzero v_one vadd (a_vjp lax ls g rho) (a_good lax ls g) (a_valid lax ls g) (a_den rho) grows (a_passes g)
         (t_opgrad g) a_add_n (a_one gys) (a_zeros xs) pop debug ys xs (a_ranked ls g W) Hys Hnd Hpop
         (a_denotes lax ls g W rho C) (HO rho) (a_zeros_ok lax ls g rho C xs Hxs) fuel gys s _ l s' log Hs (HV rho) Hndx Hacc E) as HF.
    eapply Forall2_imp; [|exact HF]. intros a b (A & B & _). auto.
  Qed.
End Result.
