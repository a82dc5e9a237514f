(** Moving several leaves at once: the velocity of every tensor is the sum of the
    velocities when they move one by one. *)
From Coq Require Import String List Arith ZArith Bool Reals Lra Lia Relations Classical_Prop FunctionalExtensionality.
From Coquelicot Require Import Coquelicot.
Import ListNotations.
From Verif Require Import Tens_Settle.
From Verif Require Import Graph_Model Eval_Model Eval_Spec Eval_Proofs Graph_Proofs Grad_Model Grad_Spec
  Grad_Path_Proofs Grad_Proofs Grad_Final Grad_Frame Scalar_Model Scalar_Spec Scalar_Rules Scalar_Proofs Scalar_Grad.
From Verif Require Import Array_Model Array_Proofs Array_Sum Arith_Model Arith_Proofs Arith_Final Vjp_Spec Vjp_Proofs
  Reduce_Model Reduce_Spec Reduce_Proofs Shape_Model Shape_Spec Shape_Proofs3
  Tens_Model Tens_Spec Tens_Fwd Tens_Build Tens_Rules Tens_Rules2 Tens_Rules3 Tens_Rules4 Tens_Ops Tens_Lax Tens_Grad Tens_Deriv Tens_Final.
Local Open Scope R_scope.
Local Set Bullet Behavior "Strict Subproofs".

Section Joint.
  Variable lax : bool.
  Variable ls : nat -> list nat.
  Variable g : tgraph.
  Hypothesis W : twf ls g.
  Variable rho : nat -> arr R.
  Hypothesis C : conform ls rho.
  Variable xs : list nat.
  Hypothesis Nxs : NoDup xs.
  Hypothesis Hleaf : forall x, In x xs -> t_input_leaf g x.
  Variable dir : nat -> arr R.
  Hypothesis Hdir : forall x, In x xs -> has_shape (ls x) (dir x).

  Definition glide (t : R) (i : nat) : arr R := if existsb (Nat.eqb i) xs then step (rho i) (dir i) t else rho i.
  Lemma glide_in t i : In i xs -> glide t i = step (rho i) (dir i) t.
  Proof. intros H. unfold glide. replace (existsb (Nat.eqb i) xs) with true; [reflexivity|]. symmetry. apply existsb_exists. exists i. split; [exact H|apply Nat.eqb_refl]. Qed.
  Lemma glide_out t i : ~ In i xs -> glide t i = rho i.
  Proof.
    intros H. unfold glide. destruct (existsb (Nat.eqb i) xs) eqn:E; [|reflexivity]. apply existsb_exists in E. destruct E as (j & Hj & Q).
    apply Nat.eqb_eq in Q. subst j. contradiction.
  Qed.
  Lemma glide_conform t : conform ls (glide t).
  Proof. intros i. destruct (in_dec Nat.eq_dec i xs) as [H|H]; [rewrite glide_in by exact H; apply step_has_shape; auto|rewrite glide_out by exact H; apply C]. Qed.
  Lemma glide_zero : glide 0 = rho.
  Proof.
    apply functional_extensionality. intros i. destruct (in_dec Nat.eq_dec i xs) as [H|H]; [|apply glide_out; exact H].
    rewrite glide_in by exact H. pose proof (f_equal (fun f => f i) (bend_zero ls rho C i (dir i) (Hdir i H))) as Q. cbv beta in Q.
    unfold bend, put in Q. rewrite Nat.eqb_refl in Q. exact Q.
  Qed.

  (** The velocity of element [k] of tensor [i] when only [x] moves. *)
  Definition vel (x i : nat) (k : list nat) : R := Derive (fun t : R => rget (aval (bend rho x (dir x) t) g i) k) 0.

  (** Tensors that depend on none of them do not move. *)
  Lemma glide_indep t : forall i ty, typed ls g i ty -> (forall x, In x xs -> ~ depends g i x) -> tval (glide t) g i = tval rho g i.
  Proof.
    induction i as [i IH] using (well_founded_induction lt_wf). intros ty Hty Hd.
    pose proof (typed_lt ls g i ty Hty) as Hl. apply nth_error_Some in Hl.
    destruct (nth_error g i) as [n|] eqn:Hn; [clear Hl|congruence].
    destruct (typed_inputs ls g i n ty Hn Hty) as [[Eo _]|(Ho & ts & HT & Hop)].
    - unfold tval. rewrite (leaf_holds (glide t) g i n Hn Eo), (leaf_holds rho g i n Hn Eo).
      rewrite glide_out; [reflexivity|]. intros H. apply (Hd i H). apply rt_refl.
    - destruct (tval_eq ls (glide t) g i n ts ty (glide_conform t) Hn Ho HT Hop Hty) as [_ E1].
      destruct (tval_eq ls rho g i n ts ty C Hn Ho HT Hop Hty) as [_ E2].
      assert (E : in_vals (glide t) g n = in_vals rho g n); [|congruence].
      rewrite !in_vals_tval. apply map_ext_in. intros inc Hinc. pose proof Hinc as Hinc2. apply In_nth_error in Hinc.
      destruct Hinc as (k & Hk). destruct (Forall2_nth _ _ _ _ _ HT Hk) as (b & _ & _ & Hlt & Hb).
      eapply IH; eauto. intros x Hx Hdep. apply (Hd x Hx). eapply depends_input; eauto.
  Qed.
  Lemma glide_size i n sh t : nth_error g i = Some n -> n_op n = TSize -> typed ls g i (TyA sh) -> aval (glide t) g i = aval rho g i.
  Proof.
    intros Hn Ho Hty. destruct (typed_inputs ls g i n (TyA sh) Hn Hty) as [[Eo _]|(Ho' & ts & HT & Hop)]; [congruence|].
    destruct (tval_eq ls (glide t) g i n ts _ (glide_conform t) Hn Ho' HT Hop Hty) as [V1 E1].
    destruct (tval_eq ls rho g i n ts _ C Hn Ho' HT Hop Hty) as [V2 E2].
    rewrite (tval_aval ls _ g i sh (glide_conform t) Hty) in E1. rewrite (tval_aval ls _ g i sh C Hty) in E2.
    rewrite Ho in *. destruct ts as [|[s0|] [|? ?]]; try discriminate Hop.
    clear -V1 V2 E1 E2. revert V1 V2 E1 E2. generalize (in_vals (glide t) g n) (in_vals rho g n). intros w1 w2 V1 V2 E1 E2.
    inversion V1 as [|a1 ? l1 ? HA1 HN1]; subst. inversion HN1; subst. apply has_tyA in HA1. destruct HA1 as (b1 & -> & [S1 L1]).
    inversion V2 as [|a2 ? l2 ? HA2 HN2]; subst. inversion HN2; subst. apply has_tyA in HA2. destruct HA2 as (b2 & -> & [S2 L2]).
    cbn [tcompute] in E1, E2. congruence.
  Qed.

  Variable y : nat.
  Hypothesis Hsm : forall x, In x xs -> t_smooth ls g rho x y.
  Hypothesis Hfit : usesx lax ls g y.

  Lemma vel_correct x i sh k : In x xs -> depends g y i -> typed ls g i (TyA sh) -> in_bounds sh k ->
    is_derive (fun t : R => rget (aval (bend rho x (dir x) t) g i) k) 0 (vel x i k).
  Proof.
    intros Hx Hyi Hty Hk.
    destruct (paths_and_derivative lax ls g W rho C x (Hleaf x Hx) (dir x) (Hdir x Hx) y (Hsm x Hx) Hfit i sh Hyi Hty) as (L & D & _ & HD).
    unfold vel. apply Derive_correct. exists (D k). apply HD. exact Hk.
  Qed.
  Lemma vel_still x i k : (forall t, aval (bend rho x (dir x) t) g i = aval rho g i) -> vel x i k = 0.
  Proof.
    intros H. unfold vel. apply is_derive_unique. apply (is_derive_fext (fun _ => rget (aval rho g i) k)).
    - intros t. rewrite H. reflexivity.
    - apply @is_derive_const.
  Qed.
  Lemma aval_tval r i ty : conform ls r -> typed ls g i ty -> aval r g i = arr_of (tval r g i).
  Proof. intros Cr H. destruct (tval_typed ls r g i ty Cr H) as [Hh _]. unfold aval. rewrite Hh. reflexivity. Qed.
  Lemma vel_indep x i ty k : In x xs -> typed ls g i ty -> ~ depends g i x -> vel x i k = 0.
  Proof.
    intros Hx Hty Hd. apply vel_still. intros t.
    pose proof (tval_indep ls g rho C x (dir x) (Hdir x Hx) t i _ Hty Hd) as E.
    rewrite (aval_tval _ i ty (bend_conform ls rho C x (dir x) (Hdir x Hx) t) Hty), (aval_tval _ i ty C Hty), E. reflexivity.
  Qed.
  Lemma rsum_single (f : nat -> R) a l : NoDup l -> In a l -> (forall x, In x l -> x <> a -> f x = 0) -> rsum l f = f a.
  Proof.
    induction l as [|b l IH]; intros N Ha Hf; [destruct Ha|]. inversion N as [|? ? Hb N']; subst. rewrite rsum_cons.
    destruct (Nat.eq_dec b a) as [->|Hne].
    - rewrite (rsum_zero l f); [ring|]. intros x Hx. apply Hf; [right; exact Hx|]. intros ->. contradiction.
    - destruct Ha as [->|Ha]; [congruence|]. rewrite (Hf b (or_introl eq_refl) Hne), IH; auto; [ring|].
      intros x Hx. apply Hf. right. exact Hx.
  Qed.

  Theorem joint_velocity : forall i sh, depends g y i -> typed ls g i (TyA sh) -> forall k, in_bounds sh k ->
    is_derive (fun t : R => rget (aval (glide t) g i) k) 0 (rsum xs (fun x => vel x i k)).
  Proof.
    induction i as [i IH] using (well_founded_induction lt_wf). intros sh Hyi Hty k Hk.
    assert (Hstill : (forall x, In x xs -> vel x i k = 0) -> (forall t, aval (glide t) g i = aval rho g i) ->
      is_derive (fun t : R => rget (aval (glide t) g i) k) 0 (rsum xs (fun x => vel x i k))).
    { intros H1 H2. rewrite rsum_zero by exact H1.
      apply (is_derive_fext (fun _ => rget (aval rho g i) k)); [intros t; rewrite H2; reflexivity|]. apply @is_derive_const. }
    destruct (classic (exists x, In x xs /\ depends g i x)) as [(x0 & Hx0 & Hd0)|Hd].
    2: { apply Hstill.
         - intros x Hx. apply (vel_indep x i _ k Hx Hty). intros Q. apply Hd. eauto.
         - intros t. rewrite (aval_tval _ i _ (glide_conform t) Hty), (aval_tval _ i _ C Hty).
           rewrite (glide_indep t i _ Hty); [reflexivity|]. intros x Hx Q. apply Hd. eauto. }
    pose proof (typed_lt ls g i _ Hty) as Hl. apply nth_error_Some in Hl.
    destruct (nth_error g i) as [n|] eqn:Hn; [clear Hl|congruence].
    destruct (in_dec Nat.eq_dec i xs) as [Hin|Hin].
    { destruct (Hleaf i Hin) as (n' & Hn' & Ho & _). assert (n' = n) by congruence. subst n'.
      assert (sh = ls i).
      { destruct (typed_inputs ls g i n _ Hn Hty) as [[_ E]|[E _]]; congruence. }
      subst sh. rewrite (rsum_single (fun x => vel x i k) i xs Nxs Hin).
      - replace (vel i i k) with (rget (dir i) k).
        + apply (is_derive_fext (fun t => rget (rho i) k + t * rget (dir i) k)).
          * intros t. rewrite (holds_aval (glide t) g i (glide t i)) by (eapply leaf_holds; eauto).
            rewrite glide_in by exact Hin. apply (step_get (ls i)); auto.
          * auto_derive; auto. ring.
        + symmetry. unfold vel. apply is_derive_unique. apply (is_derive_fext (fun t => rget (rho i) k + t * rget (dir i) k)).
          * intros t. rewrite (holds_aval (bend rho i (dir i) t) g i (bend rho i (dir i) t i)) by (eapply leaf_holds; eauto).
            unfold bend, put. rewrite Nat.eqb_refl. apply (step_get (ls i)); auto.
          * auto_derive; auto. ring.
      - intros x Hx Hne. apply (vel_indep x i _ k Hx Hty). intros Q. apply Hne. apply clos_rt_rt1n in Q. inversion Q as [|z w (m & inc & Hm & Hi & _) _]; subst; auto.
        assert (m = n) by congruence. subst m. destruct (twf_leaf ls g W i n Hn Ho) as [E _]. rewrite E in Hi. destruct Hi. }
    assert (Hsz : n_op n = TSize \/ n_op n <> TSize) by (destruct (n_op n); auto; right; discriminate).
    destruct Hsz as [Hsz|Hsz].
    { apply Hstill; [|intros t; eapply glide_size; eauto]. intros x Hx. apply vel_still. intros t.
      eapply (size_still ls g rho C x (dir x) (Hdir x Hx)); eauto. }
    assert (Hne0 : i <> x0) by (intros ->; contradiction).
    destruct (Hsm x0 Hx0 i n sh Hyi Hd0 Hne0 Hn Hty Hsz) as (_ & Hdom & _).
    destruct (typed_inputs ls g i n (TyA sh) Hn Hty) as [[Eo _]|(Ho & ts & HT & Hop)].
    { exfalso. destruct (twf_leaf ls g W i n Hn Eo) as [E _]. apply Hne0.
      apply clos_rt_rt1n in Hd0. inversion Hd0 as [|z w (m & inc & Hm & Hi & _) _]; subst; auto.
      assert (m = n) by congruence. subst m. rewrite E in Hi. destruct Hi. }
    assert (Hf : op_use lax (n_op n) ts = true) by (eapply Hfit; eauto; apply (typed_lookups ls g i n ts HT)).
    destruct (node_correct lax ls g rho C i n sh Hn Hty Ho ts HT Hop Hf) as (K & HK).
    pose (d := fun (x p : nat) (j : list nat) => match nth_error (n_inputs n) p with Some inc => vel x (in_id inc) j | None => 0 end).
    assert (Hdep : forall inc, In inc (n_inputs n) -> depends g y (in_id inc)).
    { intros inc Hinc. eapply rt_trans; [exact Hyi|]. apply rt_step. exists n, inc. auto. }
    assert (Hfroz : forall x p j, In x xs -> frozen (n_op n) p = true -> d x p j = 0).
    { intros x p j Hx Hz. unfold d. destruct (nth_error (n_inputs n) p) as [inc|] eqn:Hp; [|reflexivity].
      destruct (Forall2_nth _ _ _ _ _ HT Hp) as (ty & _ & _ & _ & Hit). apply (vel_indep x _ ty j Hx Hit). intros Q.
      assert (Hdx : depends g i x) by (eapply depends_input; eauto; eapply nth_error_In; exact Hp).
      assert (Hne : i <> x) by (intros ->; contradiction).
      destruct (Hsm x Hx i n sh Hyi Hdx Hne Hn Hty Hsz) as (_ & _ & F). exact (F p inc Hp Hz Q). }
    assert (Hsingle : forall x, In x xs -> vel x i k = spread ts K k (d x)).
    { intros x Hx. unfold vel. apply is_derive_unique.
      apply (node_diff lax ls g rho C (bend rho x (dir x)) (bend_conform ls rho C x (dir x) (Hdir x Hx)) (bend_zero ls rho C x (dir x) (Hdir x Hx)) i n sh ts K (d x) Hn Hty Ho HT Hop Hf HK Hdom); auto.
      - intros p inc shp j Hp Hs Hj. unfold d. rewrite Hp.
        destruct (Forall2_nth _ _ _ _ _ HT Hp) as (ty & Hty' & _ & _ & Hit). assert (ty = TyA shp) by congruence. subst ty.
        apply (vel_correct x _ shp j Hx); auto. apply Hdep. eapply nth_error_In; exact Hp.
      - intros a shp j La Da Ta Hj. exists (vel x a j). apply (vel_correct x a shp j Hx); auto. eapply rt_trans; eauto. }
    replace (rsum xs (fun x => vel x i k)) with (spread ts K k (fun p j => rsum xs (fun x => d x p j))).
    2: { rewrite (rsum_ext xs (fun x => vel x i k) (fun x => spread ts K k (d x)) Hsingle). unfold spread.
         rewrite rsum_swap. apply rsum_ext. intros p _. destruct (nth_error ts p) as [[shp|l]|].
         - rewrite rsum_swap. apply rsum_ext. intros j _. rewrite rsum_scale. reflexivity.
         - symmetry. apply rsum_zero. reflexivity.
         - symmetry. apply rsum_zero. reflexivity. }
    apply (node_diff lax ls g rho C glide glide_conform glide_zero i n sh ts K (fun p j => rsum xs (fun x => d x p j)) Hn Hty Ho HT Hop Hf HK Hdom); auto.
    - intros p j Hz. apply rsum_zero. intros x Hx. apply Hfroz; auto.
    - intros p inc shp j Hp Hs Hj. unfold d. rewrite Hp.
      destruct (Forall2_nth _ _ _ _ _ HT Hp) as (ty & Hty' & _ & Hlt & Hit). assert (ty = TyA shp) by congruence. subst ty.
      apply (IH _ Hlt shp); auto. apply Hdep. eapply nth_error_In; exact Hp.
    - intros a shp j La Da Ta Hj. exists (rsum xs (fun x => vel x a j)). apply (IH a La shp); auto. eapply rt_trans; eauto.
  Qed.
End Joint.
