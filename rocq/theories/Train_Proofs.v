(** Proofs for training steps: the total derivative, and steps that go downhill. *)
From Coq Require Import String List Arith ZArith Bool Reals Lra Lia Relations Classical_Prop FunctionalExtensionality.
From Coquelicot Require Import Coquelicot.
Import ListNotations.
From Verif Require Import Graph_Model Eval_Model Eval_Spec Eval_Proofs Graph_Proofs Grad_Model Grad_Spec
  Grad_Path_Proofs Grad_Proofs Grad_Final Grad_Frame Scalar_Model Scalar_Spec Scalar_Rules Scalar_Proofs Scalar_Grad.
From Verif Require Import Array_Model Array_Proofs Array_Sum Arith_Model Arith_Proofs Arith_Final Vjp_Spec Vjp_Proofs
  Reduce_Model Reduce_Spec Reduce_Proofs Shape_Model Shape_Spec Shape_Proofs3 Comp_Proofs
  Tens_Model Tens_Spec Tens_Fwd Tens_Build Tens_Rules Tens_Rules2 Tens_Rules3 Tens_Rules4 Tens_Ops Tens_Lax Tens_Grad Tens_Deriv Tens_Final Tens_Joint Train_Spec.
From Verif Require Import Opt_Model Opt_Effect Opt_Proofs Opt_Steps.
Local Open Scope R_scope.
Local Set Bullet Behavior "Strict Subproofs".

Lemma elements_rsum sh a : has_shape sh a -> elements_sum a = rsum (indices sh) (rget a).
Proof. intros H. rewrite rsum_list. rewrite (hs_tab sh a H) at 1. reflexivity. Qed.

Lemma is_derive_fold {I} (l : list I) (f : I -> R -> R) (d : I -> R) : (forall i, In i l -> is_derive (f i) 0 (d i)) ->
  is_derive (fun t : R => fold_right Rplus 0 (map (fun i => f i t) l)) 0 (rsum l d).
Proof.
  induction l as [|a l IH]; intros H; cbn [map fold_right].
  - apply @is_derive_const.
  - rewrite rsum_cons. apply @is_derive_plus; [apply H; left; reflexivity|]. apply IH. intros i Hi. apply H. right. exact Hi.
Qed.
Lemma is_derive_rsum {I} (l : list I) (f : I -> R -> R) (d : I -> R) : (forall i, In i l -> is_derive (f i) 0 (d i)) ->
  is_derive (fun t : R => rsum l (fun i => f i t)) 0 (rsum l d).
Proof.
  intros H. eapply is_derive_fext; [|apply (is_derive_fold l f d H)]. intros t. cbv beta. rewrite rsum_list. reflexivity.
Qed.

Section Total.
  Variable lax : bool.
  Variable pop : tgraph -> list nat -> option (nat * list nat).
  Variable debug : bool.
  Variable fuel : nat.
  Variable ls : nat -> list nat.
  Variables ys xs : list nat.
  Variables g g' : tgraph.
  Variable l : list (nat * bool).
  Variable log : list nat.
  Hypothesis SW : sound lax ls g.
  Let W : twf ls g := proj1 SW.
  Hypothesis Hpop : forall g, heap_pop g (pop g).
  Hypothesis Hys : forall y, In y ys -> usesx lax ls g y /\ exists sh, shaped ls g y sh.
  Hypothesis Nxs : NoDup xs.
  Hypothesis Hxs : forall x, In x xs -> t_input_leaf g x.
  Hypothesis HG : t_grad pop debug fuel ys xs g = Ok (l, g', log).
  Variable rho : nat -> arr R.
  Hypothesis C : conform ls rho.
  Hypothesis Hsm : forall x y, In x xs -> In y ys -> t_smooth ls g rho x y.
  Variable dir : nat -> arr R.
  Hypothesis Hdir : forall x, In x xs -> has_shape (ls x) (dir x).

  Lemma output_velocity y sh : In y ys -> shaped ls g y sh ->
    is_derive (fun t : R => elements_sum (aval (move rho xs dir t) g y)) 0
      (rsum xs (fun x => rsum (indices sh) (fun k => vel g rho dir x y k))).
  Proof.
    intros Hy Hs. rewrite rsum_swap.
    eapply is_derive_fext.
    2: { apply (is_derive_rsum (indices sh) (fun k (t : R) => rget (aval (glide rho xs dir t) g y) k) (fun k => rsum xs (fun x => vel g rho dir x y k))).
         intros k Hk. apply indices_in in Hk.
         apply (joint_velocity lax ls g W rho C xs Nxs Hxs dir Hdir y (fun x Hx => Hsm x y Hx Hy) (proj1 (Hys y Hy)) y sh); auto.
         apply rt_refl. }
    intros t. apply elements_rsum. apply (typed_aval ls _ g y sh); [|exact Hs].
    apply (glide_conform ls rho C xs dir Hdir t).
  Qed.

  Lemma single_output_velocity x y sh : In x xs -> In y ys -> shaped ls g y sh ->
    is_derive (fun t : R => elements_sum (aval (put rho x (step (rho x) (dir x) t)) g y)) 0
      (rsum (indices sh) (fun k => vel g rho dir x y k)).
  Proof.
    intros Hx Hy Hs. eapply is_derive_fext.
    2: { apply (is_derive_rsum (indices sh) (fun k (t : R) => rget (aval (bend rho x (dir x) t) g y) k) (fun k => vel g rho dir x y k)).
         intros k Hk. apply indices_in in Hk.
         apply (vel_correct lax ls g W rho C xs Hxs dir Hdir y (fun x Hx => Hsm x y Hx Hy) (proj1 (Hys y Hy)) x y sh); auto.
         apply rt_refl. }
    intros t. apply elements_rsum. apply (typed_aval ls _ g y sh); [|exact Hs].
    apply (bend_conform ls rho C x (dir x) (Hdir x Hx) t).
  Qed.

  Lemma rsum_forall2 (A : nat -> R) (B : nat * bool -> R) : Forall2 (fun x r => A x = dot (aval rho g' (fst r)) (dir x)) xs l ->
    rsum xs A = fold_right Rplus 0 (map (fun p => dot (aval rho g' (fst (snd p))) (dir (fst p))) (combine xs l)).
  Proof.
    clear. intros H. induction H as [|x r xs l E _ IH]; [reflexivity|]. rewrite rsum_cons. cbn [combine map fold_right]. rewrite E, IH. reflexivity.
  Qed.

  Theorem total_derivative_x :
    derivable_pt_lim (fun t => total_loss (move rho xs dir t) g ys) 0
      (fold_right Rplus 0 (map (fun p => dot (aval rho g' (fst (snd p))) (dir (fst p))) (combine xs l))).
  Proof.
    destruct (tgrad_derivative_x lax pop debug fuel ys xs ls g l g' log SW Hpop Hys Nxs Hxs HG) as (_ & _ & F).
    assert (HS : exists shs : nat -> list nat, forall y, In y ys -> shaped ls g y (shs y)).
    { exists (fun y => match nth_error (ttypes ls g) y with Some (Some (TyA sh)) => sh | _ => [] end).
      intros y Hy. destruct (Hys y Hy) as (_ & sh & Hs). unfold shaped in *. rewrite Hs. reflexivity. }
    destruct HS as (shs & HS).
    apply is_derive_Reals.
    replace (fold_right Rplus 0 (map (fun p => dot (aval rho g' (fst (snd p))) (dir (fst p))) (combine xs l)))
      with (rsum ys (fun y => rsum xs (fun x => rsum (indices (shs y)) (fun k => vel g rho dir x y k)))).
    - apply (is_derive_fold ys (fun y t => elements_sum (aval (move rho xs dir t) g y))).
      intros y Hy. apply output_velocity; auto.
    - rewrite rsum_swap. apply (rsum_forall2 _ (fun _ => 0)). eapply Forall2_impl_in; [|exact F].
      intros x r Hx [_ D]. cbv beta in *. specialize (D rho (dir x) C (Hdir x Hx) (fun y Hy => Hsm x y Hx Hy)).
      apply is_derive_Reals in D. apply is_derive_unique in D. rewrite <- D. symmetry. apply is_derive_unique.
      apply (is_derive_fold ys (fun y t => elements_sum (aval (put rho x (step (rho x) (dir x) t)) g y))).
      intros y Hy. apply single_output_velocity; auto.
  Qed.
End Total.

Theorem total_derivative pop debug fuel ls ys xs g g' l log : twf ls g -> (forall g, heap_pop g (pop g)) ->
  (forall y, In y ys -> fits ls g y /\ exists sh, shaped ls g y sh) -> NoDup xs -> (forall x, In x xs -> t_input_leaf g x) ->
  t_grad pop debug fuel ys xs g = Ok (l, g', log) ->
  forall rho, conform ls rho -> (forall x y, In x xs -> In y ys -> t_smooth ls g rho x y) ->
  forall dir, (forall x, In x xs -> has_shape (ls x) (dir x)) ->
  derivable_pt_lim (fun t => total_loss (move rho xs dir t) g ys) 0
    (fold_right Rplus 0 (map (fun p => dot (aval rho g' (fst (snd p))) (dir (fst p))) (combine xs l))).
Proof. intros W. exact (total_derivative_x false pop debug fuel ls ys xs g g' l log (sound_false ls g W)). Qed.

(** A function with a negative derivative falls. *)
Lemma falls f m : derivable_pt_lim f 0 m -> m < 0 -> exists delta, 0 < delta /\ forall t, 0 < t < delta -> f t < f 0.
Proof.
  intros H Hm. destruct (H (- m) ltac:(lra)) as (d & Hd). exists d. split; [apply cond_pos|]. intros t [H0 H1].
  assert (Ht : Rabs t < d) by (rewrite Rabs_pos_eq; lra). specialize (Hd t ltac:(lra) Ht). rewrite Rplus_0_l in Hd.
  apply Rabs_def2 in Hd. destruct Hd as [Hd _]. assert (Q : (f t - f 0) / t < 0) by lra.
  apply (Rmult_lt_compat_r t) in Q; [|lra]. unfold Rdiv in Q. rewrite Rmult_assoc, Rinv_l, Rmult_1_r, Rmult_0_l in Q by lra. lra.
Qed.

(** One optimizer step without momentum goes against the gradient. *)
Lemma downhill_step powf opt sh p gv sts : has_shape sh p -> has_shape sh gv -> no_momentum powf opt sh sts ->
  exists s : list nat -> R, (forall i, in_bounds sh i -> 0 < s i) /\
    forall lr, exists p' sts', opt_step powf (with_rate opt lr) p gv sts = Some (p', sts') /\ has_shape sh p' /\
      forall i, in_bounds sh i -> aget 0 p' i = aget 0 p i - lr * (s i * aget 0 gv i).
Proof.
  intros Hp Hg Hn. destruct opt as [a|a mu ns|a ns|a eps b1 b2 ns]; cbn [no_momentum] in Hn.
  - destruct sts; [|contradiction]. exists (fun _ => 1). split; [intros; lra|]. intros lr.
    destruct (zip_mut_eq (fun l r => l - lr * r) sh p gv Hp Hg) as (p' & Hz & Hs & Hv).
    exists p', []. cbn [with_rate opt_step]. unfold sgd_step. rewrite Hz. split; [reflexivity|]. split; [exact Hs|].
    intros i Hi. rewrite (Hv i Hi). ring.
  - destruct sts as [|v [|? ?]]; try contradiction. destruct Hn as [Hvs Hv0]. exists (fun _ => 1). split; [intros; lra|]. intros lr.
    destruct (zip_mut_eq (fun v g => v * mu - lr * g) sh v gv Hvs Hg) as (v' & Hz & Hs & Hv).
    destruct (zip_mut_eq (fun p v => p + v) sh p v' Hp Hs) as (p' & Hz' & Hs' & Hv').
    exists p', [v']. cbn [with_rate opt_step]. unfold momentum_step. rewrite Hz. cbn [bind]. rewrite Hz'. split; [reflexivity|].
    split; [exact Hs'|]. intros i Hi. rewrite (Hv' i Hi), (Hv i Hi), (Hv0 i Hi). ring.
  - destruct sts as [|h [|? ?]]; try contradiction. destruct Hn as [Hhs Hh0].
    exists (fun i => / (sqrt (aget 0 h i + aget 0 gv i * aget 0 gv i) + adagrad_eps)). split.
    { intros i Hi. apply Rinv_0_lt_compat. pose proof (sqrt_pos (aget 0 h i + aget 0 gv i * aget 0 gv i)). unfold adagrad_eps. lra. }
    intros lr. destruct (zip_mut_eq (fun h g => h + g * g) sh h gv Hhs Hg) as (h' & Hz & Hs & Hv).
    cbn [with_rate opt_step]. unfold adagrad_step. rewrite Hz. cbn [bind].
    rewrite (proj1 Hp), (proj1 Hg), (proj1 Hs), (proj2 (shape_eqb_ok sh sh) eq_refl). cbn [andb option_map fst snd].
    eexists _, _. split; [reflexivity|]. split; [apply tab_has_shape|].
    intros i Hi. rewrite aget_tab by exact Hi. rewrite (Hv i Hi). unfold Rdiv. ring.
  - destruct sts as [|m [|v [|t [|? ?]]]]; try contradiction.
    destruct Hn as ([Hms Hm0] & [Hvs Hv0] & Hb1 & Hb2 & He & n & -> & P1 & P2).
    assert (L1 : 0 < 1 - b1 ^ S n).
    { assert (b1 ^ S n < 1); [|lra]. apply pow_lt_1_compat; [lra|lia]. }
    assert (L2 : 0 < 1 - b2 ^ S n).
    { assert (b2 ^ S n < 1); [|lra]. apply pow_lt_1_compat; [lra|lia]. }
    exists (fun i => (1 - b1) * (1 / (1 - b1 ^ S n)) /
      (sqrt ((aget 0 v i * b2 + (1 - b2) * aget 0 gv i * aget 0 gv i) * (1 / (1 - b2 ^ S n))) + eps)). split.
    { intros i Hi. apply Rdiv_lt_0_compat.
      - apply Rmult_lt_0_compat; [lra|]. apply Rdiv_lt_0_compat; lra.
      - match goal with |- 0 < sqrt ?a + eps => pose proof (sqrt_pos a) end. lra. }
    intros lr. destruct (zip_mut_eq (fun x g => x * b1 + (1 - b1) * g) sh m gv Hms Hg) as (m' & Hz1 & Hs1 & Hv1).
    destruct (zip_mut_eq (fun x g => x * b2 + (1 - b2) * g * g) sh v gv Hvs Hg) as (v' & Hz2 & Hs2 & Hv2).
    assert (A1 : has_shape sh (amap (fun x => x * (1 / (1 - b1 ^ S n))) m')) by (apply (proj1 (amap_shape sh _ m' Hs1))).
    assert (A2 : has_shape sh (amap (fun x => x * (1 / (1 - b2 ^ S n))) v')) by (apply (proj1 (amap_shape sh _ v' Hs2))).
    destruct (zip_mut_eq (fun a b => a / (sqrt b + eps)) sh _ _ A1 A2) as (mh & Hz3 & Hs3 & Hv3).
    destruct (zip_mut_eq (fun l r => l - lr * r) sh p mh Hp Hs3) as (p' & Hz4 & Hs4 & Hv4).
    cbn [with_rate opt_step]. unfold adam_step. rewrite Hz1. cbn [bind]. rewrite Hz2. cbn [bind a_data]. rewrite P1, P2, Hz3. cbn [bind]. rewrite Hz4.
    cbn [bind option_map]. eexists _, _. split; [reflexivity|]. split; [exact Hs4|].
    intros i Hi. rewrite (Hv4 i Hi), (Hv3 i Hi). rewrite (amap_tab _ sh _ Hs1), (amap_tab _ sh _ Hs2), !aget_tab by exact Hi.
    rewrite (Hv1 i Hi), (Hv2 i Hi), (Hm0 i Hi). unfold Rdiv. ring.
Qed.
