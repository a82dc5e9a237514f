(** C89: lgamma and digamma. *)
From Coq Require Import List Arith ZArith Bool Lia Reals Lra.
Import ListNotations.
From Verif Require Import Eval_Proofs Array_Model Array_Proofs Array_Sum Arith_Model Arith_Proofs Broadcast_Spec Vjp_Spec Vjp_Proofs Arith_Final Softmax_Proofs2.
From Verif Require Softmax_Xent.
From Verif Require Import Gamma_Model.
Local Set Bullet Behavior "Strict Subproofs".
Local Open Scope R_scope.

Lemma amap_tab sh (f : R -> R) x : has_shape sh x -> amap f x = tab sh (fun i => f (rget x i)).
Proof.
  intros H. apply has_shape_wf in H. destruct H as [S W]. unfold amap, tab. rewrite S, (data_map 0 x W), S, map_map. reflexivity.
Qed.
Lemma entries (Q : R -> Prop) sh x i : has_shape sh x -> Forall Q (a_data x) -> in_bounds sh i -> Q (rget x i).
Proof.
  intros (S & L) F Hi. rewrite Forall_forall in F. apply F. unfold aget. apply nth_In. rewrite L, S. apply ravel_lt. exact Hi.
Qed.
(** An elementwise function with a derivative at the entries. *)
Lemma amap_vjp (f f' : R -> R) sh x gy : has_shape sh x -> has_shape sh gy -> Forall (fun e => derivable_pt_lim f e (f' e)) (a_data x) ->
  vjp (fun x => Some (amap f x)) x gy (tab sh (fun i => rget gy i * f' (rget x i))).
Proof.
  intros Hx Hg D. pose proof (proj1 Hx) as Sx. rewrite <- Sx in Hx, Hg |- *.
  apply (Softmax_Xent.vjp_pointwise _ x gy (fun _ => f) (fun i => f' (rget x i))); [exact Hx|exact Hg| |].
  - intros x' H. f_equal. apply amap_tab. exact H.
  - intros i Hi. exact (entries (fun e => derivable_pt_lim f e (f' e)) _ x i Hx D Hi).
Qed.

(** If digamma is the derivative of ln_gamma at the entries, the gradient of [lgamma] is
    right. *)
Theorem C89_lgamma_gradient :
  forall (lib : special) (at_empty : arr R -> option R) (sh : list nat) (x gy : arr R),
  at_empty_ok 0 at_empty -> prod sh <> 0%nat -> has_shape sh x -> has_shape sh gy ->
  Forall (fun e => derivable_pt_lim (ln_gamma lib) e (digamma lib e)) (a_data x) ->
  exists gx, lgamma_grad lib at_empty gy x = Some gx /\ vjp (fun x => Some (lgamma_forward lib x)) x gy gx.
Proof.
  intros lib at_empty sh x gy AE P Hx Hg D. pose proof Hx as Hx'. apply has_shape_wf in Hx'. destruct Hx' as [Sx Wx].
  pose proof Hg as Hg'. apply has_shape_wf in Hg'. destruct Hg' as [Sg Wg].
  exists (tab sh (fun i => rget gy i * digamma lib (rget x i))). split.
  - unfold lgamma_grad, digamma_forward. rewrite (mul_same at_empty AE sh gy (amap (digamma lib) x) Sg Wg); [|exact Sx|apply amap_wf; exact Wx|exact P].
    f_equal. apply tab_ext. intros i Hi. rewrite (amap_tab sh (digamma lib) x Hx), aget_tab by exact Hi. reflexivity.
  - apply amap_vjp; assumption.
Qed.
Print Assumptions C89_lgamma_gradient.

(** [digamma] supplies no gradient; where its derivative and the incoming gradient are not
    zero, zeros are not the gradient either, so second-order gradients of [lgamma] lack a
    term. *)
Theorem C89_digamma_gradient_lost :
  forall (lib : special) (trigamma : R -> R) (sh : list nat) (x gy : arr R) (i : list nat),
  has_shape sh x -> has_shape sh gy -> Forall (fun e => derivable_pt_lim (digamma lib) e (trigamma e)) (a_data x) ->
  in_bounds sh i -> trigamma (aget 0 x i) <> 0 -> aget 0 gy i <> 0 ->
  nth_error digamma_rule 0 = Some None /\
  exists right, vjp (fun x => Some (digamma_forward lib x)) x gy right /\ aget 0 right i = aget 0 gy i * trigamma (aget 0 x i) /\
    forall zeros, aget 0 zeros i = 0 -> ~ vjp (fun x => Some (digamma_forward lib x)) x gy zeros.
Proof.
  intros lib tg sh x gy i Hx Hg D Hi Nt Ng. split; [reflexivity|].
  pose proof (amap_vjp (digamma lib) tg sh x gy Hx Hg D) as V. eexists. split; [exact V|]. split; [rewrite aget_tab by exact Hi; reflexivity|].
  intros zeros Z V'. pose proof (vjp_unique _ _ _ _ _ V V') as Q. rewrite <- Q, aget_tab in Z by exact Hi.
  apply Rmult_integral in Z. destruct Z; contradiction.
Qed.
Print Assumptions C89_digamma_gradient_lost.

(** C89's hypotheses hold for functions with known derivatives: [ln] and its first two
    derivatives stand for ln_gamma, digamma and trigamma (to which ln is close for large
    arguments). *)
Example C89_hypotheses_met :
  let lib := Special ln (fun e => / e) in let x := Arr [2]%nat [1; 2] in let gy := Arr [2]%nat [3; 4] in
  has_shape [2]%nat x /\ has_shape [2]%nat gy /\ prod [2]%nat <> 0%nat /\ at_empty_ok 0 (fun a : arr R => Some (nth 0 (a_data a) 0)) /\
  Forall (fun e => derivable_pt_lim (ln_gamma lib) e (digamma lib e)) (a_data x) /\
  Forall (fun e => derivable_pt_lim (digamma lib) e (- / (e * e))) (a_data x) /\
  in_bounds [2]%nat [1]%nat /\ - / (aget 0 x [1]%nat * aget 0 x [1]%nat) <> 0 /\ aget 0 gy [1]%nat <> 0.
Proof.
  assert (I : forall e, 0 < e -> derivable_pt_lim (fun e => / e) e (- / (e * e))).
  { intros e He. pose proof (derivable_pt_lim_div (fct_cte 1) id e 0 1 (derivable_pt_lim_const 1 e) (derivable_pt_lim_id e) ltac:(unfold id; lra)) as H.
    replace (- / (e * e)) with ((0 * id e - 1 * fct_cte 1 e) / Rsqr (id e)) by (unfold id, fct_cte, Rsqr; field; lra).
    apply (derivable_ext (fct_cte 1 / id)%F); [|exact H]. intros t. unfold div_fct, fct_cte, id, Rdiv. apply Rmult_1_l. }
  cbv zeta. split; [split; reflexivity|]. split; [split; reflexivity|]. split; [discriminate|]. split; [split; intros a _ E; [|right]; unfold aget; rewrite E; reflexivity|].
  split; [repeat constructor; apply derivable_pt_lim_ln; lra|]. split; [repeat constructor; apply I; lra|]. split; [repeat constructor|].
  cbv [aget a_shape a_data ravel prod fold_right nth Nat.add Nat.mul]. split; [|lra]. intros E. assert (Q : / (2 * 2) > 0) by (apply Rinv_0_lt_compat; lra). lra.
Qed.
