(** Proving [vjp]: derivatives of finite sums. *)
From Coq Require Import List Arith Bool Lia Reals Lra RealField.
Import ListNotations.
From Verif Require Import Eval_Proofs Array_Model Array_Proofs Array_Sum Vjp_Spec.
Local Open Scope R_scope.

Notation rsum := (sumf 0 Rplus).
Notation rget := (aget 0).
Notation RT := RTheory.

Lemma has_shape_wf sh a : has_shape sh a <-> a_shape a = sh /\ wf a.
Proof. unfold has_shape, wf. split; intros [H1 H2]; split; auto; congruence. Qed.
Lemma data_map {A} (d : A) a : wf a -> a_data a = map (aget d a) (indices (a_shape a)).
Proof. intros W. rewrite <- (tab_aget d a W) at 1. reflexivity. Qed.
Lemma map2_map {I A B C} (f : A -> B -> C) (g : I -> A) (h : I -> B) l : map2 f (map g l) (map h l) = map (fun i => f (g i) (h i)) l.
Proof. induction l as [|x l IH]; simpl; [reflexivity|]. rewrite IH. reflexivity. Qed.
Lemma dot_sum sh a b : has_shape sh a -> has_shape sh b -> dot a b = rsum (indices sh) (fun i => rget a i * rget b i).
Proof.
  intros Ha Hb. apply has_shape_wf in Ha. apply has_shape_wf in Hb. destruct Ha as [Sa Wa], Hb as [Sb Wb].
  unfold dot. rewrite (data_map 0 a Wa), (data_map 0 b Wb), Sa, Sb, map2_map. unfold sumf.
  induction (indices sh) as [|x l IH]; simpl; [reflexivity|]. rewrite IH. reflexivity.
Qed.
Lemma step_tab sh x v t : has_shape sh x -> has_shape sh v -> step x v t = tab sh (fun i => rget x i + t * rget v i).
Proof.
  intros Ha Hb. apply has_shape_wf in Ha. apply has_shape_wf in Hb. destruct Ha as [Sa Wa], Hb as [Sb Wb].
  unfold step, tab. rewrite (data_map 0 x Wa), (data_map 0 v Wb), Sa, Sb, map2_map. reflexivity.
Qed.
Lemma tab_has_shape sh f : has_shape sh (tab sh f).
Proof. apply has_shape_wf. split; [reflexivity|apply tab_wf]. Qed.
Lemma step_has_shape sh x v t : has_shape sh x -> has_shape sh v -> has_shape sh (step x v t).
Proof. intros H1 H2. rewrite (step_tab sh) by auto. apply tab_has_shape. Qed.
Lemma step_get sh x v t i : has_shape sh x -> has_shape sh v -> in_bounds sh i -> rget (step x v t) i = rget x i + t * rget v i.
Proof. intros H1 H2 Hi. rewrite (step_tab sh) by auto. rewrite aget_tab by exact Hi. reflexivity. Qed.

Lemma derivable_sum {I} (l : list I) (f : I -> R -> R) (d : I -> R) x :
  (forall i, In i l -> derivable_pt_lim (f i) x (d i)) ->
  derivable_pt_lim (fun t => rsum l (fun i => f i t)) x (rsum l d).
Proof.
  induction l as [|a l IH]; intros H; simpl.
  - apply (derivable_pt_lim_const 0).
  - apply (derivable_pt_lim_plus (f a) (fun t => rsum l (fun i => f i t))).
    + apply H. simpl. auto.
    + apply IH. intros i Hi. apply H. simpl. auto.
Qed.
Lemma derivable_ext f g x d : (forall t, f t = g t) -> derivable_pt_lim f x d -> derivable_pt_lim g x d.
Proof. intros E H eps He. destruct (H eps He) as [dl Hd]. exists dl. intros h Hn Hh. rewrite <- !E. apply Hd; auto. Qed.
Lemma derivable_line phi a b d : derivable_pt_lim phi a d -> derivable_pt_lim (fun t => phi (a + t * b)) 0 (d * b).
Proof.
  intros H.
  assert (E : derivable_pt_lim (fun t => a + t * b) 0 (0 + (1 * b + 0 * 0))).
  { apply (derivable_pt_lim_plus (fun _ => a) (fun t => t * b)); [apply derivable_pt_lim_const|].
    apply (derivable_pt_lim_mult id (fun _ => b) 0 1 0); [apply derivable_pt_lim_id|apply derivable_pt_lim_const]. }
  replace (0 + (1 * b + 0 * 0)) with b in E by ring.
  apply (derivable_pt_lim_comp (fun t => a + t * b) phi 0 b d E).
  replace (a + 0 * b) with a by ring. exact H.
Qed.

(** Elementwise functions of a broadcast argument. *)
Lemma vjp_elementwise F x gy gx p (phi : list nat -> R -> R) (delta : list nat -> R) :
  wf x -> wf gy -> wf gx -> a_shape gx = a_shape x ->
  maps_into p (a_shape gy) (a_shape x) ->
  (forall x', has_shape (a_shape x) x' -> exists y, F x' = Some y /\ has_shape (a_shape gy) y /\
     forall i, in_bounds (a_shape gy) i -> rget y i = phi i (rget x' (p i))) ->
  (forall i, in_bounds (a_shape gy) i -> derivable_pt_lim (phi i) (rget x (p i)) (delta i)) ->
  sums_along 0 Rplus p (tab (a_shape gy) (fun i => rget gy i * delta i)) gx ->
  vjp F x gy gx.
Proof.
  intros Wx Wgy Wgx Sgx M HF HD HS. split; [apply has_shape_wf; auto|]. intros v Hv.
  assert (Hx : has_shape (a_shape x) x) by (apply has_shape_wf; auto).
  exists (fun t => tab (a_shape gy) (fun i => phi i (rget x (p i) + t * rget v (p i)))). split.
  - intros t. split; [|apply tab_has_shape].
    destruct (HF (step x v t)) as (y & E & Hy & G); [apply (step_has_shape (a_shape x)); auto|]. rewrite E. f_equal.
    apply has_shape_wf in Hy. destruct Hy as [Sy Wy]. apply (arr_ext 0); [exact Wy|apply tab_wf|exact Sy|].
    rewrite Sy. intros i Hi. rewrite G, aget_tab by exact Hi. rewrite (step_get (a_shape x)) by auto. reflexivity.
  - apply (derivable_ext (fun t => rsum (indices (a_shape gy)) (fun i => rget gy i * phi i (rget x (p i) + t * rget v (p i))))).
    + intros t. rewrite (dot_sum (a_shape gy)); [|apply has_shape_wf; auto|apply tab_has_shape].
      apply sum_ext. intros i Hi. apply indices_in in Hi. rewrite aget_tab by exact Hi. reflexivity.
    + assert (E : dot gx v = rsum (indices (a_shape gy)) (fun i => rget gy i * (delta i * rget v (p i)))).
      { rewrite (dot_sum (a_shape x)); [|apply has_shape_wf; auto|exact Hv].
        pose proof (sums_along_adjoint 0 1 Rplus Rmult Rminus Ropp RT p (tab (a_shape gy) (fun i => rget gy i * delta i)) gx (rget v)) as AD.
        unfold dotp in AD. rewrite Sgx in AD. simpl in AD. unfold get in AD. etransitivity; [exact (AD M HS)|].
        apply sum_ext. intros i Hi. apply indices_in in Hi. rewrite aget_tab by exact Hi. ring. }
      rewrite E.
      apply (derivable_sum (indices (a_shape gy)) (fun i t => rget gy i * phi i (rget x (p i) + t * rget v (p i)))
                           (fun i => rget gy i * (delta i * rget v (p i)))).
      intros i Hi. apply indices_in in Hi.
      apply (derivable_pt_lim_scal (fun t => phi i (rget x (p i) + t * rget v (p i))) (rget gy i) 0 (delta i * rget v (p i))).
      apply derivable_line. apply HD. exact Hi.
Qed.

(** Functions that are affine in [x] with the stated adjoint. *)
Lemma vjp_affine F x gy gx (L : arr R -> arr R) :
  wf x -> wf gx -> a_shape gx = a_shape x ->
  (forall x', has_shape (a_shape x) x' -> F x' = Some (L x') /\ has_shape (a_shape gy) (L x')) ->
  (forall v t, has_shape (a_shape x) v -> dot gy (L (step x v t)) = dot gy (L x) + t * dot gx v) ->
  vjp F x gy gx.
Proof.
  intros Wx Wgx Sgx HF HL. split; [apply has_shape_wf; auto|]. intros v Hv.
  exists (fun t => L (step x v t)). split.
  - intros t. apply HF. apply (step_has_shape (a_shape x)); [apply has_shape_wf; auto|exact Hv].
  - apply (derivable_ext (fun t => dot gy (L x) + t * dot gx v)); [intros t; symmetry; apply HL; exact Hv|].
    pose proof (derivable_line (fun z => z) (dot gy (L x)) (dot gx v) 1 (derivable_pt_lim_id _)) as E.
    rewrite Rmult_1_l in E. exact E.
Qed.

(** Functions that sum their argument along [p], or read it through [p]. *)
Lemma vjp_sums_along F x gy gx p :
  wf x -> wf gy -> wf gx -> a_shape gx = a_shape x ->
  maps_into p (a_shape x) (a_shape gy) ->
  (forall x', has_shape (a_shape x) x' -> exists y, F x' = Some y /\ has_shape (a_shape gy) y /\ sums_along 0 Rplus p x' y) ->
  (forall i, in_bounds (a_shape x) i -> rget gx i = rget gy (p i)) ->
  vjp F x gy gx.
Proof.
  intros Wx Wgy Wgx Sgx M HF HG.
  assert (Hx : has_shape (a_shape x) x) by (apply has_shape_wf; auto).
  assert (Hgy : has_shape (a_shape gy) gy) by (apply has_shape_wf; auto).
  assert (Hgx : has_shape (a_shape x) gx) by (apply has_shape_wf; auto).
  set (L := fun x' => match F x' with Some y => y | None => x' end).
  assert (D : forall x', has_shape (a_shape x) x' -> dot gy (L x') = dot gx x').
  { intros x' Hx'. destruct (HF x' Hx') as (y & E & Hy & S). unfold L. rewrite E.
    rewrite (dot_sum (a_shape gy)), (dot_sum (a_shape x)) by auto.
    pose proof (sums_along_adjoint 0 1 Rplus Rmult Rminus Ropp RT p x' y (rget gy)) as AD.
    apply has_shape_wf in Hy. apply has_shape_wf in Hx'. destruct Hy as [Sy Wy], Hx' as [Sx' Wx'].
    unfold dotp in AD. rewrite Sy, Sx' in AD. specialize (AD M S). unfold get in AD.
    etransitivity; [|etransitivity; [exact AD|]]; apply sum_ext; intros i Hi; apply indices_in in Hi.
    - ring.
    - rewrite HG by exact Hi. ring. }
  apply (vjp_affine F x gy gx L); auto.
  - intros x' Hx'. destruct (HF x' Hx') as (y & E & Hy & S). unfold L. rewrite E. auto.
  - intros v t Hv. rewrite !D by (try apply (step_has_shape (a_shape x)); auto).
    rewrite !(dot_sum (a_shape x)) by (try apply (step_has_shape (a_shape x)); auto).
    rewrite <- (sum_scale 0 1 Rplus Rmult Rminus Ropp RT), <- (sum_add 0 1 Rplus Rmult Rminus Ropp RT).
    apply sum_ext. intros i Hi. apply indices_in in Hi. rewrite (step_get (a_shape x)) by auto. ring.
Qed.
Lemma vjp_reads F x gy gx p :
  wf x -> wf gy -> wf gx -> a_shape gx = a_shape x ->
  maps_into p (a_shape gy) (a_shape x) ->
  (forall x', has_shape (a_shape x) x' -> exists y, F x' = Some y /\ has_shape (a_shape gy) y /\
     forall i, in_bounds (a_shape gy) i -> rget y i = rget x' (p i)) ->
  sums_along 0 Rplus p gy gx ->
  vjp F x gy gx.
Proof.
  intros Wx Wgy Wgx Sgx M HF HS.
  apply (vjp_elementwise F x gy gx p (fun _ z => z) (fun _ => 1)); auto.
  - intros i _. apply derivable_pt_lim_id.
  - replace (tab (a_shape gy) (fun i => rget gy i * 1)) with gy; [exact HS|].
    rewrite <- (tab_aget 0 gy Wgy) at 1. apply tab_ext. intros i _. ring.
Qed.
