(** Gradients of the arithmetic operations over the reals. *)
From Coq Require Import List Arith Bool Lia Reals Lra RealField.
Import ListNotations.
From Verif Require Import Eval_Proofs Array_Model Array_Proofs Array_Sum Arith_Model Broadcast_Spec Arith_Proofs Vjp_Spec Vjp_Proofs.
Local Open Scope R_scope.

(** [x^(-2)], what [powf(-2.)] stands for. *)
Definition rpowm2 (x : R) : R := / (x * x).

Notation radd_f := (add_forward 0 Rplus).
Notation rsub_f := (sub_forward 0 Rminus).
Notation rmul_f := (mul_forward 0 Rmult).
Notation rdiv_f := (div_forward 0 1 Rmult Rdiv).
Notation radd_g := (add_grad 0 Rplus).
Notation rsub_g := (sub_grad 0 Rplus Ropp).
Notation rmul_g := (mul_grad 0 Rplus Rmult).
Notation rdiv_g := (div_grad 0 1 Rplus Rmult Rdiv Ropp rpowm2).
Notation rreduce := (maybe_reduce 0 Rplus).
Notation along := (sums_along 0 Rplus).

Lemma derivable_unique f x a b : derivable_pt_lim f x a -> derivable_pt_lim f x b -> a = b.
Proof. apply uniqueness_limite. Qed.

Lemma dot_basis sh g i : has_shape sh g -> in_bounds sh i ->
  dot g (tab sh (fun j => if shape_eqb j i then 1 else 0)) = rget g i.
Proof.
  intros Hg Hi. rewrite (dot_sum sh); [|exact Hg|apply tab_has_shape].
  transitivity (rsum (indices sh) (fun j => if shape_eqb j i then rget g j else 0)).
  - apply sum_ext. intros j Hj. apply indices_in in Hj. rewrite aget_tab by exact Hj.
    destruct (shape_eqb j i); ring.
  - apply (sum_one 0 1 Rplus Rmult Rminus Ropp RT (indices sh) (fun j => shape_eqb j i) (rget g) i).
    + apply indices_nodup.
    + apply indices_in. exact Hi.
    + apply shape_eqb_ok. reflexivity.
    + intros j _ E. apply shape_eqb_ok in E. exact E.
Qed.
(** There is only one gradient. *)
Lemma vjp_unique F x gy g1 g2 : vjp F x gy g1 -> vjp F x gy g2 -> g1 = g2.
Proof.
  intros [S1 H1] [S2 H2]. pose proof (proj1 (has_shape_wf _ _) S1) as [E1 W1]. pose proof (proj1 (has_shape_wf _ _) S2) as [E2 W2].
  apply (arr_ext 0); auto; [congruence|]. intros i Hi. rewrite E1 in Hi.
  rewrite <- (dot_basis (a_shape x) g1 i S1 Hi), <- (dot_basis (a_shape x) g2 i S2 Hi).
  set (v := tab (a_shape x) (fun j => if shape_eqb j i then 1 else 0)).
  assert (Hv : has_shape (a_shape x) v) by apply tab_has_shape.
  destruct (H1 v Hv) as (f1 & A1 & D1). destruct (H2 v Hv) as (f2 & A2 & D2).
  apply (derivable_unique (fun t => dot gy (f1 t)) 0); [exact D1|].
  apply (derivable_ext (fun t => dot gy (f2 t))); [|exact D2]. intros t.
  destruct (A1 t) as [B1 _]. destruct (A2 t) as [B2 _]. congruence.
Qed.

Definition rank_ok (s r : list nat) : Prop := length s = length r \/ s = [].

Lemma broadcasts_reducible a b r : broadcasts a b r -> prod r <> 0%nat -> rank_ok a r -> reducible a r.
Proof.
  intros B P K. split; [exact P|]. split; [|exact K]. apply co_broadcast_iff in B. apply (co_broadcast_ok_l _ _ _ B).
Qed.
Lemma broadcasts_again a b r : broadcasts a b r -> broadcasts r b r.
Proof.
  intros [L H]. split; [lia|]. intros k Hk. cbv zeta. specialize (H k Hk). cbv zeta in H.
  destruct H as [[A1 B1]|[[A1 B1]|[A1 B1]]]; [left; split; congruence|left; split; congruence|right; right; auto].
Qed.
Lemma maps_bc a b r : broadcasts a b r -> maps_into (bc_idx a) r a.
Proof. intros B i Hi. apply (bc_bounds a r); [|exact Hi]. apply co_broadcast_iff in B. apply (co_broadcast_ok_l _ _ _ B). Qed.

Section Binop.
  Variables (fwd : arr R -> arr R -> option (arr R)) (op : R -> R -> R).
  Lemma vjp_binop_l x0 x1 gy G r (D : list nat -> R) :
    wf x0 -> wf x1 -> has_shape r gy -> broadcasts (a_shape x0) (a_shape x1) r -> prod r <> 0%nat -> rank_ok (a_shape x0) r ->
    (forall x0', has_shape (a_shape x0) x0' -> exists y, fwd x0' x1 = Some y /\ a_shape y = r /\ pointwise 0 op x0' x1 y) ->
    (forall i, in_bounds r i -> derivable_pt_lim (fun a => op a (rget x1 (bc_idx (a_shape x1) i))) (rget x0 (bc_idx (a_shape x0) i)) (D i)) ->
    wf G -> a_shape G = r -> (forall i, in_bounds r i -> rget G i = rget gy i * D i) ->
    exists gx, rreduce (a_shape x0) G = Some gx /\ vjp (fun a => fwd a x1) x0 gy gx.
  Proof.
    intros W0 W1 Hgy B P K F HD WG SG HG.
    apply has_shape_wf in Hgy. destruct Hgy as [Sg Wg].
    destruct (maybe_reduce_ok 0 1 Rplus Rmult Rminus Ropp RT (a_shape x0) G WG) as (gx & E & Wgx & Sgx & A).
    { rewrite SG. apply (broadcasts_reducible _ _ _ B); auto. }
    exists gx. split; [exact E|].
    apply (vjp_elementwise _ x0 gy gx (bc_idx (a_shape x0)) (fun i a => op a (rget x1 (bc_idx (a_shape x1) i))) D); auto; rewrite ?Sg.
    - apply (maps_bc _ _ _ B).
    - intros x' Hx'. destruct (F x' Hx') as (y & Ey & Sy & Wy & Py). exists y. split; [exact Ey|].
      split; [apply has_shape_wf; auto|]. intros i Hi. rewrite Py by (rewrite Sy; exact Hi).
      rewrite (proj1 Hx'). reflexivity.
    - exact HD.
    - replace (tab r (fun i => rget gy i * D i)) with G; [exact A|].
      rewrite <- (tab_aget 0 G WG) at 1. rewrite SG. apply tab_ext. exact HG.
  Qed.
  Lemma vjp_binop_r x0 x1 gy G r (D : list nat -> R) :
    wf x0 -> wf x1 -> has_shape r gy -> broadcasts (a_shape x0) (a_shape x1) r -> prod r <> 0%nat -> rank_ok (a_shape x1) r ->
    (forall x1', has_shape (a_shape x1) x1' -> exists y, fwd x0 x1' = Some y /\ a_shape y = r /\ pointwise 0 op x0 x1' y) ->
    (forall i, in_bounds r i -> derivable_pt_lim (fun a => op (rget x0 (bc_idx (a_shape x0) i)) a) (rget x1 (bc_idx (a_shape x1) i)) (D i)) ->
    wf G -> a_shape G = r -> (forall i, in_bounds r i -> rget G i = rget gy i * D i) ->
    exists gx, rreduce (a_shape x1) G = Some gx /\ vjp (fun a => fwd x0 a) x1 gy gx.
  Proof.
    intros W0 W1 Hgy B P K F HD WG SG HG. pose proof (broadcasts_sym _ _ _ B) as B'.
    apply has_shape_wf in Hgy. destruct Hgy as [Sg Wg].
    destruct (maybe_reduce_ok 0 1 Rplus Rmult Rminus Ropp RT (a_shape x1) G WG) as (gx & E & Wgx & Sgx & A).
    { rewrite SG. apply (broadcasts_reducible _ _ _ B'); auto. }
    exists gx. split; [exact E|].
    apply (vjp_elementwise _ x1 gy gx (bc_idx (a_shape x1)) (fun i a => op (rget x0 (bc_idx (a_shape x0) i)) a) D); auto; rewrite ?Sg.
    - apply (maps_bc _ _ _ B').
    - intros x' Hx'. destruct (F x' Hx') as (y & Ey & Sy & Wy & Py). exists y. split; [exact Ey|].
      split; [apply has_shape_wf; auto|]. intros i Hi. rewrite Py by (rewrite Sy; exact Hi).
      rewrite (proj1 Hx'). reflexivity.
    - exact HD.
    - replace (tab r (fun i => rget gy i * D i)) with G; [exact A|].
      rewrite <- (tab_aget 0 G WG) at 1. rewrite SG. apply tab_ext. exact HG.
  Qed.
End Binop.

Section Grads.
  Variable at_empty : arr R -> option R.
  Hypothesis AE : at_empty_ok 0 at_empty.

  Lemma d_add_l b x : derivable_pt_lim (fun a => a + b) x 1.
  Proof. replace 1 with (1 + 0) by ring. apply (derivable_pt_lim_plus id (fun _ => b)); [apply derivable_pt_lim_id|apply derivable_pt_lim_const]. Qed.
  Lemma d_add_r b x : derivable_pt_lim (fun a => b + a) x 1.
  Proof. replace 1 with (0 + 1) by ring. apply (derivable_pt_lim_plus (fun _ => b) id); [apply derivable_pt_lim_const|apply derivable_pt_lim_id]. Qed.
  Lemma d_sub_l b x : derivable_pt_lim (fun a => a - b) x 1.
  Proof. replace 1 with (1 - 0) by ring. apply (derivable_pt_lim_minus id (fun _ => b)); [apply derivable_pt_lim_id|apply derivable_pt_lim_const]. Qed.
  Lemma d_sub_r b x : derivable_pt_lim (fun a => b - a) x (-1).
  Proof. replace (-1) with (0 - 1) by ring. apply (derivable_pt_lim_minus (fun _ => b) id); [apply derivable_pt_lim_const|apply derivable_pt_lim_id]. Qed.
  Lemma d_mul_l b x : derivable_pt_lim (fun a => a * b) x b.
  Proof.
    pose proof (derivable_pt_lim_mult id (fun _ => b) x 1 0 (derivable_pt_lim_id x) (derivable_pt_lim_const b x)) as E.
    cbv beta in E. replace (1 * b + id x * 0) with b in E by ring. exact E.
  Qed.
  Lemma d_mul_r b x : derivable_pt_lim (fun a => b * a) x b.
  Proof. apply (derivable_ext (fun a => a * b)); [intros; ring|apply d_mul_l]. Qed.
  Lemma d_div_l b x : derivable_pt_lim (fun a => a / b) x (/ b).
  Proof. apply d_mul_l. Qed.
  Lemma d_div_r b x : x <> 0 -> derivable_pt_lim (fun a => b / a) x (- b * rpowm2 x).
  Proof.
    intros N. replace (- b * rpowm2 x) with ((0 * id x - 1 * b) / Rsqr (id x)) by (unfold rpowm2, Rsqr, id; field; exact N).
    apply (derivable_pt_lim_div (fun _ => b) id); [apply derivable_pt_lim_const|apply derivable_pt_lim_id|exact N].
  Qed.

  Section Two.
    Variables (x0 x1 gy : arr R) (r : list nat).
    Hypothesis W0 : wf x0. Hypothesis W1 : wf x1. Hypothesis Hgy : has_shape r gy.
    Hypothesis B : broadcasts (a_shape x0) (a_shape x1) r. Hypothesis P : prod r <> 0%nat.

    Let Wg : wf gy. Proof. apply has_shape_wf in Hgy. tauto. Qed.
    Let Sg : a_shape gy = r. Proof. apply Hgy. Qed.

    Lemma fwd_l (fwd : arr R -> arr R -> option (arr R)) op :
      (forall a b r, wf a -> wf b -> co_broadcast (a_shape a) (a_shape b) = Some r -> prod r <> 0%nat -> a_shape b = a_shape x1 ->
         exists y, fwd a b = Some y /\ a_shape y = r /\ pointwise 0 op a b y) ->
      forall x0', has_shape (a_shape x0) x0' -> exists y, fwd x0' x1 = Some y /\ a_shape y = r /\ pointwise 0 op x0' x1 y.
    Proof.
      intros H x' Hx'. apply has_shape_wf in Hx'. destruct Hx' as [S W]. apply H; auto. apply co_broadcast_iff. rewrite S. exact B.
    Qed.
    Lemma fwd_r (fwd : arr R -> arr R -> option (arr R)) op :
      (forall a b r, wf a -> wf b -> co_broadcast (a_shape a) (a_shape b) = Some r -> prod r <> 0%nat -> a_shape b = a_shape x1 ->
         exists y, fwd a b = Some y /\ a_shape y = r /\ pointwise 0 op a b y) ->
      forall x1', has_shape (a_shape x1) x1' -> exists y, fwd x0 x1' = Some y /\ a_shape y = r /\ pointwise 0 op x0 x1' y.
    Proof.
      intros H x' Hx'. apply has_shape_wf in Hx'. destruct Hx' as [S W]. apply H; auto. apply co_broadcast_iff. rewrite S. exact B.
    Qed.

    Lemma add_fwd a b r' : wf a -> wf b -> co_broadcast (a_shape a) (a_shape b) = Some r' -> prod r' <> 0%nat -> a_shape b = a_shape x1 ->
      exists y, radd_f at_empty a b = Some y /\ a_shape y = r' /\ pointwise 0 Rplus a b y.
    Proof. intros. apply (bin_forward_ok 0 at_empty AE); auto. intros; ring. Qed.
    Lemma mul_fwd a b r' : wf a -> wf b -> co_broadcast (a_shape a) (a_shape b) = Some r' -> prod r' <> 0%nat ->
      exists y, rmul_f at_empty a b = Some y /\ a_shape y = r' /\ pointwise 0 Rmult a b y.
    Proof. intros. apply (bin_forward_ok 0 at_empty AE); auto. intros; ring. Qed.
    Lemma sub_fwd a b r' : wf a -> wf b -> co_broadcast (a_shape a) (a_shape b) = Some r' -> prod r' <> 0%nat -> a_shape b = a_shape x1 ->
      exists y, rsub_f at_empty a b = Some y /\ a_shape y = r' /\ pointwise 0 Rminus a b y.
    Proof. intros. apply (sub_forward_ok 0 Rminus at_empty AE); auto. Qed.
    Lemma div_fwd a b r' : a_shape x1 <> [1%nat] -> wf a -> wf b -> co_broadcast (a_shape a) (a_shape b) = Some r' -> prod r' <> 0%nat -> a_shape b = a_shape x1 ->
      exists y, rdiv_f at_empty a b = Some y /\ a_shape y = r' /\ pointwise 0 Rdiv a b y.
    Proof. intros. apply (div_forward_ok 0 1 Rmult Rdiv at_empty AE); auto; [|congruence]. intros u w. unfold Rdiv. ring. Qed.

    Lemma add_grad_l : rank_ok (a_shape x0) r ->
      exists gx, fst (radd_g x0 x1 gy) = Some gx /\ vjp (fun a => radd_f at_empty a x1) x0 gy gx.
    Proof.
      intros K. apply (vjp_binop_l _ Rplus x0 x1 gy gy r (fun _ => 1)); auto.
      - apply (fwd_l _ Rplus). apply add_fwd.
      - intros i _. apply d_add_l.
      - intros i _. ring.
    Qed.
    Lemma add_grad_r : rank_ok (a_shape x1) r ->
      exists gx, snd (radd_g x0 x1 gy) = Some gx /\ vjp (fun a => radd_f at_empty x0 a) x1 gy gx.
    Proof.
      intros K. apply (vjp_binop_r _ Rplus x0 x1 gy gy r (fun _ => 1)); auto.
      - apply (fwd_r _ Rplus). apply add_fwd.
      - intros i _. apply d_add_r.
      - intros i _. ring.
    Qed.
    Lemma sub_grad_l : rank_ok (a_shape x0) r ->
      exists gx, fst (rsub_g x0 x1 gy) = Some gx /\ vjp (fun a => rsub_f at_empty a x1) x0 gy gx.
    Proof.
      intros K. apply (vjp_binop_l _ Rminus x0 x1 gy gy r (fun _ => 1)); auto.
      - apply (fwd_l _ Rminus). apply sub_fwd.
      - intros i _. apply d_sub_l.
      - intros i _. ring.
    Qed.
    Lemma sub_grad_r : rank_ok (a_shape x1) r ->
      exists gx, snd (rsub_g x0 x1 gy) = Some gx /\ vjp (fun a => rsub_f at_empty x0 a) x1 gy gx.
    Proof.
      intros K. unfold sub_grad. simpl. pose proof (broadcasts_sym _ _ _ B) as B'.
      destruct (maybe_reduce_ok 0 1 Rplus Rmult Rminus Ropp RT (a_shape x1) gy Wg) as (g & E & W & S & A).
      { rewrite Sg. apply (broadcasts_reducible _ _ _ B'); auto. }
      rewrite E. simpl. exists (amap Ropp g). split; [reflexivity|].
      apply (vjp_elementwise _ x1 gy (amap Ropp g) (bc_idx (a_shape x1)) (fun i a => rget x0 (bc_idx (a_shape x0) i) - a) (fun _ => -1)); auto.
      - apply amap_wf. exact W.
      - rewrite Sg. apply (maps_bc _ _ _ B').
      - intros x' Hx'. destruct (fwd_r _ _ sub_fwd x' Hx') as (y & Ey & Sy & Wy & Py). exists y. split; [exact Ey|].
        split; [apply has_shape_wf; split; [congruence|auto]|]. intros i Hi. rewrite Py by (rewrite Sy, <- Sg; exact Hi).
        rewrite (proj1 Hx'). reflexivity.
      - intros i _. apply d_sub_r.
      - intros j Hj. unfold get. rewrite (aget_map 0) by auto. unfold get in A. simpl in Hj. rewrite A by exact Hj.
        rewrite <- (sum_opp 0 1 Rplus Rmult Rminus Ropp RT). simpl. apply sum_ext. intros i Hi. apply filter_In in Hi.
        destruct Hi as [Hi _]. apply indices_in in Hi. rewrite aget_tab by exact Hi. unfold get. ring.
    Qed.
    Lemma mul_grad_l : rank_ok (a_shape x0) r ->
      exists gx, fst (rmul_g at_empty x0 x1 gy) = Some gx /\ vjp (fun a => rmul_f at_empty a x1) x0 gy gx.
    Proof.
      intros K. unfold mul_grad. simpl.
      destruct (mul_fwd gy x1 r Wg W1) as (G & EG & SG & WG & PG); [apply co_broadcast_iff; rewrite Sg; apply (broadcasts_again _ _ _ B)|exact P|].
      rewrite EG. simpl.
      apply (vjp_binop_l _ Rmult x0 x1 gy G r (fun i => rget x1 (bc_idx (a_shape x1) i))); auto.
      - apply (fwd_l _ Rmult). intros. apply mul_fwd; auto.
      - intros i _. apply d_mul_l.
      - intros i Hi. rewrite PG by (rewrite SG; exact Hi). rewrite Sg, bc_idx_self by exact Hi. reflexivity.
    Qed.
    Lemma mul_grad_r : rank_ok (a_shape x1) r ->
      exists gx, snd (rmul_g at_empty x0 x1 gy) = Some gx /\ vjp (fun a => rmul_f at_empty x0 a) x1 gy gx.
    Proof.
      intros K. unfold mul_grad. simpl.
      destruct (mul_fwd gy x0 r Wg W0) as (G & EG & SG & WG & PG); [apply co_broadcast_iff; rewrite Sg; apply (broadcasts_again _ _ _ (broadcasts_sym _ _ _ B))|exact P|].
      rewrite EG. simpl.
      apply (vjp_binop_r _ Rmult x0 x1 gy G r (fun i => rget x0 (bc_idx (a_shape x0) i))); auto.
      - apply (fwd_r _ Rmult). intros. apply mul_fwd; auto.
      - intros i _. apply d_mul_r.
      - intros i Hi. rewrite PG by (rewrite SG; exact Hi). rewrite Sg, bc_idx_self by exact Hi. reflexivity.
    Qed.
    Lemma div_grad_l : a_shape x1 <> [1%nat] -> rank_ok (a_shape x0) r ->
      exists gx, fst (rdiv_g at_empty x0 x1 gy) = Some gx /\ vjp (fun a => rdiv_f at_empty a x1) x0 gy gx.
    Proof.
      intros N K. unfold div_grad. simpl.
      destruct (div_fwd gy x1 r N Wg W1) as (G & EG & SG & WG & PG); [apply co_broadcast_iff; rewrite Sg; apply (broadcasts_again _ _ _ B)|exact P|reflexivity|].
      rewrite EG. simpl.
      apply (vjp_binop_l _ Rdiv x0 x1 gy G r (fun i => / rget x1 (bc_idx (a_shape x1) i))); auto.
      - apply (fwd_l _ Rdiv). intros. apply div_fwd; auto.
      - intros i _. apply d_div_l.
      - intros i Hi. rewrite PG by (rewrite SG; exact Hi). rewrite Sg, bc_idx_self by exact Hi. reflexivity.
    Qed.
    Lemma div_grad_r : a_shape x1 <> [1%nat] -> rank_ok (a_shape x1) r ->
      (forall j, in_bounds (a_shape x1) j -> rget x1 j <> 0) ->
      exists gx, snd (rdiv_g at_empty x0 x1 gy) = Some gx /\ vjp (fun a => rdiv_f at_empty x0 a) x1 gy gx.
    Proof.
      intros N K NZ. unfold div_grad. simpl. pose proof (broadcasts_sym _ _ _ B) as B'.
      destruct (mul_fwd (amap Ropp x0) (amap rpowm2 x1) r) as (H & EH & SH & WH & PH);
        [apply amap_wf; auto|apply amap_wf; auto|apply co_broadcast_iff; exact B|exact P|].
      rewrite EH. simpl.
      destruct (mul_fwd H gy r WH Wg) as (G & EG & SG & WG & PG); [rewrite SH, Sg; apply co_broadcast_self|exact P|].
      rewrite EG. simpl.
      apply (vjp_binop_r _ Rdiv x0 x1 gy G r (fun i => - rget x0 (bc_idx (a_shape x0) i) * rpowm2 (rget x1 (bc_idx (a_shape x1) i)))); auto.
      - apply (fwd_r _ Rdiv). intros. apply div_fwd; auto.
      - intros i Hi. apply d_div_r. apply NZ. apply (maps_bc _ _ _ B'). exact Hi.
      - intros i Hi. rewrite PG by (rewrite SG; exact Hi). rewrite SH, Sg, !bc_idx_self by exact Hi.
        rewrite PH by (rewrite SH; exact Hi). simpl.
        rewrite (aget_map 0 0 Ropp) by (auto; apply (maps_bc _ _ _ B); exact Hi).
        rewrite (aget_map 0 0 rpowm2) by (auto; apply (maps_bc _ _ _ B'); exact Hi). ring.
    Qed.
  End Two.
End Grads.

(** ** The two helpers are each other's gradients *)
Lemma maybe_broadcast_ok orig x target : has_shape orig x -> reducible orig target ->
  exists y, maybe_broadcast 0 target x = Some y /\ has_shape target y /\
    forall i, in_bounds target i -> rget y i = rget x (bc_idx orig i).
Proof.
  intros Hx (P & CB & RK). apply has_shape_wf in Hx. destruct Hx as [S W]. unfold maybe_broadcast. rewrite S.
  destruct (shape_eqb orig target) eqn:E.
  - apply shape_eqb_ok in E. subst target. exists x. split; [reflexivity|]. split; [apply has_shape_wf; auto|].
    intros i Hi. rewrite bc_idx_self by exact Hi. reflexivity.
  - destruct (is_scalar_shape orig) eqn:Q.
    + assert (orig = []).
      { unfold is_scalar_shape in Q. apply orb_prop in Q. destruct Q as [Q|Q]; apply shape_eqb_ok in Q; [exact Q|]. rewrite Q in RK, CB.
        exfalso. destruct RK as [RK|RK]; [|discriminate]. destruct target as [|g [|]]; simpl in RK; try lia.
        destruct g; [apply P; reflexivity|]. unfold can_broadcast in CB. simpl in CB. discriminate. }
      rewrite H in S, CB, RK. rewrite H in E. rewrite H. clear H Q. rewrite (into_shape_get x) by (rewrite S, prod_ones; reflexivity).
      unfold broadcast. simpl a_shape.
      assert (C : can_broadcast (repeat 1%nat (length target)) target = true).
      { unfold can_broadcast. rewrite repeat_length, Nat.leb_refl, Nat.sub_diag. simpl. apply dims_ok_ones. }
      rewrite C. eexists. split; [reflexivity|]. split; [apply tab_has_shape|].
      intros i Hi. rewrite aget_tab by exact Hi. unfold aget. simpl. rewrite S. simpl.
      unfold bc_idx. rewrite repeat_length, (in_bounds_length _ _ Hi), Nat.sub_diag. simpl.
      fold (unit_out (repeat 1%nat (length target)) i). rewrite <- (in_bounds_length _ _ Hi), unit_out_ones, ravel_zeros. reflexivity.
    + unfold broadcast. rewrite S, CB. eexists. split; [reflexivity|]. split; [apply tab_has_shape|].
      intros i Hi. rewrite aget_tab by exact Hi. rewrite ?S. reflexivity.
Qed.
Lemma maps_reducible orig target : reducible orig target -> maps_into (bc_idx orig) target orig.
Proof. intros (P & CB & _) i Hi. apply (bc_bounds orig target); auto. Qed.

Lemma reduce_vjp orig gy g : wf gy -> reducible orig (a_shape gy) -> has_shape orig g ->
  exists gx, maybe_reduce_grad 0 gy g = Some gx /\ vjp (rreduce orig) gy g gx.
Proof.
  intros W K Hg. destruct (maybe_broadcast_ok orig g (a_shape gy) Hg K) as (gx & E & Hs & G).
  apply has_shape_wf in Hs. destruct Hs as [Ss Ws]. apply has_shape_wf in Hg. destruct Hg as [Sg Wg].
  exists gx. split; [exact E|]. apply (vjp_sums_along _ gy g gx (bc_idx orig)); auto.
  - rewrite Sg. apply maps_reducible. exact K.
  - intros x' Hx'. apply has_shape_wf in Hx'. destruct Hx' as [Sx Wx].
    destruct (maybe_reduce_ok 0 1 Rplus Rmult Rminus Ropp RT orig x' Wx) as (r & Er & Wr & Sr & Ar); [rewrite Sx; exact K|].
    exists r. split; [exact Er|]. split; [apply has_shape_wf; split; [congruence|auto]|exact Ar].
Qed.
Lemma broadcast_vjp target x g : wf x -> reducible (a_shape x) target -> has_shape target g ->
  exists gx, maybe_broadcast_grad 0 Rplus x g = Some gx /\ vjp (maybe_broadcast 0 target) x g gx.
Proof.
  intros W K Hg. apply has_shape_wf in Hg. destruct Hg as [Sg Wg].
  destruct (maybe_reduce_ok 0 1 Rplus Rmult Rminus Ropp RT (a_shape x) g Wg) as (r & Er & Wr & Sr & Ar); [rewrite Sg; exact K|].
  exists r. split; [exact Er|]. apply (vjp_reads _ x g r (bc_idx (a_shape x))); auto.
  - rewrite Sg. apply maps_reducible. exact K.
  - intros x' Hx'. rewrite Sg. apply maybe_broadcast_ok; auto.
Qed.
