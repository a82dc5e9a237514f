(** Property C40: max pooling. *)
From Coq Require Import List Arith ZArith NArith Bool Lia Reals Lra RealField.
Import ListNotations.
From Verif Require Import Eval_Proofs Array_Model Array_Proofs Array_Sum Vjp_Spec Vjp_Proofs Dot_Spec Dot_Proofs Arith_Final Conv_Model Conv_Proofs Conv_Forward Conv_Backward Conv_Filter Pool_Model Pool_Spec Pool_Proofs Pool_Final.

Lemma positions_exact bits batch ch xh xw k : (N.of_nat (batch * ch * xh * xw) <= 2 ^ bits)%N -> k < prod [batch; ch; xh; xw] -> float_index bits k = k.
Proof. intros H Hk. apply float_index_small. assert (prod [batch; ch; xh; xw] = batch * ch * xh * xw) by (simpl; lia). lia. Qed.
Lemma window_nonempty xh xw s size yh yw i j : pool_sizes xh xw 0 s size yh yw -> i < yh -> j < yw -> in_window xh xw 0 s size i j (i * s) (j * s).
Proof.
  intros (Q1 & Q2 & Q3 & Q4 & F1 & F2 & _) Hi Hj. pose proof (fits_last _ _ _ _ _ _ F1 Hi). pose proof (fits_last _ _ _ _ _ _ F2 Hj).
  unfold in_window. set (a := i * s) in *. set (b := j * s) in *. clearbody a b. lia.
Qed.
Lemma positive_prod sh ix : in_bounds sh ix -> 0 < prod sh.
Proof. intros H. pose proof (ravel_lt _ _ H). lia. Qed.

(** Without padding: each output is the first largest pixel of its window and its
    position is recorded, provided positions are exact in the float format
    ([bits] = 24 for f32, 53 for f64) and all pixels are above the lowest number. *)
Theorem C40_value : forall (checked : bool) (lowest : R) (bits : N) (uninit : nat -> R) (batch ch xh xw s size yh yw : nat) (x : arr R),
  pool_sizes xh xw 0 s size yh yw -> has_shape [batch; ch; xh; xw] x -> Forall (Rlt lowest) (a_data x) -> (N.of_nat (batch * ch * xh * xw) <= 2 ^ bits)%N ->
  exists y pos, max_pool2d lowest rgt bits uninit checked 0 s size x = KOk (y, pos) /\
    has_shape [batch; ch; yh; yw] y /\ a_shape pos = [batch; ch; yh; yw] /\
    forall b c i j, b < batch -> c < ch -> i < yh -> j < yw -> exists h w,
      first_max xh xw 0 s size x b c i j h w /\
      aget 0%R y [b; c; i; j] = aget 0%R x [b; c; h; w] /\ aget 0 pos [b; c; i; j] = ravel [batch; ch; xh; xw] [b; c; h; w].
Proof.
  intros checked lowest bits u batch ch xh xw s size yh yw x S Hx Low HB. rewrite (pool_run lowest checked batch ch xh xw 0 s size yh yw S) by auto.
  eexists. eexists. split; [reflexivity|]. split; [apply tab_has_shape|]. split; [reflexivity|]. intros b c i j Hb Hc Hi Hj.
  destruct (window_first lowest checked batch ch xh xw 0 s size yh yw S x b c i j) as (h & w & F & E); auto; try lia; [exists (i * s), (j * s); eapply window_nonempty; eauto|].
  exists h, w. split; [exact F|]. rewrite !aget_tab by (repeat constructor; assumption). rewrite E. cbn [fst snd]. split; [reflexivity|]. apply (positions_exact bits batch ch xh xw); [exact HB|].
  apply ravel_lt. destruct F as ((? & ? & _) & _). repeat constructor; assumption.
Qed.
Print Assumptions C40_value.

(** A window (of any element type and comparison, so also NaN and infinities) in
    which nothing compares greater than [T::min_value()] gives that number and
    position 0 of the whole batch. *)
Theorem C40_nothing_above_lowest : forall {A} (lowest : A) (gt : A -> A -> bool) (checked : bool) (p s size ch xh xw : nat) (data : list A) (ix : list nat),
  (forall v, In v data -> gt v lowest = false) ->
  forall m, pool_window lowest gt checked p s size ch xh xw data ix = KOk m -> m = (lowest, 0).
Proof.
  intros A lowest gt checked p s size ch xh xw data ix H m. unfold pool_window. destruct ix as [|b [|c [|i [|j [|? ?]]]]]; try discriminate.
  destruct (window_range checked i s p size xh) as [rows| | |]; try discriminate. cbn [kbind]. destruct (window_range checked j s p size xw) as [cols| | |]; try discriminate. cbn [kbind].
  generalize (window_positions xh xw ch b c rows cols). induction l as [|k l IH]; simpl; intros E; [apply KOk_inj in E; auto|].
  destruct (nth_error data k) as [v|] eqn:Ev; simpl in E; [|discriminate]. rewrite H in E by (eapply nth_error_In; eauto). auto.
Qed.
Print Assumptions C40_nothing_above_lowest.

(** The gradient adds each output's gradient to the pixel at its recorded
    position, when the windows cover the image. *)
Theorem C40_gradient_routes : forall (checked : bool) (lowest : R) (bits : N) (uninit : nat -> R) (batch ch xh xw s size yh yw : nat) (x gy : arr R) y pos,
  pool_sizes xh xw 0 s size yh yw -> pool_covers xh 0 s size yh -> pool_covers xw 0 s size yw ->
  has_shape [batch; ch; xh; xw] x -> has_shape [batch; ch; yh; yw] gy -> (N.of_nat (batch * ch * xh * xw) <= 2 ^ bits)%N ->
  max_pool2d lowest rgt bits uninit checked 0 s size x = KOk (y, pos) ->
  exists gx, max_pool2d_grad_x 0%R lowest Rplus rgt bits uninit checked 0 s size x gy = KOk gx /\ has_shape [batch; ch; xh; xw] gx /\
    forall b c h w, b < batch -> c < ch -> h < xh -> w < xw ->
      aget 0%R gx [b; c; h; w] = sum_below batch (fun b' => sum_below ch (fun c' => sum_below yh (fun i => sum_below yw (fun j =>
        if aget 0 pos [b'; c'; i; j] =? ravel [batch; ch; xh; xw] [b; c; h; w] then aget 0%R gy [b'; c'; i; j] else 0%R)))).
Proof.
  intros checked lowest bits u batch ch xh xw s size yh yw x gy y pos S Ch Cw Hx Hg HB E. unfold max_pool2d_grad_x. rewrite E. cbn [kbind snd].
  rewrite (pool_run lowest checked batch ch xh xw 0 s size yh yw S) in E by auto. apply KOk_inj in E. apply (f_equal snd) in E. cbn [snd] in E. subst pos.
  pose proof S as (Q1 & Q2 & Q3 & Q4 & F1 & F2 & B1 & B2).
  destruct (grad_run checked batch ch xh xw 0 s size yh yw gy (fun ix => float_index bits (snd (the_window lowest checked ch xh xw 0 s size x ix)))) as (gx & E & Hgx & G).
  - apply in_size_covers; auto. intros _. apply Nat.le_0_l.
  - apply in_size_covers; auto. intros _. apply Nat.le_0_l.
  - exact Hg.
  - intros ix Hix. assert (P0 : 0 < prod [batch; ch; xh; xw]).
    { assert (L : length ix = 4) by (rewrite (in_bounds_length _ _ Hix); reflexivity). destruct ix as [|b [|c [|i [|j [|? ?]]]]]; try discriminate L.
      pose proof (Forall2_inv_head Hix) as Hb. apply Forall2_inv_tail in Hix. pose proof (Forall2_inv_head Hix) as Hc. apply Forall2_inv_tail in Hix. pose proof (Forall2_inv_head Hix) as Hi. apply Forall2_inv_tail in Hix. pose proof (Forall2_inv_head Hix) as Hj.
      cbn beta in *. destruct (window_nonempty _ _ _ _ _ _ i j S Hi Hj) as (W1 & W2 & _). apply (positive_prod _ [b; c; i * s; j * s]). repeat constructor; assumption. }
    assert (P := window_pos lowest checked batch ch xh xw 0 s size yh yw S x ix (fun _ => eq_refl) Hx Hix P0). rewrite (positions_exact bits batch ch xh xw) by assumption. exact P.
  - exists gx. split; [exact E|]. split; [exact Hgx|]. intros b c h w Hb Hc Hh Hw. rewrite <- (get_ravel batch ch xh xw gx) by exact Hgx. rewrite G by (apply ravel_lt; repeat constructor; assumption). rewrite nested4.
    apply sum_below_ext. intros b' Hb'. apply sum_below_ext. intros c' Hc'. apply sum_below_ext. intros i Hi. apply sum_below_ext. intros j Hj. rewrite aget_tab by (repeat constructor; assumption). reflexivity.
Qed.
Print Assumptions C40_gradient_routes.

(** It is the vector-Jacobian product where each window has one largest pixel. *)
Theorem C40_gradient : forall (checked : bool) (lowest : R) (bits : N) (uninit uninit' : nat -> R) (batch ch xh xw s size yh yw : nat) (x gy : arr R),
  pool_sizes xh xw 0 s size yh yw -> pool_covers xh 0 s size yh -> pool_covers xw 0 s size yw ->
  has_shape [batch; ch; xh; xw] x -> has_shape [batch; ch; yh; yw] gy -> Forall (Rlt lowest) (a_data x) -> (N.of_nat (batch * ch * xh * xw) <= 2 ^ bits)%N ->
  unique_maxima batch ch xh xw yh yw 0 s size x ->
  exists gx, max_pool2d_grad_x 0%R lowest Rplus rgt bits uninit checked 0 s size x gy = KOk gx /\
    vjp (fun x => option_map fst (kok (max_pool2d lowest rgt bits uninit' checked 0 s size x))) x gy gx.
Proof.
  intros checked lowest bits u u' batch ch xh xw s size yh yw x gy S Ch Cw Hx Hg Low HB U. unfold max_pool2d_grad_x. rewrite (pool_run lowest checked batch ch xh xw 0 s size yh yw S) by auto. cbn [kbind snd].
  pose proof S as (Q1 & Q2 & Q3 & Q4 & F1 & F2 & B1 & B2).
  assert (PL : forall ix, in_bounds [batch; ch; yh; yw] ix -> snd (the_window lowest checked ch xh xw 0 s size x ix) < prod [batch; ch; xh; xw]).
  { intros ix Hix. assert (P0 : 0 < prod [batch; ch; xh; xw]).
    { assert (L : length ix = 4) by (rewrite (in_bounds_length _ _ Hix); reflexivity). destruct ix as [|b [|c [|i [|j [|? ?]]]]]; try discriminate L.
      pose proof (Forall2_inv_head Hix) as Hb. apply Forall2_inv_tail in Hix. pose proof (Forall2_inv_head Hix) as Hc. apply Forall2_inv_tail in Hix. pose proof (Forall2_inv_head Hix) as Hi. apply Forall2_inv_tail in Hix. pose proof (Forall2_inv_head Hix) as Hj.
      cbn beta in *. destruct (window_nonempty _ _ _ _ _ _ i j S Hi Hj) as (W1 & W2 & _). apply (positive_prod _ [b; c; i * s; j * s]). repeat constructor; assumption. }
    exact (window_pos lowest checked batch ch xh xw 0 s size yh yw S x ix (fun _ => eq_refl) Hx Hix P0). }
  assert (PE : tab [batch; ch; yh; yw] (fun ix => float_index bits (snd (the_window lowest checked ch xh xw 0 s size x ix))) = tab [batch; ch; yh; yw] (fun ix => snd (the_window lowest checked ch xh xw 0 s size x ix))).
  { apply tab_ext. intros ix Hix. apply (positions_exact bits batch ch xh xw); auto. }
  rewrite PE.
  destruct (grad_run checked batch ch xh xw 0 s size yh yw gy (fun ix => snd (the_window lowest checked ch xh xw 0 s size x ix))) as (gx & E & Hgx & G); auto.
  { apply in_size_covers; auto. intros _. apply Nat.le_0_l. }
  { apply in_size_covers; auto. intros _. apply Nat.le_0_l. }
  exists gx. split; [exact E|]. split; [rewrite (proj1 Hx); exact Hgx|]. intros v Hv. rewrite (proj1 Hx) in Hv.
  exists (fun t => tab [batch; ch; yh; yw] (fun ix => fst (the_window lowest checked ch xh xw 0 s size (step x v t) ix))). split.
  - intros t. rewrite (pool_run lowest checked batch ch xh xw 0 s size yh yw S) by (auto; apply step_has_shape; assumption). split; [reflexivity|]. rewrite (proj1 Hg). apply tab_has_shape.
  - rewrite (grad_dot batch ch xh xw yh yw gy gx v _ Hg Hgx Hv PL G).
    destruct (window_stays lowest checked batch ch xh xw s size yh yw S x v Hx Hv Low U) as (dl & Pd & D).
    apply (derivable_local (fun t => rsum (indices [batch; ch; yh; yw]) (fun ix => aget 0 gy ix * (nth (snd (the_window lowest checked ch xh xw 0 s size x ix)) (a_data x) 0 + t * nth (snd (the_window lowest checked ch xh xw 0 s size x ix)) (a_data v) 0)))%R).
    + exists dl. split; [exact Pd|]. intros t Ht. rewrite (dot_sum [batch; ch; yh; yw]) by (exact Hg || apply tab_has_shape). apply sum_ext. intros ix Hix. apply indices_in in Hix. rewrite aget_tab by exact Hix. rewrite (D t Ht ix Hix). reflexivity.
    + apply (derivable_sum (indices [batch; ch; yh; yw]) (fun ix t => aget 0 gy ix * (nth (snd (the_window lowest checked ch xh xw 0 s size x ix)) (a_data x) 0 + t * nth (snd (the_window lowest checked ch xh xw 0 s size x ix)) (a_data v) 0))%R).
      intros ix _. pose proof (derivable_line (fun y => aget 0 gy ix * y)%R (nth (snd (the_window lowest checked ch xh xw 0 s size x ix)) (a_data x) 0%R) (nth (snd (the_window lowest checked ch xh xw 0 s size x ix)) (a_data v) 0%R) (aget 0%R gy ix)) as DL. apply DL.
      pose proof (derivable_pt_lim_scal id (aget 0%R gy ix) (nth (snd (the_window lowest checked ch xh xw 0 s size x ix)) (a_data x) 0%R) 1 (derivable_pt_lim_id _)) as DS. rewrite Rmult_1_r in DS. exact DS.
Qed.
Print Assumptions C40_gradient.

(** Second order: the gradient's gradient, for the incoming gradient. *)
Theorem C40_second_order : forall (checked : bool) (batch ch xh xw s size yh yw : nat) (gy ggx : arr R) (pos : arr nat),
  pool_sizes xh xw 0 s size yh yw -> pool_covers xh 0 s size yh -> pool_covers xw 0 s size yw ->
  has_shape [batch; ch; yh; yw] gy -> has_shape [batch; ch; xh; xw] ggx ->
  a_shape pos = [batch; ch; yh; yw] -> wf pos -> Forall (fun k => k < batch * ch * xh * xw) (a_data pos) ->
  exists g, max_pool2d_grad_grad 0 s size ggx pos = KOk g /\
    vjp (fun gy => kok (max_pool2d_grad 0%R Rplus checked 0 s size gy pos)) gy ggx g.
Proof.
  intros checked batch ch xh xw s size yh yw gy ggx pos S Ch Cw Hg Hx Sp Wp FP. pose proof S as (Q1 & Q2 & Q3 & Q4 & F1 & F2 & B1 & B2).
  assert (EP : pos = tab [batch; ch; yh; yw] (aget 0 pos)) by (rewrite <- Sp; symmetry; apply tab_aget; exact Wp).
  assert (PX : batch * ch * xh * xw = prod [batch; ch; xh; xw]) by (simpl; lia). rewrite PX in FP.
  assert (PL : forall ix, in_bounds [batch; ch; yh; yw] ix -> aget 0 pos ix < prod [batch; ch; xh; xw]).
  { intros ix Hix. rewrite Forall_forall in FP. apply FP. unfold aget. apply nth_In. rewrite Wp, Sp. apply ravel_lt. exact Hix. }
  exists (tab [batch; ch; yh; yw] (fun ix => nth (aget 0 pos ix) (a_data ggx) 0%R)). split.
  - unfold max_pool2d_grad_grad. rewrite (proj1 Hx), (fits_out_size xh 0 s size yh), (fits_out_size xw 0 s size yw) by auto. cbn [kbind].
    replace (yh * yw * ch * batch) with (length (a_data pos)) by (rewrite Wp, Sp; simpl; lia). rewrite (gather_value 0%R).
    + cbn [kbind]. unfold tab. rewrite (data_map 0 pos Wp), Sp, map_map. reflexivity.
    + intros k Hk. rewrite (proj2 Hx). rewrite Forall_forall in FP. auto.
  - assert (RUN : forall g, has_shape [batch; ch; yh; yw] g -> exists gx, max_pool2d_grad 0%R Rplus checked 0 s size g pos = KOk gx /\ has_shape [batch; ch; xh; xw] gx /\
      dot gx ggx = rsum (indices [batch; ch; yh; yw]) (fun ix => aget 0 g ix * nth (aget 0%nat pos ix) (a_data ggx) 0)%R).
    { intros g Hg'. destruct (grad_run checked batch ch xh xw 0 s size yh yw g (aget 0 pos)) as (gx & E & Hgx & G); auto; try (apply in_size_covers; auto; intros _; apply Nat.le_0_l).
      rewrite <- EP in E. exists gx. split; [exact E|]. split; [exact Hgx|]. apply (grad_dot batch ch xh xw yh yw g gx ggx (aget 0 pos) Hg' Hgx Hx PL G). }
    apply (vjp_adjoint _ _ _ _ (fun g => match max_pool2d_grad 0%R Rplus checked 0 s size g pos with KOk a => a | _ => Arr [] [] end)).
    + apply has_shape_wf in Hg. tauto.
    + apply tab_wf.
    + simpl. symmetry. exact (proj1 Hg).
    + intros g' Hg'. rewrite (proj1 Hg) in Hg'. destruct (RUN g' Hg') as (gx & E & Hgx & _). rewrite E. split; [reflexivity|]. rewrite (proj1 Hx). exact Hgx.
    + intros g' Hg'. rewrite (proj1 Hg) in Hg'. destruct (RUN g' Hg') as (gx & E & Hgx & D). rewrite E.
      rewrite (dot_sum [batch; ch; xh; xw] ggx gx Hx Hgx). rewrite (dot_sum [batch; ch; xh; xw] gx ggx Hgx Hx) in D.
      rewrite (dot_sum [batch; ch; yh; yw]) by (apply tab_has_shape || exact Hg').
      transitivity (rsum (indices [batch; ch; xh; xw]) (fun i => aget 0 gx i * aget 0 ggx i)%R); [apply sum_ext; intros; ring|]. rewrite D.
      apply sum_ext. intros ix Hix. apply indices_in in Hix. rewrite aget_tab by exact Hix. ring.
Qed.
Print Assumptions C40_second_order.

(** Padding, with overflow checks: always a panic. *)
Theorem C40_padding_panics : forall {A} (lowest : A) (gt : A -> A -> bool) (bits : N) (uninit : nat -> A) (batch ch xh xw p s size yh yw : nat) (x : arr A),
  pool_sizes xh xw p s size yh yw -> 0 < p -> 0 < batch -> 0 < ch -> a_shape x = [batch; ch; xh; xw] ->
  max_pool2d lowest gt bits uninit true p s size x = KPanic.
Proof.
  intros A lowest gt bits u batch ch xh xw p s size yh yw x (Q1 & Q2 & Q3 & Q4 & F1 & F2 & B1 & B2) Hp Hb Hc Sx.
  unfold max_pool2d. rewrite Sx, (fits_out_size xh p s size yh), (fits_out_size xw p s size yw) by auto. cbn [kbind].
  assert (I0 : exists l, indices [batch; ch; yh; yw] = [0; 0; 0; 0] :: l).
  { destruct batch; [lia|]. destruct ch; [lia|]. destruct yh; [lia|]. destruct yw; [lia|]. eexists. reflexivity. }
  destruct I0 as (l & ->). cbn [pool_loop pool_window]. unfold window_range at 1. unfold window_start, usub. destruct (Nat.leb_spec p (0 * s)); [lia|]. reflexivity.
Qed.
Print Assumptions C40_padding_panics.
(** Padding, without overflow checks: windows that begin before the image give the
    lowest number (no pixel) and position 0; the other windows that contain a pixel
    are right. *)
Theorem C40_padding_wraps : forall (lowest : R) (bits : N) (uninit : nat -> R) (batch ch xh xw p s size yh yw : nat) (x : arr R),
  pool_sizes xh xw p s size yh yw -> has_shape [batch; ch; xh; xw] x -> Forall (Rlt lowest) (a_data x) -> (N.of_nat (batch * ch * xh * xw) <= 2 ^ bits)%N ->
  exists y pos, max_pool2d lowest rgt bits uninit false p s size x = KOk (y, pos) /\ has_shape [batch; ch; yh; yw] y /\
    forall b c i j, b < batch -> c < ch -> i < yh -> j < yw ->
      (i * s < p \/ j * s < p -> aget 0%R y [b; c; i; j] = lowest /\ ~ In (aget 0%R y [b; c; i; j]) (a_data x) /\ aget 0 pos [b; c; i; j] = 0) /\
      (p <= i * s -> p <= j * s -> (exists h w, in_window xh xw p s size i j h w) -> exists h w, first_max xh xw p s size x b c i j h w /\
         aget 0%R y [b; c; i; j] = aget 0%R x [b; c; h; w] /\ aget 0 pos [b; c; i; j] = ravel [batch; ch; xh; xw] [b; c; h; w]).
Proof.
  intros lowest bits u batch ch xh xw p s size yh yw x S Hx Low HB. assert (HC : false = true -> p = 0) by discriminate.
  rewrite (pool_run lowest false batch ch xh xw p s size yh yw S) by auto.
  eexists. eexists. split; [reflexivity|]. split; [apply tab_has_shape|]. intros b c i j Hb Hc Hi Hj. rewrite !aget_tab by (repeat constructor; assumption). split.
  - intros Q. rewrite (window_empty lowest false batch ch xh xw p s size yh yw S) by auto. cbn [fst snd]. split; [reflexivity|]. split; [|apply (float_index_small bits 0); apply N.neq_0_lt_0, N.pow_nonzero; discriminate].
    intros C. rewrite Forall_forall in Low. specialize (Low _ C). lra.
  - intros Pi Pj W. destruct (window_first lowest false batch ch xh xw p s size yh yw S x b c i j) as (h & w & F & E); auto.
    exists h, w. split; [exact F|]. rewrite E. cbn [fst snd]. split; [reflexivity|]. apply (positions_exact bits batch ch xh xw); [exact HB|].
    apply ravel_lt. destruct F as ((? & ? & _) & _). repeat constructor; assumption.
Qed.
Print Assumptions C40_padding_wraps.

(** If the windows do not cover the image, what is returned does not have the
    image's shape... *)
Theorem C40_inexact_gradient_wrong : forall (checked : bool) (lowest : R) (bits : N) (uninit uninit' : nat -> R) (batch ch xh xw s size yh yw : nat) (x gy gx : arr R),
  pool_sizes xh xw 0 s size yh yw -> ~ (pool_covers xh 0 s size yh /\ pool_covers xw 0 s size yw) ->
  has_shape [batch; ch; xh; xw] x -> has_shape [batch; ch; yh; yw] gy ->
  max_pool2d_grad_x 0%R lowest Rplus rgt bits uninit checked 0 s size x gy = KOk gx ->
  a_shape gx <> a_shape x /\ ~ vjp (fun x => option_map fst (kok (max_pool2d lowest rgt bits uninit' checked 0 s size x))) x gy gx.
Proof.
  intros checked lowest bits u u' batch ch xh xw s size yh yw x gy gx S N Hx Hg E.
  assert (NE : a_shape gx <> a_shape x).
  { intros Q. apply N. pose proof S as (Q1 & Q2 & Q3 & Q4 & F1 & F2 & B1 & B2). unfold max_pool2d_grad_x in E. destruct (max_pool2d lowest rgt bits u checked 0 s size x) as [[y pos]| | |]; try discriminate E. cbn [kbind snd] in E.
    unfold max_pool2d_grad in E. rewrite (proj1 Hg) in E.
    assert (PI : forall y x, 0 < y -> fits x 0 s size y -> (Z.of_nat (2 * x + 4 * 0) < 2 ^ 64)%Z -> pool_in_size checked y 0 s size = KOk (s * (y - 1) + size)).
    { intros n z Hn F B. assert (P1 := fits_last _ _ _ _ _ (n - 1) F ltac:(lia)). apply in_size_covers; [exact Hn|unfold pool_covers; lia| |intros _; apply Nat.le_0_l]. rewrite (Nat.mul_comm (n - 1) s) in P1. set (a := s * (n - 1)) in *. clearbody a. lia. }
    rewrite (PI yh xh), (PI yw xw) in E by assumption. cbn [kbind] in E. destruct (scatter _ _ _ _ _) as [l| | |]; try discriminate E. cbn [kbind] in E. apply KOk_inj in E. subst gx. cbn [a_shape] in Q. rewrite (proj1 Hx) in Q.
    injection Q as Qh Qw. unfold pool_covers. lia. }
  split; [exact NE|]. intros ((Sg & _) & _). congruence.
Qed.
Print Assumptions C40_inexact_gradient_wrong.
(** ... and it can write outside its buffer: a 5 x 5 image, windows of 2 x 2 with
    stride 2, the largest pixel of the last window at (3,3). *)
Theorem C40_inexact_out_of_bounds_refuted : exists (x gy : arr R),
  has_shape [1; 1; 5; 5] x /\ has_shape [1; 1; 2; 2] gy /\
  (exists y pos, max_pool2d (-1)%R rgt 53 (fun _ => 0%R) true 0 2 2 x = KOk (y, pos) /\ a_shape y = a_shape gy) /\
  max_pool2d_grad_x 0%R (-1)%R Rplus rgt 53 (fun _ => 0%R) true 0 2 2 x gy = KFault.
Proof.
  set (x := Arr [1; 1; 5; 5] (repeat 0%R 18 ++ 1%R :: repeat 0%R 6)). set (gy := Arr [1; 1; 2; 2] (repeat 1%R 4)).
  assert (S : pool_sizes 5 5 0 2 2 2 2) by (repeat split; try lia).
  assert (Hx : has_shape [1; 1; 5; 5] x) by (split; reflexivity). assert (Hg : has_shape [1; 1; 2; 2] gy) by (split; reflexivity).
  assert (Low : Forall (Rlt (-1)%R) (a_data x)) by (repeat constructor; lra).
  destruct (C40_value true (-1)%R 53 (fun _ => 0%R) 1 1 5 5 2 2 2 2 x S Hx Low) as (y & pos & E & Hy & Sp & V); [vm_compute; discriminate|].
  exists x, gy. split; [exact Hx|]. split; [exact Hg|]. split; [exists y, pos; split; [exact E|rewrite (proj1 Hy); reflexivity]|].
  destruct (V 0 0 1 1 ltac:(lia) ltac:(lia) ltac:(lia) ltac:(lia)) as (h & w & (W & M) & _ & P).
  assert (W33 : in_window 5 5 0 2 2 1 1 3 3) by (unfold in_window; lia). destruct (M 3 3 W33) as [M33 _].
  assert (HW : h = 3 /\ w = 3).
  { destruct W as (W1 & W2 & W3 & W4). assert (h = 2 \/ h = 3) by lia. assert (w = 2 \/ w = 3) by lia. cbv -[Rle IZR] in M33.
    destruct H as [-> | ->]; destruct H0 as [-> | ->]; cbv -[Rle IZR] in M33; try lra. auto. }
  destruct HW as [-> ->]. unfold max_pool2d_grad_x. rewrite E. cbn [kbind snd]. unfold max_pool2d_grad. cbn [gy a_shape].
  change (pool_in_size true 2 0 2 2) with (KOk 4). cbn [kbind].
  rewrite (scatter_outside _ _ _ _ 18); [reflexivity| |simpl; lia|rewrite repeat_length; simpl; lia].
  assert (LP : length (a_data pos) = 4).
  { rewrite (pool_run (-1)%R true 1 1 5 5 0 2 2 2 2 S) in E by auto. apply KOk_inj in E. apply (f_equal snd) in E. cbn [snd] in E. subst pos. reflexivity. }
  rewrite firstn_all2 by (rewrite LP; simpl; lia). unfold aget in P. rewrite Sp in P. change (ravel [1; 1; 5; 5] [0; 0; 3; 3]) with 18 in P. rewrite <- P. apply nth_In. rewrite LP. vm_compute. lia.
Qed.
Print Assumptions C40_inexact_out_of_bounds_refuted.

(** A window larger than the padded image: panic. *)
Theorem C40_oversize_panics : forall {A} (lowest : A) (gt : A -> A -> bool) (bits : N) (uninit : nat -> A) (checked : bool) (batch ch xh xw p s size : nat) (x : arr A),
  a_shape x = [batch; ch; xh; xw] -> xh + 2 * p < size -> max_pool2d lowest gt bits uninit checked p s size x = KPanic.
Proof.
  intros A lowest gt bits u checked batch ch xh xw p s size x Sx H. unfold max_pool2d. rewrite Sx. unfold pool_out_size at 1. unfold usub. destruct (Nat.leb_spec size (xh + 2 * p)); [lia|]. reflexivity.
Qed.
Print Assumptions C40_oversize_panics.

(** f32: positions above 2^24 are rounded, so gradients go to the wrong pixel.
    Witness: a row of 2^24 + 2 pixels, windows of one pixel. *)
Theorem C40_f32_positions_refuted : exists (n : nat) (x gy gx : arr R),
  N.of_nat n = (2 ^ 24 + 2)%N /\ pool_sizes 1 n 0 1 1 1 n /\ has_shape [1; 1; 1; n] x /\ has_shape [1; 1; 1; n] gy /\ Forall (Rlt 0) (a_data x) /\ unique_maxima 1 1 1 n 1 n 0 1 1 x /\
  max_pool2d_grad_x 0%R 0%R Rplus rgt 24 (fun _ => 0%R) true 0 1 1 x gy = KOk gx /\
  ~ vjp (fun x => option_map fst (kok (max_pool2d 0%R rgt 24 (fun _ => 0%R) true 0 1 1 x))) x gy gx.
Proof.
  destruct (ex_intro (fun n => N.of_nat n = (2 ^ 24 + 2)%N) (N.to_nat (2 ^ 24 + 2)) (N2Nat.id _)) as (n & EN).
  assert (BN : (Z.of_nat n < 2 ^ 25)%Z) by (rewrite <- nat_N_Z, EN; reflexivity).
  set (x := full [1; 1; 1; n] 1%R). set (gy := full [1; 1; 1; n] 1%R).
  assert (S : pool_sizes 1 n 0 1 1 1 n) by (assert (2 ^ 25 < 2 ^ 64)%Z by reflexivity; repeat split; lia).
  assert (Hx : has_shape [1; 1; 1; n] x) by apply tab_has_shape. assert (Hg : has_shape [1; 1; 1; n] gy) by apply tab_has_shape.
  assert (Low : Forall (Rlt 0) (a_data x)).
  { apply Forall_forall. intros v Hv. unfold x, full, tab in Hv. cbn [a_data] in Hv. apply in_map_iff in Hv. destruct Hv as (? & <- & _). lra. }
  assert (U : unique_maxima 1 1 1 n 1 n 0 1 1 x).
  { intros b c i j Hb Hc Hi Hj. exists i, j. split; [unfold in_window; lia|]. intros h' w' (W1 & W2 & W3 & W4) Ne. exfalso. apply Ne. f_equal; lia. }
  assert (Cn : pool_covers n 0 1 1 n) by (unfold pool_covers; lia).
  assert (TW : forall ix, in_bounds [1; 1; 1; n] ix -> snd (the_window 0%R true 1 1 n 0 1 1 x ix) = ravel [1; 1; 1; n] ix).
  { intros ix Hix. assert (L : length ix = 4) by (rewrite (in_bounds_length _ _ Hix); reflexivity). destruct ix as [|b [|c [|i [|j [|? ?]]]]]; try discriminate L.
    pose proof Hix as Hix0. pose proof (Forall2_inv_head Hix) as Hb. apply Forall2_inv_tail in Hix. pose proof (Forall2_inv_head Hix) as Hc. apply Forall2_inv_tail in Hix. pose proof (Forall2_inv_head Hix) as Hi. apply Forall2_inv_tail in Hix. pose proof (Forall2_inv_head Hix) as Hj. cbn beta in *.
    rewrite (window_unique 0%R true 1 1 1 n 0 1 1 1 n S x b c i j i j); auto; try lia; [unfold in_window; lia|unfold x, full; rewrite aget_tab by exact Hix0; lra|].
    intros h' w' (W1 & W2 & W3 & W4) Ne. exfalso. apply Ne. f_equal; lia. }
  assert (RV : forall ix, in_bounds [1; 1; 1; n] ix -> ravel [1; 1; 1; n] ix < n) by (intros ix Hix; pose proof (ravel_lt _ _ Hix) as Q; assert (prod [1; 1; 1; n] = n) by (simpl; lia); lia).
  assert (GX : exists gx, max_pool2d_grad_x 0%R 0%R Rplus rgt 24 (fun _ => 0%R) true 0 1 1 x gy = KOk gx /\ has_shape [1; 1; 1; n] gx /\ aget 0%R gx [0; 0; 0; n - 1] = 0%R).
  { unfold max_pool2d_grad_x. rewrite (pool_run 0%R true 1 1 1 n 0 1 1 1 n S) by auto. cbn [kbind snd].
    assert (FI : forall k, k < n -> float_index 24 k < n - 1).
    { intros k Hk. assert (C : (N.of_nat k < 2 ^ 24)%N \/ N.of_nat k = (2 ^ 24)%N \/ N.of_nat k = (2 ^ 24 + 1)%N) by lia.
      destruct C as [C|C]; [rewrite float_index_small by exact C; lia|]. unfold float_index.
      assert (R0 : round_bits 24 (N.of_nat k) = (2 ^ 24)%N) by (destruct C as [C|C]; rewrite C; reflexivity). rewrite R0. pose proof (N2Nat.id (2 ^ 24)) as Q. generalize dependent (N.to_nat (2 ^ 24)). intros m Q. lia. }
    destruct (grad_run true 1 1 1 n 0 1 1 1 n gy (fun ix => float_index 24 (snd (the_window 0%R true 1 1 n 0 1 1 x ix)))) as (gx & E & Hgx & G).
    - reflexivity.
    - apply in_size_covers; [lia|exact Cn|assert (2 ^ 25 < 2 ^ 64)%Z by reflexivity; lia|lia].
    - exact Hg.
    - intros ix Hix. rewrite TW by exact Hix. specialize (FI _ (RV ix Hix)). assert (prod [1; 1; 1; n] = n) by (simpl; lia). lia.
    - exists gx. split; [exact E|]. split; [exact Hgx|]. assert (RN : ravel [1; 1; 1; n] [0; 0; 0; n - 1] = n - 1) by (cbn [ravel prod fold_right]; rewrite !Nat.mul_0_l, Nat.mul_1_r, Nat.add_0_r; reflexivity).
      assert (P0 : prod [1; 1; 1; n] = n) by (simpl; lia).
      rewrite <- (get_ravel 1 1 1 n gx) by exact Hgx. rewrite RN, G by lia. apply (sum_zero 0%R 1%R Rplus Rmult Rminus Ropp RT). intros ix Hix. apply indices_in in Hix. rewrite TW by exact Hix. specialize (FI _ (RV ix Hix)).
      destruct (Nat.eqb_spec (float_index 24 (ravel [1; 1; 1; n] ix)) (n - 1)); [lia|reflexivity]. }
  destruct GX as (gx & E & Hgx & G0). exists n, x, gy, gx. split; [exact EN|]. split; [exact S|]. split; [exact Hx|]. split; [exact Hg|]. split; [exact Low|]. split; [exact U|]. split; [exact E|].
  destruct (C40_gradient true 0%R 53 (fun _ => 0%R) (fun _ => 0%R) 1 1 1 n 1 1 1 n x gy S eq_refl Cn Hx Hg Low) as (gt & E2 & V2); [lia|exact U|].
  destruct (C40_gradient_routes true 0%R 53 (fun _ => 0%R) 1 1 1 n 1 1 1 n x gy (tab [1; 1; 1; n] (fun ix => fst (the_window 0%R true 1 1 n 0 1 1 x ix))) (tab [1; 1; 1; n] (fun ix => float_index 53 (snd (the_window 0%R true 1 1 n 0 1 1 x ix)))) S eq_refl Cn Hx Hg) as (gt' & E2' & Hgt & R2); [lia|apply (pool_run 0%R true 1 1 1 n 0 1 1 1 n S); auto|].
  rewrite E2' in E2. apply KOk_inj in E2. subst gt'.
  intros V. assert (V' : vjp (fun x => option_map fst (kok (max_pool2d 0%R rgt 24 (fun _ => 0%R) true 0 1 1 x))) x gy gt).
  { destruct V2 as [A B]. split; [exact A|]. intros v Hv. destruct (B v Hv) as (f & F1 & F2). exists f. split; [|exact F2]. intros t. specialize (F1 t). rewrite (proj1 Hx) in Hv.
    assert (Hs : has_shape [1; 1; 1; n] (step x v t)) by (apply step_has_shape; assumption).
    rewrite (pool_run 0%R true 1 1 1 n 0 1 1 1 n S) in F1 |- * by auto. exact F1. }
  pose proof (vjp_unique _ _ _ _ _ V V') as Q. subst gt.
  specialize (R2 0 0 0 (n - 1) ltac:(lia) ltac:(lia) ltac:(lia) ltac:(lia)). rewrite G0 in R2. cbn [sum_below] in R2.
  assert (RN : ravel [1; 1; 1; n] [0; 0; 0; n - 1] = n - 1) by (cbn [ravel prod fold_right]; rewrite !Nat.mul_0_l, Nat.mul_1_r, Nat.add_0_r; reflexivity). rewrite RN in R2.
  rewrite (sum_below_ext n _ (fun j => if j =? n - 1 then 1 else 0)%R) in R2.
  - rewrite sum_below_rsum in R2. rewrite (sum_one 0%R 1%R Rplus Rmult Rminus Ropp RT (seq 0 n) (fun j => j =? n - 1) (fun _ => 1%R) (n - 1)) in R2.
    + lra.
    + apply seq_NoDup.
    + apply in_seq. lia.
    + apply Nat.eqb_refl.
    + intros i _ Ei. apply Nat.eqb_eq. exact Ei.
  - intros j Hj. assert (IB : in_bounds [1; 1; 1; n] [0; 0; 0; j]) by (repeat constructor; exact Hj). unfold gy, full. rewrite !aget_tab by exact IB. rewrite TW by exact IB.
    rewrite float_index_small by (specialize (RV _ IB); lia). replace (ravel [1; 1; 1; n] [0; 0; 0; j]) with j by (cbn [ravel prod fold_right]; rewrite !Nat.mul_0_l, Nat.mul_1_r, Nat.add_0_r; reflexivity). reflexivity.
Qed.
Print Assumptions C40_f32_positions_refuted.

Example C40_hypotheses_met : exists gx,
  let x := Arr [2; 2; 4; 6] (map INR (seq 0 96)) in let gy := Arr [2; 2; 2; 3] (map INR (seq 0 24)) in
  max_pool2d_grad_x 0%R (-1)%R Rplus rgt 24 (fun _ => 0%R) true 0 2 2 x gy = KOk gx /\
  vjp (fun x => option_map fst (kok (max_pool2d (-1)%R rgt 24 (fun _ => 0%R) true 0 2 2 x))) x gy gx.
Proof.
  set (x := Arr [2; 2; 4; 6] (map INR (seq 0 96))). set (gy := Arr [2; 2; 2; 3] (map INR (seq 0 24))).
  assert (S : pool_sizes 4 6 0 2 2 2 3) by (repeat split; lia).
  assert (Hx : has_shape [2; 2; 4; 6] x) by (split; reflexivity). assert (Hg : has_shape [2; 2; 2; 3] gy) by (split; reflexivity).
  assert (Gx : forall i, in_bounds [2; 2; 4; 6] i -> aget 0%R x i = INR (ravel [2; 2; 4; 6] i)).
  { intros i Hi. unfold aget. cbn [x a_shape a_data]. pose proof (ravel_lt _ _ Hi) as L. change (prod [2; 2; 4; 6]) with 96 in L. rewrite (nth_indep _ 0%R (INR 0)) by (rewrite map_length, seq_length; exact L).
    rewrite map_nth, seq_nth by exact L. reflexivity. }
  destruct (C40_gradient true (-1)%R 24 (fun _ => 0%R) (fun _ => 0%R) 2 2 4 6 2 2 2 3 x gy S eq_refl eq_refl Hx Hg) as (gx & E & V).
  - apply Forall_forall. intros v Hv. cbn [x a_data] in Hv. apply in_map_iff in Hv. destruct Hv as (k & <- & _). pose proof (pos_INR k). lra.
  - vm_compute. discriminate.
  - intros b c i j Hb Hc Hi Hj. exists (2 * i + 1), (2 * j + 1). split; [unfold in_window; lia|]. intros h' w' (W1 & W2 & W3 & W4) Ne.
    rewrite !Gx by (repeat (apply Forall2_cons; [lia|]); apply Forall2_nil). apply lt_INR. unfold ravel. cbn [prod fold_right].
    assert (h' < 2 * i + 1 \/ h' = 2 * i + 1 /\ w' < 2 * j + 1). { destruct (Nat.eq_dec h' (2 * i + 1)) as [->|]; [|left; lia]. right. split; [reflexivity|]. destruct (Nat.eq_dec w' (2 * j + 1)) as [->|]; [exfalso; apply Ne; reflexivity|lia]. }
    lia.
  - exists gx. auto.
Qed.
