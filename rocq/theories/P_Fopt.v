(** Property C69: the optimizers on floating-point numbers. *)
From Coq Require Import ZArith List Reals Lra Lia Bool.
From Flocq Require Import Core BinarySingleNaN.
Import ListNotations.
From Verif Require Import Float_Model Float_Spec Float_Proofs Fopt_Model Fopt_Spec Fopt_Proofs.
Local Open Scope R_scope.

(** ** C69: optimizers on floats *)

(** AdaGrad never turns finite gradients into NaN, over any number of steps. *)
Theorem C69_adagrad_not_nan :
  forall (prec emax : Z) (prec_gt_0_ : Prec_gt_0 prec) (prec_lt_emax_ : Prec_lt_emax prec emax)
    (lr eps p h : binary_float prec emax) (gs : list (binary_float prec emax)),
  is_finite lr = true -> Rabs (B2R lr) <= 1 ->
  0 < B2R eps -> 1 <= B2R eps * (bpow radix2 emax - bpow radix2 (emax - prec)) ->
  is_nan p = false -> nonnegative h -> List.Forall (fun g => is_finite g = true) gs ->
  is_nan (fst (fold_left (adagrad_elem lr eps) gs (p, h))) = false /\
  nonnegative (snd (fold_left (adagrad_elem lr eps) gs (p, h))).
Proof.
  intros prec emax Hp He lr eps p h gs Fl Hl Pe Te Np Hh HF. revert p h Np Hh.
  induction HF as [|g gs Fg _ IH]; intros p h Np Hh; [split; assumption|]. cbn [fold_left].
  destruct (adagrad_step prec emax Hp He lr eps p h g Fl Hl Pe Te Np Hh Fg) as (A & B).
  destruct (adagrad_elem lr eps (p, h) g) as [p' h']. apply IH; assumption.
Qed.
Print Assumptions C69_adagrad_not_nan.

(** But one gradient whose square overflows freezes the parameter: that step and all
    later ones leave it as it is, whatever the gradients. *)
Theorem C69_adagrad_frozen :
  forall (prec emax : Z) (prec_gt_0_ : Prec_gt_0 prec) (prec_lt_emax_ : Prec_lt_emax prec emax)
    (lr eps p h g : binary_float prec emax) (gs : list (binary_float prec emax)),
  is_finite lr = true -> Rabs (B2R lr) <= 1 -> 0 < B2R eps -> nonnegative h ->
  is_finite g = true -> bpow radix2 emax <= B2R g * B2R g ->
  List.Forall (fun g => is_finite g = true) gs ->
  same_number (fst (fold_left (adagrad_elem lr eps) (g :: gs) (p, h))) p.
Proof.
  intros prec emax Hp He lr eps p h g gs Fl Hl Pe Hh Fg Hg HF. cbn [fold_left].
  assert (Fx : forall g, is_finite g = true -> is_finite (fmul lr g) = true) by (intros g0 F0; apply (mul_small prec emax Hp He lr g0); auto).
  destruct (adagrad_blow prec emax Hp He lr eps p h g (Fx g Fg) Pe Fg Hh Hg) as (S & I).
  destruct (adagrad_elem lr eps (p, h) g) as [q h'] eqn:E. clear E. cbn [fst snd] in S, I. subst h'. clear Hg Fg g.
  revert q S. induction HF as [|g gs Fg _ IH]; intros q S; [exact S|]. cbn [fold_left].
  destruct (adagrad_stuck prec emax Hp He lr eps q g (Fx g Fg) Pe Fg) as (S' & I').
  destruct (adagrad_elem lr eps (q, B754_infinity false) g) as [q' h'] eqn:E. clear E. cbn [fst snd] in S', I'. subst h'.
  apply IH. eapply same_number_trans; eassumption.
Qed.
Print Assumptions C69_adagrad_frozen.

(** The step counter of Adam counts up to 2^prec and stays there. *)
Theorem C69_adam_counter :
  forall (prec emax : Z) (prec_gt_0_ : Prec_gt_0 prec) (prec_lt_emax_ : Prec_lt_emax prec emax)
    (powf : binary_float prec emax -> binary_float prec emax -> binary_float prec emax)
    (alpha eps b1 b2 : binary_float prec emax) (s : adam_state prec emax) (gs : list (binary_float prec emax)) (k : Z),
  (1 < prec)%Z -> counts (s_t s) k -> (0 <= k <= 2 ^ prec)%Z ->
  counts (s_t (fold_left (adam_elem powf alpha eps b1 b2) gs s)) (Z.min (k + Z.of_nat (length gs)) (2 ^ prec)).
Proof.
  intros prec emax Hp He powf alpha eps b1 b2 s gs k P1 C Hk. revert s k C Hk. induction gs as [|g gs IH]; intros s k C Hk; cbn [fold_left length].
  - rewrite Z.min_l by lia. replace (k + Z.of_nat 0)%Z with k by lia. exact C.
  - destruct (Z.eq_dec k (2 ^ prec)) as [Q|Q].
    + assert (C' : counts (s_t (adam_elem powf alpha eps b1 b2 s g)) (2 ^ prec)).
      { apply (counts_stuck prec emax Hp He); [exact P1|]. rewrite <- Q. exact C. }
      specialize (IH _ _ C' ltac:(lia)). revert IH. rewrite !Z.min_r by lia. auto.
    + assert (C' : counts (s_t (adam_elem powf alpha eps b1 b2 s g)) (k + 1)) by (apply (counts_next prec emax Hp He); [exact C|lia]).
      specialize (IH _ _ C' ltac:(lia)). revert IH. replace (k + 1 + Z.of_nat (length gs))%Z with (k + Z.of_nat (S (length gs)))%Z by lia. auto.
Qed.
Print Assumptions C69_adam_counter.

(** A step of Adam with a finite bias-corrected mean gives no NaN. *)
Theorem C69_adam_not_nan :
  forall (prec emax : Z) (prec_gt_0_ : Prec_gt_0 prec) (prec_lt_emax_ : Prec_lt_emax prec emax)
    (powf : binary_float prec emax -> binary_float prec emax -> binary_float prec emax)
    (alpha eps b1 b2 : binary_float prec emax) (s : adam_state prec emax) (g : binary_float prec emax),
  0 < B2R alpha -> 0 < B2R eps -> 0 < B2R b2 < 1 -> powf_ok powf b2 ->
  is_finite (s_t s) = true -> 1 <= B2R (s_t s) -> nonnegative (s_v s) -> is_finite (s_p s) = true -> is_finite g = true ->
  is_finite (adam_m_hat powf b1 s g) = true ->
  is_nan (s_p (adam_elem powf alpha eps b1 b2 s g)) = false /\ nonnegative (s_v (adam_elem powf alpha eps b1 b2 s g)).
Proof.
  intros prec emax Hp He powf alpha eps b1 b2 s g Ha Pe Hb Hpow Ft Ht Hv Fp Fg Fm.
  apply (adam_not_nan prec emax Hp He); auto; apply pos_finite; lra.
Qed.
Print Assumptions C69_adam_not_nan.

(** And one gradient whose weighted square overflows freezes the parameter, as long
    as the bias-corrected means stay finite. *)
Theorem C69_adam_frozen :
  forall (prec emax : Z) (prec_gt_0_ : Prec_gt_0 prec) (prec_lt_emax_ : Prec_lt_emax prec emax)
    (powf : binary_float prec emax -> binary_float prec emax -> binary_float prec emax)
    (alpha eps b1 b2 : binary_float prec emax) (s : adam_state prec emax) (g : binary_float prec emax)
    (gs : list (binary_float prec emax)) (k : Z),
  (1 < prec)%Z -> is_finite alpha = true -> 0 < B2R eps -> 0 < B2R b2 < 1 -> powf_ok powf b2 ->
  counts (s_t s) k -> (1 <= k <= 2 ^ prec)%Z -> nonnegative (s_v s) ->
  bpow radix2 emax <= B2R (fmul (fsub fone b2) g) * B2R g ->
  List.Forall (fun g => is_finite g = true) (g :: gs) ->
  (forall gs1 g' gs2, g :: gs = gs1 ++ g' :: gs2 ->
     is_finite (adam_m_hat powf b1 (fold_left (adam_elem powf alpha eps b1 b2) gs1 s) g') = true) ->
  same_number (s_p (fold_left (adam_elem powf alpha eps b1 b2) (g :: gs) s)) (s_p s).
Proof.
  intros prec emax Hp He powf alpha eps b1 b2 s g gs k P1 Fa Pe Hb Hpow C Hk Hv Hg HF Hm.
  assert (Fb : is_finite b2 = true) by (apply pos_finite; lra).
  assert (Ct : forall (s : adam_state prec emax) k, counts (s_t s) k -> (1 <= k <= 2 ^ prec)%Z -> is_finite (s_t s) = true /\ 1 <= B2R (s_t s)).
  { intros s0 k0 (F0 & V0) H0. split; [exact F0|]. rewrite V0. apply IZR_le. lia. }
  assert (Nx : forall (s : adam_state prec emax) g k, counts (s_t s) k -> (1 <= k <= 2 ^ prec)%Z ->
            exists k', counts (s_t (adam_elem powf alpha eps b1 b2 s g)) k' /\ (1 <= k' <= 2 ^ prec)%Z).
  { intros s0 g0 k0 C0 H0. destruct (Z.eq_dec k0 (2 ^ prec)) as [Q|Q].
    - exists (2 ^ prec)%Z. split; [|lia]. apply (counts_stuck prec emax Hp He); [exact P1|]. rewrite <- Q. exact C0.
    - exists (k0 + 1)%Z. split; [|lia]. apply (counts_next prec emax Hp He); [exact C0|lia]. }
  inversion HF as [|? ? Fg HF']; subst. cbn [fold_left].
  destruct (Ct s k C Hk) as (Ft & Ht).
  destruct (adam_infinite_v prec emax Hp He powf alpha eps b1 b2 s g Fa Pe Hpow Ft Ht) as (S & I).
  { apply adam_v_blow; auto. }
  { exact (Hm [] g gs eq_refl). }
  destruct (Nx s g k C Hk) as (k' & C' & Hk').
  assert (Hm' : forall gs1 g' gs2, gs = gs1 ++ g' :: gs2 ->
     is_finite (adam_m_hat powf b1 (fold_left (adam_elem powf alpha eps b1 b2) gs1 (adam_elem powf alpha eps b1 b2 s g)) g') = true).
  { intros gs1 g' gs2 E. exact (Hm (g :: gs1) g' gs2 ltac:(rewrite E; reflexivity)). }
  revert S I C' Hm'. generalize (adam_elem powf alpha eps b1 b2 s g) as s1. clear Hm Hg Hv Ft Ht HF C Hk. revert k' Hk'.
  induction HF' as [|g1 gs Fg1 _ IH]; intros k' Hk' s1 S I C Hm; [exact S|]. cbn [fold_left].
  destruct (Ct s1 k' C Hk') as (Ft & Ht).
  destruct (adam_infinite_v prec emax Hp He powf alpha eps b1 b2 s1 g1 Fa Pe Hpow Ft Ht) as (S' & I').
  { rewrite I. apply adam_v_stuck; auto. }
  { exact (Hm [] g1 gs eq_refl). }
  destruct (Nx s1 g1 k' C Hk') as (k2 & C2 & Hk2).
  apply (IH k2); auto.
  - eapply same_number_trans; eassumption.
  - intros gs1 g' gs2 E. exact (Hm (g1 :: gs1) g' gs2 ltac:(rewrite E; reflexivity)).
Qed.
Print Assumptions C69_adam_frozen.

(** A step of SGD that is smaller than a quarter of the unit in the last place of
    the parameter does nothing. *)
Theorem C69_sgd_absorbed :
  forall (prec emax : Z) (prec_gt_0_ : Prec_gt_0 prec) (prec_lt_emax_ : Prec_lt_emax prec emax)
    (alpha p : binary_float prec emax) (gs : list (binary_float prec emax)),
  is_finite p = true -> B2R p <> 0 ->
  List.Forall (fun g => is_finite (fmul alpha g) = true /\
    Rabs (B2R (fmul alpha g)) < ulp radix2 (SpecFloat.fexp prec emax) (B2R p) / 4) gs ->
  same_number (fold_left (sgd_elem alpha) gs p) p.
Proof.
  intros prec emax Hp He alpha p gs Fp Np HF.
  assert (G : forall q, same_number q p -> same_number (fold_left (sgd_elem alpha) gs q) p).
  { induction HF as [|g gs (Fg & Hg) _ IH]; intros q S; [exact S|]. cbn [fold_left]. apply IH.
    assert (Q : is_finite q = true /\ B2R q = B2R p) by (destruct S as [-> |(A & _ & B)]; auto). destruct Q as (Fq & Vq).
    apply (same_number_trans prec emax _ q); [|exact S].
    apply sgd_absorbed; auto; rewrite Vq; assumption. }
  apply G. left. reflexivity.
Qed.
Print Assumptions C69_sgd_absorbed.

(** As long as nothing overflows, the steps are the published formulas with every operation rounded to the nearest float. *)
Theorem C69_sgd_rounded :
  forall (prec emax : Z) (prec_gt_0_ : Prec_gt_0 prec) (prec_lt_emax_ : Prec_lt_emax prec emax) (lr mu p v g : binary_float prec emax),
  let N := nearest prec emax in
  (is_finite (sgd_elem lr p g) = true -> B2R (sgd_elem lr p g) = N (B2R p - N (B2R lr * B2R g))) /\
  (let r := momentum_elem lr mu (p, v) g in is_finite (fst r) = true ->
    B2R (snd r) = N (N (B2R v * B2R mu) - N (B2R lr * B2R g)) /\ B2R (fst r) = N (B2R p + B2R (snd r))).
Proof. intros prec emax Hp He lr mu p v g. split; [apply sgd_rounded|apply momentum_rounded]. Qed.
Print Assumptions C69_sgd_rounded.
Theorem C69_adagrad_rounded :
  forall (prec emax : Z) (prec_gt_0_ : Prec_gt_0 prec) (prec_lt_emax_ : Prec_lt_emax prec emax) (lr eps p h g : binary_float prec emax),
  let N := nearest prec emax in let r := adagrad_elem lr eps (p, h) g in
  nonnegative h -> is_finite g = true -> 0 < B2R eps -> is_finite (fst r) = true -> is_finite (snd r) = true ->
  Rabs (N (N (sqrt (B2R (snd r))) + B2R eps)) < bpow radix2 emax ->
  B2R (snd r) = N (B2R h + N (B2R g * B2R g)) /\
  B2R (fst r) = N (B2R p - N (N (B2R lr * B2R g) / N (N (sqrt (B2R (snd r))) + B2R eps))).
Proof. intros prec emax Hp He lr eps p h g. apply adagrad_rounded. Qed.
Print Assumptions C69_adagrad_rounded.
Theorem C69_adam_rounded :
  forall (prec emax : Z) (prec_gt_0_ : Prec_gt_0 prec) (prec_lt_emax_ : Prec_lt_emax prec emax) powf
    (alpha eps b1 b2 : binary_float prec emax) (s : adam_state prec emax) (g : binary_float prec emax),
  let N := nearest prec emax in let r := adam_elem powf alpha eps b1 b2 s g in
  let c1 := N (1 / N (1 - B2R (powf b1 (s_t s)))) in let c2 := N (1 / N (1 - B2R (powf b2 (s_t s)))) in
  let root := N (N (sqrt (N (B2R (s_v r) * c2))) + B2R eps) in
  powf_ok powf b1 -> powf_ok powf b2 -> is_finite (s_t s) = true -> 1 <= B2R (s_t s) -> 0 < B2R eps ->
  is_finite b2 = true -> 0 < B2R b2 < 1 -> nonnegative (s_v s) -> is_finite g = true ->
  is_finite (s_p r) = true -> is_finite (s_v r) = true -> Rabs (N (B2R (s_v r) * c2)) < bpow radix2 emax -> Rabs root < bpow radix2 emax ->
  B2R (s_m r) = N (N (B2R (s_m s) * B2R b1) + N (N (1 - B2R b1) * B2R g)) /\
  B2R (s_v r) = N (N (B2R (s_v s) * B2R b2) + N (N (N (1 - B2R b2) * B2R g) * B2R g)) /\
  B2R (s_p r) = N (B2R (s_p s) - N (B2R alpha * N (N (B2R (s_m r) * c1) / root))).
Proof. intros prec emax Hp He powf alpha eps b1 b2 s g. apply adam_rounded. Qed.
Print Assumptions C69_adam_rounded.

(** ** Examples in f32 *)
Definition p24 : Prec_gt_0 24 := eq_refl.
Definition e128 : Prec_lt_emax 24 128 := eq_refl.
Notation f32 := (binary_float 24 128).
(** [2^-23], about 1.2e-7; [2^64]; [0.75]; [1]; [3]. *)
Definition f_eps : f32 := @B754_finite 24 128 false 8388608 (-46) eq_refl.
Definition f_big : f32 := @B754_finite 24 128 false 8388608 41 eq_refl.
Definition f_huge : f32 := @B754_finite 24 128 false 8388608 43 eq_refl.
Definition f_075 : f32 := @B754_finite 24 128 false 12582912 (-24) eq_refl.
Definition f_1 : f32 := @B754_finite 24 128 false 8388608 (-23) eq_refl.
Definition f_3 : f32 := @B754_finite 24 128 false 12582912 (-22) eq_refl.
Definition f_0 : f32 := @B754_zero 24 128 false.
Example C69_hypotheses_met :
  is_finite f_1 = true /\ Rabs (B2R f_1) <= 1 /\ 0 < B2R f_eps /\
  1 <= B2R f_eps * (bpow radix2 128 - bpow radix2 (128 - 24)) /\ is_nan f_3 = false /\ nonnegative f_0 /\
  is_finite f_big = true /\ bpow radix2 128 <= B2R f_big * B2R f_big /\
  (** Large gradient, then small ones: AdaGrad does not move any more. *)
  fold_left (@adagrad_elem 24 128 p24 e128 f_1 f_eps) [f_big; f_1; f_3] (f_3, f_0) = (f_3, B754_infinity false) /\
  (** Without the large gradient it moves. *)
  fst (fold_left (@adagrad_elem 24 128 p24 e128 f_1 f_eps) [f_1; f_3] (f_3, f_0)) <> f_3 /\
  (** Adam. *)
  0 < B2R f_075 < 1 /\ powf_ok (fun b _ => b) f_075 /\ counts f_1 1 /\
  bpow radix2 128 <= B2R (@fmul 24 128 p24 e128 (@fsub 24 128 p24 e128 (@fone 24 128 p24 e128) f_075) f_huge) * B2R f_huge /\
  (forall gs1 g' gs2, [f_huge; f_1; f_1] = gs1 ++ g' :: gs2 ->
     is_finite (@adam_m_hat 24 128 p24 e128 (fun b _ => b) f_075
       (fold_left (@adam_elem 24 128 p24 e128 (fun b _ => b) f_1 f_eps f_075 f_075) gs1 (Adam f_3 f_0 f_0 f_1)) g') = true) /\
  s_p (fold_left (@adam_elem 24 128 p24 e128 (fun b _ => b) f_1 f_eps f_075 f_075) [f_huge; f_1; f_1] (Adam f_3 f_0 f_0 f_1)) = f_3 /\
  (** SGD with a step of [2^-46]. *)
  B2R f_3 <> 0 /\ is_finite (@fmul 24 128 p24 e128 f_eps f_eps) = true.
Proof.
  assert (V1 : B2R f_1 = 1) by (unfold f_1, B2R, F2R; cbn; lra).
  assert (V3 : B2R f_3 = 3) by (unfold f_3, B2R, F2R; cbn; lra).
  assert (V75 : B2R f_075 = 3 / 4) by (unfold f_075, B2R, F2R; cbn; lra).
  assert (VE : B2R f_eps = / 8388608) by (unfold f_eps, B2R, F2R; cbn; lra).
  split; [reflexivity|]. split; [rewrite V1, Rabs_R1; lra|]. split; [rewrite VE; lra|].
  split; [rewrite VE; cbn; lra|]. split; [reflexivity|]. split; [left; split; [reflexivity|cbn; lra]|].
  split; [reflexivity|]. split; [unfold f_big, B2R, F2R; cbn; lra|].
  split; [apply injective_projections; apply B2SF_inj; vm_compute; reflexivity|].
  split; [intros Q; apply (f_equal B2SF) in Q; vm_compute in Q; discriminate|].
  split; [rewrite V75; lra|]. split; [intros t _ _; split; [reflexivity|rewrite V75; lra]|].
  split; [split; [reflexivity|rewrite V1; reflexivity]|].
  split.
  { assert (Q : @fmul 24 128 p24 e128 (@fsub 24 128 p24 e128 (@fone 24 128 p24 e128) f_075) f_huge = @B754_finite 24 128 false 8388608 41 eq_refl) by (apply B2SF_inj; vm_compute; reflexivity).
    rewrite Q. unfold f_huge, B2R, F2R. cbn. lra. }
  split.
  { intros gs1 g' gs2 E. destruct gs1 as [|x [|y [|z gs1]]]; cbn [app] in E.
    - assert (Q : g' = f_huge) by congruence. subst g'. vm_compute. reflexivity.
    - assert (Q : x = f_huge /\ g' = f_1) by (split; congruence). destruct Q; subst. vm_compute. reflexivity.
    - assert (Q : x = f_huge /\ y = f_1 /\ g' = f_1) by (repeat split; congruence). destruct Q as (? & ? & ?); subst. vm_compute. reflexivity.
    - exfalso. assert (L : length [f_huge; f_1; f_1] = length (x :: y :: z :: gs1 ++ g' :: gs2)) by (rewrite E; reflexivity).
      cbn in L. rewrite app_length in L. cbn in L. lia. }
  split; [apply B2SF_inj; vm_compute; reflexivity|]. split; [rewrite V3; lra|]. vm_compute. reflexivity.
Qed.

Example C69_rounded_met :
  let s := Adam f_3 f_1 f_1 f_1 in let r := @adam_elem 24 128 p24 e128 (fun b _ => b) f_1 f_eps f_075 f_075 s f_3 in
  let N := nearest 24 128 in let c2 := N (1 / N (1 - B2R f_075)) in
  is_finite (s_p r) = true /\ is_finite (s_v r) = true /\ s_p r <> f_3 /\
  Rabs (N (B2R (s_v r) * c2)) < bpow radix2 128 /\ Rabs (N (N (sqrt (N (B2R (s_v r) * c2))) + B2R f_eps)) < bpow radix2 128 /\
  (let q := @adagrad_elem 24 128 p24 e128 f_1 f_eps (f_3, f_1) f_3 in
   is_finite (fst q) = true /\ is_finite (snd q) = true /\ Rabs (N (N (sqrt (B2R (snd q))) + B2R f_eps)) < bpow radix2 128) /\
  B2R (fst (@momentum_elem 24 128 p24 e128 f_1 f_075 (f_3, f_1) f_1)) = 11 / 4.
Proof.
  assert (V1 : B2R f_1 = 1) by (unfold f_1, B2R, F2R; cbn; lra). assert (V75 : B2R f_075 = 3 / 4) by (unfold f_075, B2R, F2R; cbn; lra).
  assert (VE : B2R f_eps = / 8388608) by (unfold f_eps, B2R, F2R; cbn; lra).
  cbv zeta. split; [vm_compute; reflexivity|]. split; [vm_compute; reflexivity|].
  split; [intros Q; apply (f_equal B2SF) in Q; vm_compute in Q; discriminate|].
  assert (P : powf_ok (fun b _ : f32 => b) f_075) by (intros t _ _; split; [reflexivity|rewrite V75; lra]).
  pose proof (correction_rounded 24 128 p24 e128 (fun b _ => b) f_075 f_1 P eq_refl ltac:(rewrite V1; lra)) as C. cbv beta in C. rewrite <- C. clear C.
  match goal with |- context [s_v ?r] => set (v := s_v r) end. set (c := correction (fun b _ : f32 => b) f_075 f_1).
  assert (F : is_finite (@fmul 24 128 p24 e128 v c) = true) by (vm_compute; reflexivity).
  split; [apply (product_fits 24 128 p24 e128 v c F)|].
  split.
  { pose proof (fmul_fin 24 128 p24 e128 v c F) as (_ & _ & <-). apply (root_fits 24 128 p24 e128); [|vm_compute; reflexivity].
    left. split; [exact F|]. assert (Q : Bsign (@fmul 24 128 p24 e128 v c) = false) by (vm_compute; reflexivity). apply (sign_pos 24 128). exact Q. }
  split.
  { split; [vm_compute; reflexivity|]. split; [vm_compute; reflexivity|]. apply (root_fits 24 128 p24 e128); [|vm_compute; reflexivity].
    left. split; [vm_compute; reflexivity|]. apply (sign_pos 24 128). vm_compute. reflexivity. }
  assert (Q : fst (@momentum_elem 24 128 p24 e128 f_1 f_075 (f_3, f_1) f_1) = @B754_finite 24 128 false 11534336 (-22) eq_refl) by (apply B2SF_inj; vm_compute; reflexivity).
  rewrite Q. unfold B2R, F2R. cbn. lra.
Qed.
