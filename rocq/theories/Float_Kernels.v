(** Ranges and rounding errors of the float kernels. *)
From Coq Require Import ZArith List Reals Lra Lia Permutation.
From Flocq Require Import Core BinarySingleNaN Relative Plus_error.
Import ListNotations.
From Verif Require Import Float_Model Float_Spec Float_Proofs.
Local Open Scope R_scope.

Definition total (l : list R) : R := fold_right Rplus 0 l.
Lemma total_app a b : total (a ++ b) = total a + total b.
Proof. unfold total. induction a as [|x a IH]; cbn; [|rewrite IH]; ring. Qed.
Lemma total_perm a b : Permutation a b -> total a = total b.
Proof. unfold total. induction 1; cbn; lra. Qed.

Section Floats.
  Variables prec emax : Z.
  Context (prec_gt_0_ : Prec_gt_0 prec) (prec_lt_emax_ : Prec_lt_emax prec emax).
  Notation float := (binary_float prec emax).
  Notation fexp := (SpecFloat.fexp prec emax).
  Notation emin := (SpecFloat.emin prec emax).
  Notation rnd := (round radix2 fexp ZnearestE).
  Notation bpow := (bpow radix2).
  Notation top := (bpow emax - bpow (emax - prec)).
  Notation u := (bpow (- prec)).
  Local Instance fexp_valid' : Valid_exp fexp := FLT_exp_valid emin prec.

  Lemma u_bounds : 0 < u <= / 2.
  Proof.
    split; [apply bpow_gt_0|]. change (/ 2) with (bpow (-1)). apply bpow_le. pose proof prec_gt_0_ as P. red in P. lia.
  Qed.
  Lemma half_ulp : / 2 * bpow (- prec + 1) = u.
  Proof. rewrite bpow_plus. change (bpow 1) with 2. field. Qed.

  (** ** Sums of numbers that are not negative *)
  Lemma add_error (a b : float) : exists d, Rabs d <= u /\ rnd (B2R a + B2R b) = (B2R a + B2R b) * (1 + d).
  Proof.
    destruct (FLT_plus_error_N_ex radix2 emin prec (fun x => negb (Z.even x)) (B2R a) (B2R b)) as (d & Hd & E).
    - apply generic_format_B2R.
    - apply generic_format_B2R.
    - exists d. split; [|exact E]. apply (Rle_trans _ _ _ Hd). unfold u_ro. rewrite half_ulp. pose proof u_bounds.
      apply (Rmult_le_reg_r (1 + u)); [lra|]. unfold Rdiv. rewrite Rmult_assoc, Rinv_l by lra. nra.
  Qed.
  Lemma sums_empty (l : list float) (s : float) : sums l s -> l = [] -> B2R s = 0 /\ is_finite s = true.
  Proof.
    induction 1 as [|x|l1 l2 a b H1 IH1 H2 IH2|l1 l2 a P H IH]; intros E.
    - split; reflexivity.
    - discriminate.
    - apply app_eq_nil in E. destruct E as [-> ->]. destruct (IH1 eq_refl) as [A1 A2]. destruct (IH2 eq_refl) as [B1 B2].
      destruct (fadd_ok prec emax _ _ a b A2 B2) as [F Q].
      + rewrite A1, B1, Rplus_0_r, rnd_zero by assumption. pose proof (float_top prec emax _ a). lra.
      + split; [|exact F]. rewrite Q, A1, B1, Rplus_0_r. apply rnd_zero; assumption.
    - subst l2. apply IH. apply Permutation_sym in P. apply Permutation_nil in P. exact P.
  Qed.
  Lemma pow_step x y c n m : 0 <= x -> 0 <= y -> 1 <= c -> c ^ n * x + c ^ m * y <= c ^ (n + m) * (x + y).
  Proof.
    intros Hx Hy Hc.
    assert (P : forall k j, c ^ k <= c ^ (k + j)).
    { intros k j. rewrite pow_add. pose proof (pow_R1_Rle c j Hc). assert (0 < c ^ k) by (apply pow_lt; lra). nra. }
    pose proof (P n m). pose proof (P m n) as Q. rewrite (Nat.add_comm m n) in Q.
    assert (c ^ n * x <= c ^ (n + m) * x) by (apply Rmult_le_compat_r; assumption).
    assert (c ^ m * y <= c ^ (n + m) * y) by (apply Rmult_le_compat_r; assumption). lra.
  Qed.
  Lemma pow_step_low x y c n m : 0 <= x -> 0 <= y -> 0 < c <= 1 -> c ^ (n + m) * (x + y) <= c ^ n * x + c ^ m * y.
  Proof.
    intros Hx Hy Hc.
    assert (P : forall k j, c ^ (k + j) <= c ^ k).
    { intros k j. rewrite pow_add. assert (c ^ j <= 1 ^ j) by (apply pow_incr; lra). rewrite pow1 in *. assert (0 < c ^ k) by (apply pow_lt; lra). nra. }
    pose proof (P n m). pose proof (P m n) as Q. rewrite (Nat.add_comm m n) in Q.
    assert (c ^ (n + m) * x <= c ^ n * x) by (apply Rmult_le_compat_r; assumption).
    assert (c ^ (n + m) * y <= c ^ m * y) by (apply Rmult_le_compat_r; assumption). lra.
  Qed.
  Lemma total_nonneg (l : list float) : Forall (within 0 1) l -> 0 <= total (map B2R l).
  Proof. induction 1 as [|x l [_ H] _ IH]; cbn; [lra|]. unfold total in IH. lra. Qed.
  Lemma sums_error (l : list float) (s : float) : sums l s -> Forall (within 0 1) l -> (Z.of_nat (length l) <= 2 ^ prec)%Z ->
    (1 - u) ^ (length l - 1) * total (map B2R l) <= B2R s <= (1 + u) ^ (length l - 1) * total (map B2R l).
  Proof.
    pose proof u_bounds as U.
    induction 1 as [|x|l1 l2 a b H1 IH1 H2 IH2|l1 l2 a P H IH]; intros Hl Hn.
    - cbn. lra.
    - cbn. lra.
    - apply Forall_app in Hl. destruct Hl as [L1 L2]. rewrite app_length, Nat2Z.inj_add in Hn. rewrite map_app, total_app.
      destruct (sums_ok prec emax _ _ l1 a H1 L1 ltac:(lia)) as ((F1 & B1) & _). destruct (sums_ok prec emax _ _ l2 b H2 L2 ltac:(lia)) as ((F2 & B2) & _).
      destruct (sums_ok prec emax _ _ (l1 ++ l2) (fadd a b)) as ((F & B) & _); [constructor; assumption|apply Forall_app; split; assumption|rewrite app_length; lia|].
      assert (E : B2R (fadd a b) = rnd (B2R a + B2R b)).
      { apply fadd_ok; auto. split.
        - apply Rle_trans with 0; [pose proof (float_top prec emax _ a); lra|]. rewrite <- (rnd_zero prec emax). apply rnd_le; [assumption|]. lra.
        - apply Rle_trans with (IZR (Z.of_nat (length l1) + Z.of_nat (length l2))); [|apply (int_top prec emax prec_gt_0_ prec_lt_emax_ (Z.of_nat (length l1) + Z.of_nat (length l2))); lia].
          rewrite <- (rnd_int prec emax _ _) by lia. apply rnd_le; [assumption|]. rewrite plus_IZR. lra. }
      specialize (IH1 L1 ltac:(lia)). specialize (IH2 L2 ltac:(lia)).
      pose proof (total_nonneg l1 L1) as T1. pose proof (total_nonneg l2 L2) as T2. set (S1 := total (map B2R l1)) in *. set (S2 := total (map B2R l2)) in *.
      destruct l1 as [|x1 l1'].
      { destruct (sums_empty [] a H1 eq_refl) as [A _]. rewrite E, A, (Rplus_0_l (B2R b)), (rnd_float prec emax b). replace (S1 + S2) with S2 by (unfold S1; cbn; ring). exact IH2. }
      destruct l2 as [|x2 l2'].
      { destruct (sums_empty [] b H2 eq_refl) as [A _]. rewrite E, A, (Rplus_0_r (B2R a)), (rnd_float prec emax a), app_nil_r. replace (S1 + S2) with S1 by (unfold S2; cbn; ring). exact IH1. }
      destruct (add_error a b) as (d & Hd & Q). rewrite E, Q. apply Rabs_le_inv in Hd.
      replace (length ((x1 :: l1') ++ x2 :: l2') - 1)%nat with (S (length l1' + length l2')) by (rewrite app_length; cbn; lia).
      cbn [length] in IH1, IH2. rewrite !Nat.sub_succ, !Nat.sub_0_r in IH1, IH2. cbn [pow].
      set (n := length l1') in *. set (m := length l2') in *.
      pose proof (pow_step S1 S2 (1 + u) n m T1 T2 ltac:(lra)) as W1. pose proof (pow_step_low S1 S2 (1 - u) n m T1 T2 ltac:(lra)) as W2.
      assert (P1 : 0 <= (1 - u) ^ (n + m) * (S1 + S2)) by (apply Rmult_le_pos; [apply pow_le; lra|lra]).
      split.
      + apply Rle_trans with (((1 - u) ^ (n + m) * (S1 + S2)) * (1 - u)); [right; ring|].
        apply Rmult_le_compat; lra.
      + apply Rle_trans with (((1 + u) ^ (n + m) * (S1 + S2)) * (1 + u)); [|right; ring].
        apply Rmult_le_compat; lra.
    - pose proof (Permutation_length P) as Q. rewrite <- Q in *. rewrite <- (total_perm (map B2R l1) (map B2R l2)) by (apply Permutation_map; exact P).
      apply IH; [|exact Hn]. apply Forall_forall. intros x Hx. rewrite Forall_forall in Hl. apply Hl. apply (Permutation_in x P Hx).
  Qed.

  (** ** Softmax *)
  Section Softmax.
    Variable libm_exp : float -> float.
    Hypothesis Hexp : exp_ok libm_exp.
    Lemma rnd_one : rnd 1 = 1.
    Proof. apply (rnd_int prec emax _ _ 1). pose proof (pow_prec_ge prec emax _ _). lia. Qed.
    Lemma unit_top r : -1 <= r <= 1 -> - top <= r <= top.
    Proof.
      intros H. pose proof (int_top prec emax _ _ 1) as T. pose proof (pow_prec_ge prec emax _ _). specialize (T ltac:(lia)). lra.
    Qed.
    Lemma rnd_unit r : 0 <= r <= 1 -> 0 <= rnd r <= 1.
    Proof. intros H. split; [rewrite <- (rnd_zero prec emax)|rewrite <- rnd_one]; apply rnd_le; try assumption; lra. Qed.
    Lemma rnd_unit_neg r : -1 <= r <= 0 -> -1 <= rnd r <= 0.
    Proof. intros H. assert (Q : 0 <= rnd (- r) <= 1) by (apply rnd_unit; lra). rewrite round_NE_opp in Q. lra. Qed.
    Lemma ratio_ok (e s : float) : within 0 1 e -> is_finite s = true -> 1 <= B2R s ->
      is_finite (fdiv e s) = true /\ B2R (fdiv e s) = rnd (B2R e / B2R s) /\ 0 <= B2R (fdiv e s) <= 1.
    Proof.
      intros [F [E0 E1]] Fs Hs.
      assert (Q : 0 <= B2R e / B2R s <= 1).
      { split; [apply Rmult_le_pos; [lra|left; apply Rinv_0_lt_compat; lra]|].
        apply (Rmult_le_reg_r (B2R s)); [lra|]. unfold Rdiv. rewrite Rmult_assoc, Rinv_l by lra. lra. }
      pose proof (rnd_unit _ Q) as R. destruct (fdiv_ok prec emax _ _ e s F ltac:(lra)) as [A B]; [apply unit_top; lra|].
      split; [exact A|]. split; [exact B|]. rewrite B. exact R.
    Qed.
    Lemma softmax_ok (l out : list float) : Forall logit l -> Exists (fun x => is_finite x = true) l -> (Z.of_nat (length l) <= 2 ^ prec)%Z ->
      softmax_lane libm_exp l out ->
      length out = length l /\ Forall (within 0 1) out /\
      (forall i, nth_error l i = Some (B754_infinity true) -> exists y, nth_error out i = Some y /\ within 0 0 y) /\
      (1 - u) / (1 + u) ^ (length l - 1) - INR (length l) * (/ 2 * bpow emin) <= total (map B2R out)
        <= (1 + u) / (1 - u) ^ (length l - 1) + INR (length l) * (/ 2 * bpow emin).
    Proof.
      intros Fl Hn Hlen (s & Hs & ->). pose proof u_bounds as U.
      destruct (lane_exps_ok prec emax _ _ libm_exp Hexp l Fl Hn) as [E1 E2].
      assert (Ln : length (lane_exps libm_exp l) = length l) by (unfold lane_exps; apply map_length).
      destruct (sums_ok prec emax _ _ _ s Hs E1) as ((Fs & Bs) & Os); [rewrite Ln; exact Hlen|]. specialize (Os E2).
      pose proof (sums_error _ s Hs E1) as Err. rewrite Ln in Err. specialize (Err Hlen).
      split; [rewrite map_length; exact Ln|]. split.
      { apply Forall_forall. intros y Hy. apply in_map_iff in Hy. destruct Hy as (e & <- & He). rewrite Forall_forall in E1.
        destruct (ratio_ok e s (E1 e He) Fs Os) as (A & _ & B). split; assumption. }
      split.
      { intros i Hi. destruct (lane_max_ok prec emax _ _ l Fl Hn) as (M1 & _).
        pose proof (exp_masked prec emax _ _ libm_exp Hexp (lane_max l) M1) as W.
        exists (fdiv (libm_exp (fsub (B754_infinity true) (lane_max l))) s). split.
        - rewrite nth_error_map. unfold lane_exps. rewrite nth_error_map, Hi. reflexivity.
        - destruct W as [Fw Bw]. destruct (ratio_ok (libm_exp (fsub (B754_infinity true) (lane_max l))) s) as (A & B & _); [split; [exact Fw|lra]|exact Fs|exact Os|].
          split; [exact A|]. rewrite B. replace (B2R (libm_exp (fsub (B754_infinity true) (lane_max l)))) with 0 by lra.
          unfold Rdiv. rewrite Rmult_0_l, (rnd_zero prec emax). lra. }
      set (S := total (map B2R (lane_exps libm_exp l))) in *.
      assert (Q : Rabs (total (map B2R (map (fun e => fdiv e s) (lane_exps libm_exp l))) - S / B2R s) <= u * (S / B2R s) + INR (length l) * (/ 2 * bpow emin)).
      { unfold S. rewrite <- Ln. clear -E1 Fs Os U prec_lt_emax_. induction E1 as [|e es He E1 IH].
        - cbn [map total fold_right length INR]. unfold Rdiv. rewrite Rmult_0_l, Rminus_0_r, Rabs_R0. lra.
        - destruct (ratio_ok e s He Fs Os) as (_ & B & _).
          destruct (error_N_FLT radix2 emin prec prec_gt_0_ (fun x => negb (Z.even x)) (B2R e / B2R s)) as (eps & eta & H1 & H2 & _ & H3).
          rewrite half_ulp in H1. change (round radix2 (FLT_exp emin prec) ZnearestE (B2R e / B2R s)) with (rnd (B2R e / B2R s)) in H3. rewrite H3 in B.
          cbn [map total fold_right]. change (fold_right Rplus 0 (map B2R (map (fun e => fdiv e s) es))) with (total (map B2R (map (fun e => fdiv e s) es))).
          change (fold_right Rplus 0 (map B2R es)) with (total (map B2R es)). rewrite B. cbn [length]. rewrite S_INR.
          set (T := total (map B2R (map (fun e => fdiv e s) es))) in *. set (V := total (map B2R es)) in *.
          replace (B2R e / B2R s * (1 + eps) + eta + T - (B2R e + V) / B2R s) with ((B2R e / B2R s * eps + eta) + (T - V / B2R s)) by (field; lra).
          apply (Rle_trans _ _ _ (Rabs_triang _ _)).
          assert (A : Rabs (B2R e / B2R s * eps + eta) <= u * (B2R e / B2R s) + / 2 * bpow emin).
          { apply (Rle_trans _ _ _ (Rabs_triang _ _)). rewrite Rabs_mult. destruct He as [_ He].
            assert (P : 0 <= B2R e / B2R s) by (apply Rmult_le_pos; [lra|left; apply Rinv_0_lt_compat; lra]).
            rewrite (Rabs_right (B2R e / B2R s)) by lra. nra. }
          replace ((B2R e + V) / B2R s) with (B2R e / B2R s + V / B2R s) by (field; lra). lra. }
      apply Rabs_le_inv in Q.
      assert (Sp : 0 < S).
      { assert (P : 0 < (1 + u) ^ (length l - 1)) by (apply pow_lt; lra).
        destruct (Rlt_or_le 0 S) as [?|C]; [assumption|exfalso]. assert ((1 + u) ^ (length l - 1) * S <= 0) by nra. lra. }
      assert (P1 : 0 < (1 + u) ^ (length l - 1)) by (apply pow_lt; lra).
      assert (P2 : 0 < (1 - u) ^ (length l - 1)) by (apply pow_lt; lra).
      assert (R1 : / (1 + u) ^ (length l - 1) <= S / B2R s).
      { apply (Rmult_le_reg_r (B2R s * (1 + u) ^ (length l - 1))); [nra|]. unfold Rdiv. field_simplify; [|lra|lra]. lra. }
      assert (R2 : S / B2R s <= / (1 - u) ^ (length l - 1)).
      { apply (Rmult_le_reg_r (B2R s * (1 - u) ^ (length l - 1))); [nra|]. unfold Rdiv. field_simplify; [|lra|lra]. lra. }
      unfold Rdiv at 1 2. split; nra.
    Qed.
  End Softmax.
End Floats.
