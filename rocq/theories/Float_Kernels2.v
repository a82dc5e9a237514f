(** Ranges of the logarithmic kernels and of the activation functions. *)
From Coq Require Import ZArith List Reals Lra Lia Permutation.
From Flocq Require Import Core BinarySingleNaN.
Import ListNotations.
From Verif Require Import Float_Model Float_Spec Float_Proofs Float_Kernels.
Local Open Scope R_scope.

Section Floats.
  Variables prec emax : Z.
  Context (prec_gt_0_ : Prec_gt_0 prec) (prec_lt_emax_ : Prec_lt_emax prec emax).
  Hypothesis roomy : (2 * prec + 1 < emax)%Z.
  Notation float := (binary_float prec emax).
  Notation fexp := (SpecFloat.fexp prec emax).
  Notation rnd := (round radix2 fexp ZnearestE).
  Notation bpow := (bpow radix2).
  Notation top := (bpow emax - bpow (emax - prec)).
  Local Instance fexp_valid'' : Valid_exp fexp := FLT_exp_valid _ prec.

  Lemma prec_pos : (0 < prec)%Z.
  Proof. exact prec_gt_0_. Qed.
  Lemma double k : bpow k = 2 * bpow (k - 1).
  Proof. replace k with (1 + (k - 1))%Z at 1 by ring. rewrite bpow_plus. reflexivity. Qed.
  (** Adding a small number to any float does not overflow. *)
  Lemma small_room : bpow prec < bpow (emax - prec - 1).
  Proof. pose proof prec_pos. apply bpow_lt. lia. Qed.
  Lemma two_small : 2 <= bpow prec.
  Proof. change 2 with (bpow 1). apply bpow_le. pose proof prec_pos. lia. Qed.
  Lemma add_small r d : - top <= r <= top -> - bpow prec <= d <= bpow prec -> - top <= rnd (r + d) <= top.
  Proof.
    intros Hr Hd. pose proof small_room as S. pose proof (double (emax - prec)) as D. apply rnd_near_top; auto. apply Rabs_lt. lra.
  Qed.
  Lemma top_big : 4 * bpow prec <= top.
  Proof.
    pose proof prec_pos. pose proof (double emax) as D1. pose proof (double (emax - 1)) as D2. pose proof (double (emax - 1 - 1)) as D3.
    assert (bpow (emax - prec) <= bpow (emax - 1)) by (apply bpow_le; lia).
    assert (bpow prec <= bpow (emax - 1 - 1 - 1)) by (apply bpow_le; lia). pose proof (bpow_gt_0 radix2 (emax - 1 - 1 - 1)). lra.
  Qed.

  Section Log.
    Variables libm_exp libm_ln : float -> float.
    Hypothesis Hexp : exp_ok libm_exp.
    Hypothesis Hln : ln_ok libm_ln.

    Lemma logsumexp_ok (l : list float) (v : float) : Forall logit l -> Exists (fun x => is_finite x = true) l -> (Z.of_nat (length l) <= 2 ^ prec)%Z ->
      logsumexp_lane libm_exp libm_ln l v ->
      is_finite v = true /\ Forall (fun x => is_finite x = true -> B2R x <= B2R v) l /\
      (forall b, b <= top - bpow prec -> Forall (fun x => is_finite x = true -> B2R x <= b) l -> B2R v <= rnd (b + bpow prec)).
    Proof.
      intros Fl Hn Hlen (s & Hs & ->). pose proof prec_pos as Pp.
      destruct (lane_exps_ok prec emax _ _ libm_exp Hexp l Fl Hn) as [E1 E2].
      assert (Ln : length (lane_exps libm_exp l) = length l) by (unfold lane_exps; apply map_length).
      destruct (sums_ok prec emax _ _ _ s Hs E1) as ((Fs & Bs) & Os); [rewrite Ln; exact Hlen|]. specialize (Os E2).
      destruct (lane_max_ok prec emax _ _ l Fl Hn) as (M1 & M2 & x0 & Hx0 & Fx0 & M3).
      destruct (ln_from_one _ _ _ Hln s Fs Os) as [Fn Bn].
      assert (Sb : B2R s <= bpow prec).
      { apply (Rle_trans _ _ _ (proj2 Bs)). rewrite <- IZR_Zpower by lia. apply IZR_le. rewrite Ln. exact Hlen. }
      pose proof (float_top prec emax _ (lane_max l)) as T. pose proof (bpow_gt_0 radix2 prec).
      assert (R : - top <= rnd (B2R (libm_ln s) + B2R (lane_max l)) <= top) by (rewrite Rplus_comm; apply add_small; [exact T|lra]).
      destruct (fadd_ok prec emax _ _ _ _ Fn M1 R) as [F E]. split; [exact F|]. rewrite E. split.
      - apply Forall_forall. intros x Hx Fx. rewrite Forall_forall in M2. specialize (M2 x Hx Fx).
        apply Rle_trans with (B2R (lane_max l)); [exact M2|]. rewrite <- (rnd_float prec emax (lane_max l)) at 1. apply rnd_le; [assumption|lra].
      - intros b Hb Hall. rewrite Forall_forall in Hall. specialize (Hall x0 Hx0 Fx0). apply rnd_le; [assumption|lra].
    Qed.
    Lemma log_softmax_ok (l out : list float) : Forall logit l -> Exists (fun x => is_finite x = true) l -> (Z.of_nat (length l) <= 2 ^ prec)%Z ->
      log_softmax_lane libm_exp libm_ln l out ->
      length out = length l /\ Forall nonpositive out /\
      (Forall (fun x => is_finite x = true -> Rabs (B2R x) <= bpow (emax - 3)) l ->
       forall i x, nth_error l i = Some x -> is_finite x = true -> exists y, nth_error out i = Some y /\ is_finite y = true).
    Proof.
      intros Fl Hn Hlen (v & Hv & ->). destruct (logsumexp_ok l v Fl Hn Hlen Hv) as (Fv & Bv & Up).
      split; [apply map_length|]. split.
      - apply Forall_forall. intros y Hy. apply in_map_iff in Hy. destruct Hy as (x & <- & Hx). rewrite Forall_forall in Fl, Bv.
        destruct (Fl x Hx) as [Fx| ->].
        + destruct (fsub_nonpos prec emax _ _ x v Fx Fv (Bv x Hx Fx)) as [(A & _ & B)|A]; [left; split; assumption|right; exact A].
        + right. destruct v as [s|s| |s m e B]; try discriminate Fv; reflexivity.
      - intros Hb i x Hi Fx. exists (fsub x v). rewrite nth_error_map, Hi. split; [reflexivity|]. apply fsub_ok; auto. apply rnd_top; auto.
        rewrite Forall_forall in Hb, Bv. pose proof (nth_error_In _ _ Hi) as Hx. pose proof (Hb x Hx Fx) as Hbx. specialize (Bv x Hx Fx). apply Rabs_le_inv in Hbx.
        pose proof (double emax) as D1. pose proof (double (emax - 1)) as D2. pose proof (double (emax - 1 - 1)) as D3.
        replace (emax - 3)%Z with (emax - 1 - 1 - 1)%Z in * by ring. pose proof prec_pos.
        assert (P1 : bpow (emax - prec) <= bpow (emax - 1)) by (apply bpow_le; lia).
        assert (P2 : bpow prec <= bpow (emax - 1 - 1 - 1)) by (apply bpow_le; lia).
        assert (Uv : B2R v <= bpow (emax - 1 - 1)).
        { apply Rle_trans with (rnd (bpow (emax - 1 - 1 - 1) + bpow prec)).
          - apply Up; [lra|]. apply Forall_forall. intros z Hz Fz. pose proof (Hb z Hz Fz) as Hbz. apply Rabs_le_inv in Hbz. lra.
          - assert (G : rnd (bpow (emax - 1 - 1)) = bpow (emax - 1 - 1)).
            { apply round_generic; [typeclasses eauto|]. apply generic_format_bpow. unfold SpecFloat.fexp, SpecFloat.emin. lia. }
            rewrite <- G. apply rnd_le; [assumption|lra]. }
        pose proof (bpow_gt_0 radix2 (emax - 1 - 1 - 1)). lra.
    Qed.
  End Log.

  Notation within := (@within prec emax).
  Lemma mul_unit (p gy : float) : within (-1) 1 p -> is_finite gy = true ->
    is_finite (fmul p gy) = true /\ - Rabs (B2R gy) <= B2R (fmul p gy) <= Rabs (B2R gy).
  Proof.
    intros [Fp Bp] Fg.
    assert (Q : - Rabs (B2R gy) <= B2R p * B2R gy <= Rabs (B2R gy)).
    { apply Rabs_le_inv. rewrite Rabs_mult. pose proof (Rabs_pos (B2R gy)). assert (Rabs (B2R p) <= 1) by (apply Rabs_le; lra). nra. }
    assert (G : rnd (Rabs (B2R gy)) = Rabs (B2R gy)) by (rewrite <- B2R_Babs; apply rnd_float).
    assert (R : - Rabs (B2R gy) <= rnd (B2R p * B2R gy) <= Rabs (B2R gy)).
    { rewrite <- G. split; [rewrite <- round_NE_opp|]; apply rnd_le; auto; lra. }
    pose proof (float_top prec emax _ (Babs gy)) as T. rewrite B2R_Babs in T.
    destruct (fmul_ok prec emax _ _ p gy Fp Fg ltac:(lra)) as [F E]. split; [exact F|]. rewrite E. exact R.
  Qed.
  Lemma sub_one_ok (p : float) : within 0 1 p -> within (-1) 0 (fsub p fone).
  Proof.
    intros [Fp Bp]. destruct (fone_ok prec emax _ _) as [F1 B1]. 
    assert (R : -1 <= rnd (B2R p - 1) <= 0) by (apply rnd_unit_neg; auto; lra).
    destruct (fsub_ok prec emax _ _ p fone Fp F1) as [F E].
    - rewrite B1. apply unit_top; auto. lra.
    - split; [exact F|]. rewrite E, B1. exact R.
  Qed.

  (** ** The gradient of sparse cross entropy *)
  Section SparseGrad.
    Variable libm_exp : float -> float.
    Hypothesis Hexp : exp_ok libm_exp.
    Lemma exp_of_nonpositive (x : float) : nonpositive x -> within 0 1 (libm_exp x).
    Proof.
      intros [[F H]| ->]; [apply (exp_nonpositive _ _ _ Hexp); assumption|].
      destruct (exp_minus_infinity _ _ _ Hexp) as [F H]. split; [exact F|lra].
    Qed.
    Lemma minus_one_ok label : forall l : list float, Forall (within 0 1) l -> Forall (within (-1) 1) (minus_one_at label l).
    Proof.
      induction label as [|label IH]; intros [|p l] H; cbn [minus_one_at]; try constructor; inversion H as [|? ? Hp Hl]; subst.
      - destruct (sub_one_ok p Hp) as [F B]. split; [exact F|lra].
      - apply Forall_forall. intros q Hq. rewrite Forall_forall in Hl. destruct (Hl q Hq) as [F B]. split; [exact F|lra].
      - destruct Hp as [F B]. split; [exact F|lra].
      - apply IH. exact Hl.
    Qed.
    Lemma sparse_xent_grad_ok (log_x : list float) (label : nat) (gy : float) : Forall nonpositive log_x -> is_finite gy = true ->
      Forall (within (- Rabs (B2R gy)) (Rabs (B2R gy))) (sparse_xent_grad libm_exp log_x label gy).
    Proof.
      intros Hl Fg. unfold sparse_xent_grad.
      assert (Q : Forall (within (-1) 1) (minus_one_at label (map libm_exp log_x))).
      { apply minus_one_ok. apply Forall_forall. intros p Hp. apply in_map_iff in Hp. destruct Hp as (x & <- & Hx).
        rewrite Forall_forall in Hl. apply exp_of_nonpositive. auto. }
      apply Forall_forall. intros y Hy. apply in_map_iff in Hy. destruct Hy as (p & <- & Hp). rewrite Forall_forall in Q.
      exact (mul_unit p gy (Q p Hp) Fg).
    Qed.
  End SparseGrad.

  (** ** Sigmoid *)
  Lemma rnd_half : rnd (/ 2) = / 2.
  Proof.
    pose proof prec_pos. change (/ 2) with (bpow (-1)). apply round_generic; [typeclasses eauto|]. apply generic_format_bpow.
    unfold SpecFloat.fexp, SpecFloat.emin. lia.
  Qed.
  Lemma fhalf_ok : is_finite (@fhalf prec emax _ _) = true /\ B2R (@fhalf prec emax _ _) = / 2.
  Proof.
    pose proof (binary_normalize_correct prec emax _ _ mode_NE 1 (-1) false) as C. cbn [round_mode] in C.
    assert (E : F2R (Float radix2 1 (-1)) = / 2) by (unfold F2R; cbn; lra). rewrite E, rnd_half in C.
    rewrite (within_top prec emax) in C.
    - destruct C as (C1 & C2 & _). split; assumption.
    - apply unit_top; auto. lra.
  Qed.
  Section Tanh.
    Variable libm_tanh : float -> float.
    Hypothesis Htanh : tanh_ok libm_tanh.
    Lemma half_not_nan (a : float) : is_nan a = false -> is_nan (fmul a fhalf) = false.
    Proof.
      destruct fhalf_ok as [F E]. intros Ha.
      assert (S : is_finite_strict (@fhalf prec emax _ _) = true) by (apply is_finite_strict_B2R; rewrite E; lra).
      destruct a as [s|s| |s m e B]; try discriminate Ha.
      - destruct fhalf; try discriminate S; reflexivity.
      - destruct fhalf; try discriminate S; reflexivity.
      - apply finite_not_nan. apply fmul_ok; auto. apply rnd_top; auto. rewrite E.
        pose proof (float_top prec emax _ (B754_finite s m e B)). lra.
    Qed.
    Lemma sigmoid_ok (a : float) : is_nan a = false -> within 0 1 (sigmoid libm_tanh a).
    Proof.
      intros Ha. destruct fhalf_ok as [F E]. destruct (Htanh _ (half_not_nan a Ha)) as [Ft Bt]. unfold sigmoid.
      set (t := libm_tanh (fmul a fhalf)) in *.
      assert (R : - / 2 <= rnd (B2R t * / 2) <= / 2).
      { pose proof (rnd_le prec emax _ (B2R t * / 2) (/ 2) ltac:(lra)) as A. pose proof (rnd_le prec emax _ (- / 2) (B2R t * / 2) ltac:(lra)) as B.
        rewrite round_NE_opp, rnd_half in B. rewrite rnd_half in A. lra. }
      destruct (fmul_ok prec emax _ _ t fhalf Ft F) as [Fm Em]; [rewrite E; apply unit_top; auto; lra|]. rewrite E in Em.
      assert (R2 : 0 <= rnd (B2R (fmul t fhalf) + / 2) <= 1) by (apply rnd_unit; auto; rewrite Em; lra).
      destruct (fadd_ok prec emax _ _ (fmul t fhalf) fhalf Fm F) as [Fa Ea]; [rewrite E; apply unit_top; auto; lra|].
      split; [exact Fa|]. rewrite Ea, E. exact R2.
    Qed.
    Lemma sigmoid_grad_ok (y gy : float) : within 0 1 y -> is_finite gy = true ->
      within (- Rabs (B2R gy)) (Rabs (B2R gy)) (sigmoid_grad y gy).
    Proof.
      intros [F B] Fg. unfold sigmoid_grad.
      assert (R : 0 <= rnd (B2R y * B2R y) <= B2R y).
      { split; [rewrite <- (rnd_zero prec emax)|rewrite <- (rnd_float prec emax y) at 3]; apply rnd_le; auto; nra. }
      destruct (fmul_ok prec emax _ _ y y F F) as [F1 E1]; [apply unit_top; auto; lra|].
      assert (R2 : 0 <= rnd (B2R y - B2R (fmul y y)) <= 1) by (apply rnd_unit; auto; rewrite E1; lra).
      destruct (fsub_ok prec emax _ _ y (fmul y y) F F1) as [F2 E2]; [apply unit_top; auto; lra|].
      assert (Q : - Rabs (B2R gy) <= B2R gy * B2R (fsub y (fmul y y)) <= Rabs (B2R gy)).
      { apply Rabs_le_inv. rewrite Rabs_mult. pose proof (Rabs_pos (B2R gy)). assert (Rabs (B2R (fsub y (fmul y y))) <= 1) by (apply Rabs_le; lra). nra. }
      assert (G : rnd (Rabs (B2R gy)) = Rabs (B2R gy)) by (rewrite <- B2R_Babs; apply rnd_float).
      assert (R3 : - Rabs (B2R gy) <= rnd (B2R gy * B2R (fsub y (fmul y y))) <= Rabs (B2R gy)).
      { rewrite <- G. split; [rewrite <- round_NE_opp|]; apply rnd_le; auto; lra. }
      pose proof (float_top prec emax _ (Babs gy)) as T. rewrite B2R_Babs in T.
      destruct (fmul_ok prec emax _ _ gy (fsub y (fmul y y)) Fg F2 ltac:(lra)) as [F3 E3]. split; [exact F3|]. rewrite E3. exact R3.
    Qed.
  End Tanh.
End Floats.
