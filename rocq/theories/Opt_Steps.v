(** Histories of optimizer steps follow the published rules. *)
From Coq Require Import String List Arith ZArith Bool Reals Lia Lra.
Import ListNotations.
From Verif Require Import Array_Model Array_Proofs Arith_Model Arith_Proofs Vjp_Spec Vjp_Proofs Opt_Model Opt_Effect Opt_Spec.
Local Open Scope R_scope.

(** Successive steps on the arrays of one parameter. *)
Fixpoint run_steps (powf : R -> R -> R) (opt : optimizer) (s : arr R * list (arr R)) (gs : list (arr R))
  : option (arr R * list (arr R)) :=
  match gs with
  | [] => Some s
  | g :: gs => match opt_step powf opt (fst s) g (snd s) with
               | None => None
               | Some s' => run_steps powf opt s' gs
               end
  end.
Lemma run_steps_snoc powf opt gs g : forall s, run_steps powf opt s (gs ++ [g]) =
  match run_steps powf opt s gs with
  | None => None
  | Some s' => opt_step powf opt (fst s') g (snd s')
  end.
Proof.
  induction gs as [|a gs IH]; intros s; simpl.
  - destruct (opt_step powf opt (fst s) g (snd s)); reflexivity.
  - destruct (opt_step powf opt (fst s) a (snd s)); [apply IH | reflexivity].
Qed.

Lemma zip_mut_eq (f : R -> R -> R) sh a b : has_shape sh a -> has_shape sh b ->
  exists r, zip_mut 0 0 f a b = Some r /\ has_shape sh r /\
            forall i, in_bounds sh i -> aget 0 r i = f (aget 0 a i) (aget 0 b i).
Proof.
  intros [Ha Ha'] [Hb Hb']. unfold zip_mut. rewrite Ha, Hb, can_broadcast_refl. eexists. split; [reflexivity|]. split.
  - split; [apply tab_shape|]. rewrite <- (tab_shape sh (fun i => f (aget 0 a i) (aget 0 b (bc_idx sh i)))) at 2. apply tab_wf.
  - intros i Hi. rewrite aget_tab by exact Hi. rewrite bc_idx_self by exact Hi. reflexivity.
Qed.

Lemma sigma_ext n f g : (forall k, (k < n)%nat -> f k = g k) -> sigma n f = sigma n g.
Proof. induction n as [|n IH]; intros H; simpl; [reflexivity|]. rewrite IH by (intros; apply H; lia). rewrite H by lia. reflexivity. Qed.
Lemma sigma_scale n c f : sigma n (fun k => c * f k) = c * sigma n f.
Proof. induction n as [|n IH]; simpl; [ring|]. rewrite IH. ring. Qed.

Lemma grad_at_prefix gs g k i : (k < length gs)%nat -> grad_at (gs ++ [g]) k i = grad_at gs k i.
Proof. intros H. unfold grad_at. rewrite nth_error_app1 by exact H. reflexivity. Qed.
Lemma grad_at_last gs g i : grad_at (gs ++ [g]) (length gs) i = aget 0 g i.
Proof. unfold grad_at. rewrite nth_error_app2, Nat.sub_diag by lia. reflexivity. Qed.

(** Exponential sums. *)
Definition decay (b : R) (f : nat -> R) (n : nat) : R := sigma n (fun k => b ^ (n - 1 - k) * f k).
Lemma decay_S b f n : decay b f (S n) = b * decay b f n + f n.
Proof.
  unfold decay. simpl. rewrite Nat.sub_0_r, Nat.sub_diag. simpl. rewrite Rmult_1_l. f_equal.
  rewrite <- sigma_scale. apply sigma_ext. intros k Hk.
  replace (n - k)%nat with (S (n - 1 - k)) by lia. simpl. ring.
Qed.
Lemma decay_prefix b n f g : (forall k, (k < n)%nat -> f k = g k) -> decay b f n = decay b g n.
Proof. intros H. apply sigma_ext. intros k Hk. rewrite H by exact Hk. reflexivity. Qed.

Section Steps.
  Variable powf : R -> R -> R.
  Variable sh : list nat.

  Lemma sgd_history alpha p0 gs : has_shape sh p0 -> Forall (has_shape sh) gs ->
    exists p, run_steps powf (SGD alpha) (p0, []) gs = Some (p, []) /\ has_shape sh p /\
      forall i, in_bounds sh i -> aget 0 p i = aget 0 p0 i - alpha * sigma (length gs) (fun k => grad_at gs k i).
  Proof.
    intros Hp. induction gs as [|g gs IH] using rev_ind; intros Hg.
    - exists p0. split; [reflexivity|]. split; auto. intros i _. simpl. ring.
    - apply Forall_app in Hg. destruct Hg as [Hg Hg1]. inversion Hg1 as [|? ? Hg' _]; subst.
      destruct (IH Hg) as (p & Hr & Hps & Hpv). rewrite run_steps_snoc, Hr. simpl.
      destruct (zip_mut_eq (fun l r => l - alpha * r) sh p g Hps Hg') as (p' & Hz & Hs' & Hv').
      unfold sgd_step. rewrite Hz. simpl. exists p'. split; [reflexivity|]. split; auto.
      intros i Hi. rewrite (Hv' i Hi), (Hpv i Hi), app_length, Nat.add_1_r. simpl. rewrite grad_at_last.
      rewrite (sigma_ext (length gs) (fun k => grad_at (gs ++ [g]) k i) (fun k => grad_at gs k i)) by (intros; apply grad_at_prefix; auto). ring.
  Qed.

  Lemma velocity_snoc lr mu gs g i :
    velocity lr mu (gs ++ [g]) (S (length gs)) i = velocity lr mu gs (length gs) i * mu - lr * aget 0 g i.
  Proof.
    unfold velocity. fold (decay mu (fun k => grad_at (gs ++ [g]) k i) (S (length gs))).
    fold (decay mu (fun k => grad_at gs k i) (length gs)). rewrite decay_S, grad_at_last.
    rewrite (decay_prefix mu (length gs) _ (fun k => grad_at gs k i)) by (intros; apply grad_at_prefix; auto). ring.
  Qed.
  Lemma velocity_prefix lr mu gs g n i : (n <= length gs)%nat -> velocity lr mu (gs ++ [g]) n i = velocity lr mu gs n i.
  Proof.
    intros Hn. unfold velocity. f_equal. apply sigma_ext. intros k Hk. rewrite grad_at_prefix by lia. reflexivity.
  Qed.

  Lemma momentum_history lr mu ns p0 v0 gs : has_shape sh p0 -> has_shape sh v0 ->
    (forall i, in_bounds sh i -> aget 0 v0 i = 0) -> Forall (has_shape sh) gs ->
    exists p v, run_steps powf (MomentumSGD lr mu ns) (p0, [v0]) gs = Some (p, [v]) /\ has_shape sh p /\ has_shape sh v /\
      forall i, in_bounds sh i ->
        aget 0 v i = velocity lr mu gs (length gs) i /\
        aget 0 p i = aget 0 p0 i + sigma (length gs) (fun k => velocity lr mu gs (S k) i).
  Proof.
    intros Hp Hv H0. induction gs as [|g gs IH] using rev_ind; intros Hg.
    - exists p0, v0. split; [reflexivity|]. split; auto. split; auto. intros i Hi. unfold velocity. simpl.
      rewrite (H0 i Hi). split; ring.
    - apply Forall_app in Hg. destruct Hg as [Hg Hg1]. inversion Hg1 as [|? ? Hg' _]; subst.
      destruct (IH Hg) as (p & v & Hr & Hps & Hvs & Hpv). rewrite run_steps_snoc, Hr. simpl.
      destruct (zip_mut_eq (fun v g => v * mu - lr * g) sh v g Hvs Hg') as (v' & Hz & Hs' & Hv').
      destruct (zip_mut_eq (fun p v => p + v) sh p v' Hps Hs') as (p' & Hzp & Hsp & Hvp).
      unfold momentum_step. rewrite Hz. simpl. rewrite Hzp. simpl. exists p', v'.
      split; [reflexivity|]. split; auto. split; auto.
      intros i Hi. rewrite (Hvp i Hi), (Hv' i Hi). destruct (Hpv i Hi) as [Hv1 Hp1].
      rewrite Hv1, Hp1, app_length, Nat.add_1_r. split.
      + symmetry. apply velocity_snoc.
      + cbn [sigma]. rewrite velocity_snoc.
        rewrite (sigma_ext (length gs) (fun k => velocity lr mu (gs ++ [g]) (S k) i) (fun k => velocity lr mu gs (S k) i)).
        * ring.
        * intros k Hk. apply velocity_prefix. lia.
  Qed.

  Lemma squares_snoc gs g i : squares (gs ++ [g]) (S (length gs)) i = squares gs (length gs) i + aget 0 g i ^ 2.
  Proof.
    unfold squares. cbn [sigma]. rewrite grad_at_last. f_equal. apply sigma_ext. intros k Hk. rewrite grad_at_prefix by lia. reflexivity.
  Qed.
  Lemma squares_prefix gs g n i : (n <= length gs)%nat -> squares (gs ++ [g]) n i = squares gs n i.
  Proof. intros Hn. apply sigma_ext. intros k Hk. rewrite grad_at_prefix by lia. reflexivity. Qed.

  Lemma adagrad_history lr ns p0 h0 gs : has_shape sh p0 -> has_shape sh h0 ->
    (forall i, in_bounds sh i -> aget 0 h0 i = 0) -> Forall (has_shape sh) gs ->
    exists p h, run_steps powf (AdaGrad lr ns) (p0, [h0]) gs = Some (p, [h]) /\ has_shape sh p /\ has_shape sh h /\
      forall i, in_bounds sh i ->
        aget 0 h i = squares gs (length gs) i /\
        aget 0 p i = aget 0 p0 i + sigma (length gs) (fun k => adagrad_move lr gs k i).
  Proof.
    intros Hp Hh H0. induction gs as [|g gs IH] using rev_ind; intros Hg.
    - exists p0, h0. split; [reflexivity|]. split; auto. split; auto. intros i Hi. unfold squares. simpl.
      rewrite (H0 i Hi). split; ring.
    - apply Forall_app in Hg. destruct Hg as [Hg Hg1]. inversion Hg1 as [|? ? Hg' _]; subst.
      destruct (IH Hg) as (p & h & Hr & Hps & Hhs & Hpv). rewrite run_steps_snoc, Hr. simpl.
      destruct (zip_mut_eq (fun h g => h + g * g) sh h g Hhs Hg') as (h' & Hz & Hs' & Hv').
      unfold adagrad_step. rewrite Hz. simpl.
      rewrite (proj1 Hps), (proj1 Hg'), (proj1 Hs'), (proj2 (shape_eqb_ok sh sh) eq_refl). simpl.
      eexists _, h'. split; [reflexivity|]. split; [|split; auto].
      { split; [apply tab_shape|]. match goal with |- length (a_data ?t) = _ => assert (W : wf t) by apply tab_wf end.
        exact W. }
      intros i Hi. rewrite aget_tab by exact Hi. rewrite (Hv' i Hi). destruct (Hpv i Hi) as [Hh1 Hp1].
      rewrite Hh1, Hp1, app_length, Nat.add_1_r. split.
      + rewrite squares_snoc. ring.
      + cbn [sigma].
        assert (L : adagrad_move lr (gs ++ [g]) (length gs) i =
                    - (lr * aget 0 g i / (sqrt (squares gs (length gs) i + aget 0 g i ^ 2) + / 10000000)))
          by (unfold adagrad_move; rewrite squares_snoc, grad_at_last; reflexivity).
        rewrite L.
        rewrite (sigma_ext (length gs) (fun k => adagrad_move lr (gs ++ [g]) k i) (fun k => adagrad_move lr gs k i)).
        * unfold adagrad_eps. replace (aget 0 g i * aget 0 g i) with (aget 0 g i ^ 2) by ring. unfold Rdiv. ring.
        * intros k Hk. unfold adagrad_move. rewrite squares_prefix, grad_at_prefix by lia. reflexivity.
  Qed.

  Lemma first_moment_snoc b gs g i : first_moment b (gs ++ [g]) (S (length gs)) i =
    first_moment b gs (length gs) i * b + (1 - b) * aget 0 g i.
  Proof.
    unfold first_moment. fold (decay b (fun k => grad_at (gs ++ [g]) k i) (S (length gs))).
    fold (decay b (fun k => grad_at gs k i) (length gs)). rewrite decay_S, grad_at_last.
    rewrite (decay_prefix b (length gs) _ (fun k => grad_at gs k i)) by (intros; apply grad_at_prefix; auto). ring.
  Qed.
  Lemma first_moment_prefix b gs g n i : (n <= length gs)%nat -> first_moment b (gs ++ [g]) n i = first_moment b gs n i.
  Proof. intros Hn. unfold first_moment. f_equal. apply sigma_ext. intros k Hk. rewrite grad_at_prefix by lia. reflexivity. Qed.
  Lemma second_moment_snoc b gs g i : second_moment b (gs ++ [g]) (S (length gs)) i =
    second_moment b gs (length gs) i * b + (1 - b) * aget 0 g i * aget 0 g i.
  Proof.
    unfold second_moment. fold (decay b (fun k => grad_at (gs ++ [g]) k i ^ 2) (S (length gs))).
    fold (decay b (fun k => grad_at gs k i ^ 2) (length gs)). rewrite decay_S, grad_at_last.
    rewrite (decay_prefix b (length gs) _ (fun k => grad_at gs k i ^ 2)).
    - ring.
    - intros k Hk. rewrite grad_at_prefix by exact Hk. reflexivity.
  Qed.
  Lemma second_moment_prefix b gs g n i : (n <= length gs)%nat -> second_moment b (gs ++ [g]) n i = second_moment b gs n i.
  Proof. intros Hn. unfold second_moment. f_equal. apply sigma_ext. intros k Hk. rewrite grad_at_prefix by lia. reflexivity. Qed.

  Lemma amap_shape (f : R -> R) a : has_shape sh a -> has_shape sh (amap f a) /\
    forall i, in_bounds sh i -> aget 0 (amap f a) i = f (aget 0 a i).
  Proof.
    intros Ha. pose proof (proj1 (has_shape_wf sh a) Ha) as [Hs Hw]. split.
    - destruct Ha as [Ha1 Ha2]. split; [exact Ha1|]. cbn [amap a_data]. rewrite map_length. exact Ha2.
    - intros i Hi. apply (aget_map 0); [exact Hw|]. rewrite Hs. exact Hi.
  Qed.

  Lemma adam_history alpha eps b1 b2 ns p0 m0 v0 gs :
    (forall n, powf b1 (INR (S n)) = b1 ^ S n) -> (forall n, powf b2 (INR (S n)) = b2 ^ S n) -> has_shape sh p0 -> has_shape sh m0 -> has_shape sh v0 ->
    (forall i, in_bounds sh i -> aget 0 m0 i = 0) -> (forall i, in_bounds sh i -> aget 0 v0 i = 0) ->
    Forall (has_shape sh) gs ->
    exists p m v, run_steps powf (Adam alpha eps b1 b2 ns) (p0, [m0; v0; Arr [] [1]]) gs =
                    Some (p, [m; v; Arr [] [INR (S (length gs))]]) /\
      has_shape sh p /\ has_shape sh m /\ has_shape sh v /\
      forall i, in_bounds sh i ->
        aget 0 m i = first_moment b1 gs (length gs) i /\
        aget 0 v i = second_moment b2 gs (length gs) i /\
        aget 0 p i = aget 0 p0 i + sigma (length gs) (fun k => adam_move alpha eps b1 b2 gs k i).
  Proof.
    intros Hpow1 Hpow2 Hp Hm Hv Hm0 Hv0. induction gs as [|g gs IH] using rev_ind; intros Hg.
    - exists p0, m0, v0. split; [reflexivity|]. do 3 (split; [assumption|]). intros i Hi.
      unfold first_moment, second_moment. simpl. rewrite (Hm0 i Hi), (Hv0 i Hi). repeat split; ring.
    - apply Forall_app in Hg. destruct Hg as [Hg Hg1]. inversion Hg1 as [|? ? Hg' _]; subst.
      destruct (IH Hg) as (p & m & v & Hr & Hps & Hms & Hvs & Hpv). rewrite run_steps_snoc, Hr.
      cbn [fst snd opt_step]. unfold adam_step.
      destruct (zip_mut_eq (fun x g => x * b1 + (1 - b1) * g) sh m g Hms Hg') as (m' & Zm & Sm & Vm).
      destruct (zip_mut_eq (fun x g => x * b2 + (1 - b2) * g * g) sh v g Hvs Hg') as (v' & Zv & Sv & Vv).
      rewrite Zm, Zv. unfold bind at 1 2. cbn [a_data a_shape]. rewrite Hpow1, Hpow2.
      destruct (amap_shape (fun x => x * (1 / (1 - b2 ^ S (length gs)))) v' Sv) as [Svh Vvh].
      destruct (amap_shape (fun x => x * (1 / (1 - b1 ^ S (length gs)))) m' Sm) as [Smh Vmh].
      destruct (zip_mut_eq (fun a b => a / (sqrt b + eps)) sh _ _ Smh Svh) as (q & Zq & Sq & Vq).
      rewrite Zq. unfold bind at 1.
      destruct (zip_mut_eq (fun l r => l - alpha * r) sh p q Hps Sq) as (p' & Zp & Sp & Vp).
      rewrite Zp. unfold bind, option_map. exists p', m', v'.
      split. { rewrite app_length, Nat.add_1_r, (S_INR (S (length gs))). reflexivity. }
      do 3 (split; [assumption|]). intros i Hi. destruct (Hpv i Hi) as (Hm1 & Hv1 & Hp1).
      rewrite (Vp i Hi), (Vq i Hi), (Vmh i Hi), (Vvh i Hi), (Vm i Hi), (Vv i Hi).
      rewrite Hm1, Hv1, Hp1, app_length, Nat.add_1_r, first_moment_snoc, second_moment_snoc.
      split; [reflexivity|]. split; [reflexivity|].
      cbn [sigma].
      assert (L : adam_move alpha eps b1 b2 (gs ++ [g]) (length gs) i =
        - (alpha * (((first_moment b1 gs (length gs) i * b1 + (1 - b1) * aget 0 g i) / (1 - b1 ^ S (length gs))) /
           (sqrt ((second_moment b2 gs (length gs) i * b2 + (1 - b2) * aget 0 g i * aget 0 g i) / (1 - b2 ^ S (length gs))) + eps))))
        by (unfold adam_move; rewrite first_moment_snoc, second_moment_snoc; reflexivity).
      rewrite L.
      rewrite (sigma_ext (length gs) (fun k => adam_move alpha eps b1 b2 (gs ++ [g]) k i) (fun k => adam_move alpha eps b1 b2 gs k i)).
      + unfold Rdiv. rewrite !Rmult_1_l. ring.
      + intros k Hk. unfold adam_move. rewrite first_moment_prefix, second_moment_prefix by lia. reflexivity.
  Qed.
End Steps.

(** ** The divisions are proper *)
Lemma sigma_nonneg n f : (forall k, (k < n)%nat -> 0 <= f k) -> 0 <= sigma n f.
Proof.
  induction n as [|n IH]; intros H; simpl; [lra|].
  pose proof (IH (fun k Hk => H k (Nat.lt_lt_succ_r _ _ Hk))). pose proof (H n (Nat.lt_succ_diag_r n)). lra.
Qed.
Lemma pow_below b n : 0 <= b < 1 -> 0 <= b ^ n /\ b ^ S n < 1.
Proof.
  intros Hb. induction n as [|n [I1 I2]]; simpl in *; [lra|]. split; [nra|]. nra.
Qed.
Lemma adagrad_denominator gs n i : 0 <= squares gs n i /\ 0 < sqrt (squares gs n i) + / 10000000.
Proof.
  assert (H : 0 <= squares gs n i) by (apply sigma_nonneg; intros; apply pow2_ge_0).
  split; [exact H|]. pose proof (sqrt_pos (squares gs n i)). lra.
Qed.
Lemma adam_denominators b1 b2 eps gs k i : 0 <= b1 < 1 -> 0 <= b2 < 1 -> 0 < eps ->
  0 < 1 - b1 ^ S k /\ 0 < 1 - b2 ^ S k /\ 0 <= second_moment b2 gs (S k) i / (1 - b2 ^ S k) /\
  0 < sqrt (second_moment b2 gs (S k) i / (1 - b2 ^ S k)) + eps.
Proof.
  intros H1 H2 He. pose proof (pow_below b1 k H1) as [_ P1]. pose proof (pow_below b2 k H2) as [_ P2].
  pose proof (sqrt_pos (second_moment b2 gs (S k) i / (1 - b2 ^ S k))) as Hs.
  split; [lra|]. split; [lra|]. split; [|lra].
  unfold Rdiv. apply Rmult_le_pos.
  - apply Rmult_le_pos; [lra|]. apply sigma_nonneg. intros j _. apply Rmult_le_pos; [apply pow_below; exact H2 | apply pow2_ge_0].
  - left. apply Rinv_0_lt_compat. lra.
Qed.
