(** Max pooling: values and gradients. *)
From Coq Require Import List Arith ZArith NArith Bool Lia Reals Lra RealField.
Import ListNotations.
From Verif Require Import Eval_Proofs Array_Model Array_Proofs Array_Sum Vjp_Spec Vjp_Proofs Dot_Spec Dot_Proofs Conv_Model Conv_Proofs Conv_Forward Conv_Backward Conv_Filter Pool_Model Pool_Spec Pool_Proofs.

Section Sizes.
  Variables (lowest : R) (checked : bool) (batch ch xh xw p s size yh yw : nat).
  Hypothesis SZ : pool_sizes xh xw p s size yh yw.
  Notation xsh := [batch; ch; xh; xw].
  Notation ysh := [batch; ch; yh; yw].
  Notation pwin x ix := (pool_window lowest rgt checked p s size ch xh xw (a_data x) ix).
  Definition the_window (x : arr R) (ix : list nat) : R * nat := match pwin x ix with KOk m => m | _ => (lowest, 0) end.

  Lemma sizes_range_h i : i < yh -> window_range checked i s p size xh = if i * s <? p then (if checked then KPanic else KOk []) else KOk (visited i s p size xh).
  Proof.
    intros Hi. destruct SZ as (_ & _ & _ & _ & Fh & _ & B & _). pose proof (fits_last _ _ _ _ _ _ Fh Hi). apply window_range_value. set (a := i * s) in *. clearbody a. lia.
  Qed.
  Lemma sizes_range_w j : j < yw -> window_range checked j s p size xw = if j * s <? p then (if checked then KPanic else KOk []) else KOk (visited j s p size xw).
  Proof.
    intros Hi. destruct SZ as (_ & _ & _ & _ & _ & Fw & _ & B). pose proof (fits_last _ _ _ _ _ _ Fw Hi). apply window_range_value. set (a := j * s) in *. clearbody a. lia.
  Qed.
  Definition wlist (ix : list nat) : list nat :=
    match ix with [b; c; i; j] => if (i * s <? p) || (j * s <? p) then [] else window_positions xh xw ch b c (visited i s p size xh) (visited j s p size xw) | _ => [] end.
  Lemma flat_map_nil {I J} (l : list I) : flat_map (fun _ => @nil J) l = [].
  Proof. induction l; simpl; auto. Qed.
  Lemma pool_window_scan x ix : (checked = true -> p = 0) -> in_bounds ysh ix -> pwin x ix = scan rgt (a_data x) (wlist ix) (lowest, 0).
  Proof.
    intros HC H. assert (L : length ix = 4) by (rewrite (in_bounds_length _ _ H); reflexivity).
    destruct ix as [|b [|c [|i [|j [|? ?]]]]]; try discriminate L. apply Forall2_inv_tail, Forall2_inv_tail in H.
    pose proof (Forall2_inv_head H) as Hi. apply Forall2_inv_tail in H. pose proof (Forall2_inv_head H) as Hj. cbn beta in Hi, Hj.
    unfold pool_window, wlist. rewrite sizes_range_h, sizes_range_w by assumption.
    destruct checked; destruct (Nat.ltb_spec (i * s) p) as [Q|Q]; destruct (Nat.ltb_spec (j * s) p) as [Q'|Q']; try (specialize (HC eq_refl); lia); cbn [kbind orb]; try reflexivity.
    unfold window_positions. cbn [map]. rewrite flat_map_nil. reflexivity.
  Qed.
  Lemma wlist_in b c i j k : In k (wlist [b; c; i; j]) <-> p <= i * s /\ p <= j * s /\ exists h w, in_window xh xw p s size i j h w /\ k = ravel xsh [b; c; h; w].
  Proof.
    unfold wlist. destruct (Nat.ltb_spec (i * s) p) as [Q|Q]; cbn [orb]; [split; [intros []|lia]|]. destruct (Nat.ltb_spec (j * s) p) as [Q'|Q']; [split; [intros []|lia]|].
    rewrite positions_in. split.
    - intros (h & w & Hh & Hw & ->). apply visited_in in Hh; [|exact Q]. apply visited_in in Hw; [|exact Q']. split; [exact Q|]. split; [exact Q'|].
      exists h, w. split; [unfold in_window; tauto|]. apply position_ravel.
    - intros (_ & _ & h & w & (H1 & H2 & H3 & H4) & ->). exists h, w. split; [apply visited_in; tauto|]. split; [apply visited_in; tauto|]. symmetry. apply position_ravel.
  Qed.
  Lemma wlist_lt ix k : in_bounds ysh ix -> In k (wlist ix) -> k < prod xsh.
  Proof.
    intros H. assert (L : length ix = 4) by (rewrite (in_bounds_length _ _ H); reflexivity).
    destruct ix as [|b [|c [|i [|j [|? ?]]]]]; try discriminate L. rewrite wlist_in. intros (_ & _ & h & w & (H1 & H2 & _) & ->). apply ravel_lt.
    pose proof (Forall2_inv_head H) as Hb. apply Forall2_inv_tail in H. pose proof (Forall2_inv_head H) as Hc. repeat constructor; assumption.
  Qed.
  Lemma wlist_sorted ix : Sorted.StronglySorted lt (wlist ix).
  Proof.
    destruct ix as [|b [|c [|i [|j [|? ?]]]]]; try constructor. unfold wlist. destruct ((i * s <? p) || (j * s <? p)) eqn:E; [constructor|].
    apply orb_false_iff in E. destruct E as [_ E]. apply Nat.ltb_ge in E.
    apply positions_sorted; [apply seq_sorted|apply seq_sorted|]. intros w Hw. apply visited_in in Hw; [tauto|exact E].
  Qed.
  Lemma scan_ok x ix : has_shape xsh x -> in_bounds ysh ix -> exists m, scan rgt (a_data x) (wlist ix) (lowest, 0) = KOk m.
  Proof. intros Hx H. destruct (scan_spec (a_data x) (wlist ix) (lowest, 0)) as (m & E & _); [intros k Hk; rewrite (proj2 Hx); apply (wlist_lt ix); auto|eauto]. Qed.
  Lemma window_ok x ix : (checked = true -> p = 0) -> has_shape xsh x -> in_bounds ysh ix -> pwin x ix = KOk (the_window x ix).
  Proof. intros HC Hx H. unfold the_window. rewrite pool_window_scan by assumption. destruct (scan_ok x ix Hx H) as (m & E). rewrite E. reflexivity. Qed.
  Lemma pool_run (bits : N) (uninit : nat -> R) x : (checked = true -> p = 0) -> has_shape xsh x ->
    max_pool2d lowest rgt bits uninit checked p s size x = KOk (tab ysh (fun ix => fst (the_window x ix)), tab ysh (fun ix => float_index bits (snd (the_window x ix)))).
  Proof.
    intros HC Hx. pose proof SZ as (Q1 & Q2 & Q3 & Q4 & Q5 & Q6 & _). apply max_pool2d_windows with (xh := xh) (xw := xw); [exact (proj1 Hx)|apply fits_out_size; auto|apply fits_out_size; auto|].
    intros ix Hix. apply window_ok; assumption.
  Qed.
  Lemma get_ravel (x : arr R) ix : has_shape xsh x -> nth (ravel xsh ix) (a_data x) 0%R = aget 0%R x ix.
  Proof. intros Hx. unfold aget. rewrite (proj1 Hx). reflexivity. Qed.

  Lemma window_first x b c i j : (checked = true -> p = 0) -> has_shape xsh x -> Forall (Rlt lowest) (a_data x) ->
    b < batch -> c < ch -> i < yh -> j < yw -> p <= i * s -> p <= j * s -> (exists h w, in_window xh xw p s size i j h w) ->
    exists h w, first_max xh xw p s size x b c i j h w /\ the_window x [b; c; i; j] = (aget 0%R x [b; c; h; w], ravel xsh [b; c; h; w]).
  Proof.
    intros HC Hx Low Hb Hc Hi Hj Pi Pj (h0 & w0 & W0). assert (IB : in_bounds ysh [b; c; i; j]) by (repeat constructor; assumption).
    unfold the_window. rewrite pool_window_scan by assumption.
    assert (BL : forall k, In k (wlist [b; c; i; j]) -> k < length (a_data x)) by (intros k Hk; rewrite (proj2 Hx); apply (wlist_lt [b; c; i; j]); assumption).
    assert (K0 : In (ravel xsh [b; c; h0; w0]) (wlist [b; c; i; j])) by (apply wlist_in; eauto 6).
    destruct (scan_spec (a_data x) (wlist [b; c; i; j]) (lowest, 0) BL) as (m & E & [(-> & C)|(l1 & k & l2 & EL & -> & C1 & C2 & C3)]); rewrite E.
    - exfalso. specialize (C _ K0). cbn [fst] in C. rewrite Forall_forall in Low. specialize (Low (nth (ravel xsh [b; c; h0; w0]) (a_data x) 0%R) (nth_In _ _ (BL _ K0))). lra.
    - assert (Hk : In k (wlist [b; c; i; j])) by (rewrite EL; apply in_or_app; simpl; auto). apply wlist_in in Hk. destruct Hk as (_ & _ & h & w & W & ->).
      exists h, w. rewrite (get_ravel x) by exact Hx. split; [|reflexivity]. split; [exact W|]. intros h' w' W'.
      assert (Hk' : In (ravel xsh [b; c; h'; w']) (wlist [b; c; i; j])) by (apply wlist_in; eauto 6).
      rewrite <- !(get_ravel x) by exact Hx. split.
      + rewrite EL in Hk'. apply in_app_or in Hk'. destruct Hk' as [Hk'|[Hk'|Hk']]; [apply Rlt_le; auto|rewrite <- Hk'; apply Rle_refl|auto].
      + intros Lex. apply C2. apply (sorted_split l1 l2 (ravel xsh [b; c; h; w])); [rewrite <- EL; apply wlist_sorted|rewrite <- EL; exact Hk'|].
        rewrite <- !position_ravel. destruct W as (W1 & W2 & _), W' as (W1' & W2' & _). set (K := xh * (c + b * ch)).
        destruct Lex as [Lt|[-> Lt]]; [|lia]. assert (xw * (S h' + K) <= xw * (h + K)) by (apply Nat.mul_le_mono_l; lia). lia.
  Qed.
  Lemma window_unique x b c i j h w : (checked = true -> p = 0) -> has_shape xsh x -> b < batch -> c < ch -> i < yh -> j < yw -> p <= i * s -> p <= j * s ->
    in_window xh xw p s size i j h w -> (lowest < aget 0 x [b; c; h; w])%R ->
    (forall h' w', in_window xh xw p s size i j h' w' -> (h', w') <> (h, w) -> (aget 0 x [b; c; h'; w'] < aget 0 x [b; c; h; w])%R) ->
    the_window x [b; c; i; j] = (aget 0%R x [b; c; h; w], ravel xsh [b; c; h; w]).
  Proof.
    intros HC Hx Hb Hc Hi Hj Pi Pj W Low U. assert (IB : in_bounds ysh [b; c; i; j]) by (repeat constructor; assumption).
    unfold the_window. rewrite pool_window_scan by assumption.
    rewrite (scan_unique (a_data x) _ _ (ravel xsh [b; c; h; w])).
    - rewrite (get_ravel x) by exact Hx. reflexivity.
    - intros k Hk. rewrite (proj2 Hx). apply (wlist_lt [b; c; i; j]); assumption.
    - apply wlist_in. eauto 6.
    - rewrite (get_ravel x) by exact Hx. exact Low.
    - intros k' Hk' N. apply wlist_in in Hk'. destruct Hk' as (_ & _ & h' & w' & W' & ->). rewrite !(get_ravel x) by exact Hx. apply U; [exact W'|]. intros E. apply N. congruence.
  Qed.
  Lemma window_empty x b c i j : (checked = true -> p = 0) -> b < batch -> c < ch -> i < yh -> j < yw -> i * s < p \/ j * s < p -> the_window x [b; c; i; j] = (lowest, 0).
  Proof.
    intros HC Hb Hc Hi Hj Q. assert (IB : in_bounds ysh [b; c; i; j]) by (repeat constructor; assumption).
    unfold the_window. rewrite pool_window_scan by assumption. unfold wlist. replace ((i * s <? p) || (j * s <? p)) with true; [reflexivity|].
    symmetry. apply orb_true_iff. rewrite !Nat.ltb_lt. exact Q.
  Qed.
  (** The recorded position lies in the array. *)
  Lemma window_pos x ix : (checked = true -> p = 0) -> has_shape xsh x -> in_bounds ysh ix -> 0 < prod xsh -> snd (the_window x ix) < prod xsh.
  Proof.
    intros HC Hx H P0. unfold the_window. rewrite pool_window_scan by assumption.
    destruct (scan_spec (a_data x) (wlist ix) (lowest, 0)) as (m & E & C); [intros k Hk; rewrite (proj2 Hx); apply (wlist_lt ix); assumption|]. rewrite E.
    destruct C as [(-> & _)|(l1 & k & l2 & EL & -> & _)]; [exact P0|]. apply (wlist_lt ix); [exact H|]. rewrite EL. apply in_or_app. simpl. auto.
  Qed.
End Sizes.

(** ** Sums *)
Lemma rsum_combine {I} (l : list I) (f : I -> nat) (g : I -> R) (h : nat * R -> R) : rsum (combine (map f l) (map g l)) h = rsum l (fun i => h (f i, g i)).
Proof. induction l as [|a l IH]; simpl; [reflexivity|]. unfold sumf in *. simpl. rewrite IH. reflexivity. Qed.
Lemma map2_nth_sum (l m : list R) n : length l = n -> length m = n -> fold_right Rplus 0%R (map2 Rmult l m) = rsum (seq 0 n) (fun k => nth k l 0 * nth k m 0)%R.
Proof.
  revert l m. induction n as [|n IH]; intros l m Ll Lm; destruct l as [|x l]; destruct m as [|y m]; try discriminate Ll; try discriminate Lm; [reflexivity|].
  simpl. rewrite (IH l m) by (simpl in *; lia). rewrite <- seq_shift, sum_map. reflexivity.
Qed.
Lemma nested4 a b c d (f : list nat -> R) : rsum (indices [a; b; c; d]) f = sum_below a (fun i => sum_below b (fun j => sum_below c (fun k => sum_below d (fun l => f [i; j; k; l])))).
Proof.
  rewrite rsum_cons, sum_below_rsum. apply sum_ext. intros i _. rewrite rsum_cons, sum_below_rsum. apply sum_ext. intros j _. rewrite rsum_cons, sum_below_rsum. apply sum_ext. intros k _.
  rewrite rsum_cons, sum_below_rsum. apply sum_ext. intros l _. change (indices []) with [@nil nat]. unfold sumf. simpl. ring.
Qed.

(** ** The gradient *)
Lemma in_size_covers checked y p s size x : 0 < y -> pool_covers x p s size y -> (Z.of_nat (2 * x + 4 * p) < 2 ^ 64)%Z -> (checked = true -> 2 * p <= s * (y - 1)) ->
  pool_in_size checked y p s size = KOk x.
Proof.
  intros Hy C F Hc. unfold pool_covers in C. unfold pool_in_size. destruct checked.
  - specialize (Hc eq_refl). unfold usub. destruct (Nat.leb_spec 1 y); [|lia]. cbn [kbind]. set (a := s * (y - 1)) in *. clearbody a. destruct (Nat.leb_spec (2 * p) a); [|lia]. cbn [kbind]. f_equal. lia.
  - f_equal. rewrite <- (Nat2Z.id x). f_equal. replace (Z.of_nat s * (Z.of_nat y - 1))%Z with (Z.of_nat (s * (y - 1))) by (rewrite Nat2Z.inj_mul, Nat2Z.inj_sub by lia; reflexivity). set (a := s * (y - 1)) in *. clearbody a. rewrite Z.mod_small by lia. lia.
Qed.
Lemma grad_run checked batch ch xh xw p s size yh yw (gy : arr R) (pos : list nat -> nat) :
  pool_in_size checked yh p s size = KOk xh -> pool_in_size checked yw p s size = KOk xw ->
  has_shape [batch; ch; yh; yw] gy -> (forall ix, in_bounds [batch; ch; yh; yw] ix -> pos ix < prod [batch; ch; xh; xw]) ->
  exists gx, max_pool2d_grad 0%R Rplus checked p s size gy (tab [batch; ch; yh; yw] pos) = KOk gx /\ has_shape [batch; ch; xh; xw] gx /\
    forall m, m < prod [batch; ch; xh; xw] -> nth m (a_data gx) 0%R = rsum (indices [batch; ch; yh; yw]) (fun ix => if pos ix =? m then aget 0%R gy ix else 0%R).
Proof.
  intros Eh Ew Hg HP. unfold max_pool2d_grad. rewrite (proj1 Hg), Eh, Ew. cbn [kbind].
  pose proof Hg as Hg2. apply has_shape_wf in Hg2. destruct Hg2 as [Sg Wg].
  set (ixs := indices [batch; ch; yh; yw]).
  assert (P : yh * yw * ch * batch = length (a_data (tab [batch; ch; yh; yw] pos))) by (cbn [tab a_data]; rewrite map_length, indices_length; simpl; lia).
  rewrite P. assert (PX : batch * ch * xh * xw = prod [batch; ch; xh; xw]) by (simpl; lia). rewrite PX.
  destruct (scatter_value (a_data (tab [batch; ch; yh; yw] pos)) (repeat 0%R (prod [batch; ch; xh; xw])) (a_data gy)) as (gx & E & L & G).
  - cbn [tab a_data]. rewrite map_length, indices_length. exact (proj2 Hg).
  - intros k Hk. rewrite repeat_length. cbn [tab a_data] in Hk. apply in_map_iff in Hk. destruct Hk as (ix & <- & Hix). apply HP. apply indices_in. exact Hix.
  - rewrite E. cbn [kbind]. eexists. split; [reflexivity|]. split; [split; [reflexivity|cbn [a_data]; rewrite L; apply repeat_length]|].
    intros m Hm. cbn [a_data]. rewrite G, nth_repeat. rewrite (data_map 0%R gy Wg), Sg. cbn [tab a_data]. rewrite rsum_combine. cbn [fst snd]. fold ixs. lra.
Qed.
Lemma grad_dot batch ch xh xw yh yw (gy gx v : arr R) (pos : list nat -> nat) :
  has_shape [batch; ch; yh; yw] gy -> has_shape [batch; ch; xh; xw] gx -> has_shape [batch; ch; xh; xw] v -> (forall ix, in_bounds [batch; ch; yh; yw] ix -> pos ix < prod [batch; ch; xh; xw]) ->
  (forall m, m < prod [batch; ch; xh; xw] -> nth m (a_data gx) 0%R = rsum (indices [batch; ch; yh; yw]) (fun ix => if pos ix =? m then aget 0%R gy ix else 0%R)) ->
  dot gx v = rsum (indices [batch; ch; yh; yw]) (fun ix => aget 0 gy ix * nth (pos ix) (a_data v) 0)%R.
Proof.
  intros Hg Hgx Hv HP G. unfold dot. rewrite (map2_nth_sum _ _ _ (proj2 Hgx) (proj2 Hv)). set (n := prod [batch; ch; xh; xw]) in *. set (ixs := indices [batch; ch; yh; yw]).
  transitivity (rsum (seq 0 n) (fun k => rsum ixs (fun ix => if pos ix =? k then aget 0 gy ix * nth k (a_data v) 0 else 0)))%R.
  - apply sum_ext. intros k Hk. apply in_seq in Hk. rewrite G by lia. rewrite <- (sum_scale_r 0%R 1%R Rplus Rmult Rminus Ropp RT). apply sum_ext. intros ix _. destruct (pos ix =? k); ring.
  - rewrite (sum_swap 0%R 1%R Rplus Rmult Rminus Ropp RT). apply sum_ext. intros ix Hix. apply indices_in in Hix.
    apply (sum_one 0%R 1%R Rplus Rmult Rminus Ropp RT (seq 0 n) (fun k => pos ix =? k) (fun k => aget 0 gy ix * nth k (a_data v) 0)%R (pos ix)).
    + apply seq_NoDup.
    + apply in_seq. specialize (HP ix Hix). lia.
    + apply Nat.eqb_refl.
    + intros k _ E. apply Nat.eqb_eq in E. auto.
Qed.

(** ** Near a point with unique maxima *)
Lemma derivable_local f g d : (exists delta, (0 < delta)%R /\ forall t, (Rabs t < delta)%R -> f t = g t) -> derivable_pt_lim f 0 d -> derivable_pt_lim g 0 d.
Proof.
  intros (dl & P & E) D eps He. destruct (D eps He) as [d2 H2]. assert (P2 : (0 < Rmin dl d2)%R) by (apply Rmin_glb_lt; [exact P|apply cond_pos]).
  exists (mkposreal _ P2). intros h Hn Hh. cbn [pos] in Hh. pose proof (Rmin_l dl d2). pose proof (Rmin_r dl d2).
  rewrite <- !E; [apply H2; [exact Hn|lra]|rewrite Rabs_R0; exact P|rewrite Rplus_0_l; lra].
Qed.
Lemma near_lt (l : list ((R * R) * (R * R))) : (forall e, In e l -> (fst (fst e) < fst (snd e))%R) ->
  exists delta, (0 < delta)%R /\ forall t, (Rabs t < delta)%R -> forall e, In e l -> (fst (fst e) + t * snd (fst e) < fst (snd e) + t * snd (snd e))%R.
Proof.
  induction l as [|e l IH]; intros H.
  - exists 1%R. split; [lra|]. intros t _ e [].
  - destruct IH as (d1 & P1 & D1); [intros; apply H; simpl; auto|]. destruct e as [[a a'] [b b']]. specialize (H _ (or_introl eq_refl)) as Hab. cbn [fst snd] in Hab.
    set (K := (1 + Rabs a' + Rabs b')%R). assert (PK : (0 < K)%R) by (unfold K; pose proof (Rabs_pos a'); pose proof (Rabs_pos b'); lra).
    assert (P2 : (0 < (b - a) / K)%R) by (apply Rdiv_lt_0_compat; lra).
    exists (Rmin d1 ((b - a) / K)). split; [apply Rmin_glb_lt; assumption|]. intros t Ht e He. pose proof (Rmin_l d1 ((b - a) / K)). pose proof (Rmin_r d1 ((b - a) / K)).
    destruct He as [<-|He]; [|apply D1; [lra|exact He]]. cbn [fst snd].
    assert (T : (Rabs t * K < b - a)%R). { apply (Rmult_lt_reg_r (/ K)); [apply Rinv_0_lt_compat; exact PK|]. rewrite Rmult_assoc, Rinv_r by lra. rewrite Rmult_1_r. unfold Rdiv in *. lra. }
    assert (A : (Rabs (t * (a' - b')) <= Rabs t * K)%R).
    { rewrite Rabs_mult. apply Rmult_le_compat_l; [apply Rabs_pos|]. unfold K. pose proof (Rabs_triang a' (- b')). rewrite Rabs_Ropp in *. unfold Rminus. lra. }
    pose proof (Rle_abs (t * (a' - b'))). lra.
Qed.

Lemma nth_map2 (f : R -> R -> R) l m k : k < length l -> k < length m -> nth k (map2 f l m) 0%R = f (nth k l 0%R) (nth k m 0%R).
Proof. revert m k. induction l as [|x l IH]; intros [|y m] k Hl Hm; simpl in *; try lia. destruct k as [|k]; [reflexivity|]. apply IH; lia. Qed.

Section Gradient.
  Variables (lowest : R) (checked : bool) (batch ch xh xw s size yh yw : nat).
  Notation xsh := [batch; ch; xh; xw].
  Notation ysh := [batch; ch; yh; yw].
  Hypothesis SZ : pool_sizes xh xw 0 s size yh yw.
  Notation tw := (the_window lowest checked ch xh xw 0 s size).

  Lemma window_stays x v : has_shape xsh x -> has_shape xsh v -> Forall (Rlt lowest) (a_data x) -> unique_maxima batch ch xh xw yh yw 0 s size x ->
    exists delta, (0 < delta)%R /\ forall t, (Rabs t < delta)%R -> forall ix, in_bounds ysh ix ->
      tw (step x v t) ix = (nth (snd (tw x ix)) (a_data x) 0 + t * nth (snd (tw x ix)) (a_data v) 0, snd (tw x ix))%R.
  Proof.
    intros Hx Hv Low U.
    set (pairs := flat_map (fun ix => let k := snd (tw x ix) in ((lowest, 0), (nth k (a_data x) 0, nth k (a_data v) 0))%R ::
       map (fun k' => ((nth k' (a_data x) 0, nth k' (a_data v) 0), (nth k (a_data x) 0, nth k (a_data v) 0)))%R (filter (fun k' => negb (k' =? k)) (wlist ch xh xw 0 s size ix))) (indices ysh)).
    assert (HC : checked = true -> 0 = 0) by reflexivity.
    assert (W : forall b c i j, b < batch -> c < ch -> i < yh -> j < yw -> exists h w, in_window xh xw 0 s size i j h w /\ (lowest < aget 0 x [b; c; h; w])%R /\
      (forall h' w', in_window xh xw 0 s size i j h' w' -> (h', w') <> (h, w) -> (aget 0 x [b; c; h'; w'] < aget 0 x [b; c; h; w])%R) /\ tw x [b; c; i; j] = (aget 0%R x [b; c; h; w], ravel xsh [b; c; h; w])).
    { intros b c i j Hb Hc Hi Hj. destruct (U b c i j Hb Hc Hi Hj) as (h & w & Wn & Mx). exists h, w. split; [exact Wn|].
      assert (L : (lowest < aget 0 x [b; c; h; w])%R).
      { rewrite Forall_forall in Low. apply Low. unfold aget. apply nth_In. rewrite (proj1 Hx), (proj2 Hx). apply ravel_lt. destruct Wn as (? & ? & _). repeat constructor; assumption. }
      split; [exact L|]. split; [exact Mx|]. apply (window_unique lowest checked batch ch xh xw 0 s size yh yw SZ); auto; lia. }
    destruct (near_lt pairs) as (dl & P & D).
    { intros e He. unfold pairs in He. apply in_flat_map in He. destruct He as (ix & Hix & He). apply indices_in in Hix.
      assert (L : length ix = 4) by (rewrite (in_bounds_length _ _ Hix); reflexivity). destruct ix as [|b [|c [|i [|j [|? ?]]]]]; try discriminate L.
      pose proof (Forall2_inv_head Hix) as Hb. apply Forall2_inv_tail in Hix. pose proof (Forall2_inv_head Hix) as Hc. apply Forall2_inv_tail in Hix.
      pose proof (Forall2_inv_head Hix) as Hi. apply Forall2_inv_tail in Hix. pose proof (Forall2_inv_head Hix) as Hj. cbn beta in *.
      destruct (W b c i j Hb Hc Hi Hj) as (h & w & Wn & L0 & Mx & T). rewrite T in He. cbn [snd] in He. cbv zeta in He. destruct He as [<-|He].
      - cbn [fst snd]. rewrite (get_ravel batch ch xh xw x) by exact Hx. exact L0.
      - apply in_map_iff in He. destruct He as (k' & <- & Hk'). apply filter_In in Hk'. destruct Hk' as [Hk' N]. cbn [fst snd]. apply (wlist_in batch) in Hk'. destruct Hk' as (_ & _ & h' & w' & W' & ->).
        rewrite !(get_ravel batch ch xh xw x) by exact Hx. apply Mx; [exact W'|]. intros E. apply negb_true_iff, Nat.eqb_neq in N. apply N. congruence. }
    exists dl. split; [exact P|]. intros t Ht ix Hix. pose proof Hix as Hix0.
    assert (L : length ix = 4) by (rewrite (in_bounds_length _ _ Hix); reflexivity). destruct ix as [|b [|c [|i [|j [|? ?]]]]]; try discriminate L.
    pose proof (Forall2_inv_head Hix) as Hb. apply Forall2_inv_tail in Hix. pose proof (Forall2_inv_head Hix) as Hc. apply Forall2_inv_tail in Hix.
    pose proof (Forall2_inv_head Hix) as Hi. apply Forall2_inv_tail in Hix. pose proof (Forall2_inv_head Hix) as Hj. cbn beta in *.
    destruct (W b c i j Hb Hc Hi Hj) as (h & w & Wn & L0 & Mx & T).
    assert (D' : forall e, In e (((lowest, 0), (nth (ravel xsh [b; c; h; w]) (a_data x) 0, nth (ravel xsh [b; c; h; w]) (a_data v) 0))%R ::
       map (fun k' => ((nth k' (a_data x) 0, nth k' (a_data v) 0), (nth (ravel xsh [b; c; h; w]) (a_data x) 0, nth (ravel xsh [b; c; h; w]) (a_data v) 0)))%R (filter (fun k' => negb (k' =? ravel xsh [b; c; h; w])) (wlist ch xh xw 0 s size [b; c; i; j]))) ->
       (fst (fst e) + t * snd (fst e) < fst (snd e) + t * snd (snd e))%R).
    { intros e He. apply (D t Ht). unfold pairs. apply in_flat_map. exists [b; c; i; j]. split; [apply indices_in; exact Hix0|]. cbv zeta. rewrite T. cbn [snd]. exact He. }
    assert (G : forall h w, in_window xh xw 0 s size i j h w -> aget 0%R (step x v t) [b; c; h; w] = (nth (ravel xsh [b; c; h; w]) (a_data x) 0 + t * nth (ravel xsh [b; c; h; w]) (a_data v) 0)%R).
    { intros h1 w1 (W1 & W2 & _). rewrite (step_get xsh) by (auto; repeat constructor; assumption). rewrite !(get_ravel batch ch xh xw) by assumption. reflexivity. }
    rewrite T. cbn [snd]. rewrite <- (G h w Wn).
    apply (window_unique lowest checked batch ch xh xw 0 s size yh yw SZ); auto; try lia.
    - apply step_has_shape; assumption.
    - rewrite (G h w Wn). specialize (D' _ (or_introl eq_refl)). cbn [fst snd] in D'. rewrite Rmult_0_r, Rplus_0_r in D'. exact D'.
    - intros h' w' W' N. rewrite (G h w Wn), (G h' w' W'). 
      apply (D' ((nth (ravel xsh [b; c; h'; w']) (a_data x) 0, nth (ravel xsh [b; c; h'; w']) (a_data v) 0), (nth (ravel xsh [b; c; h; w]) (a_data x) 0, nth (ravel xsh [b; c; h; w]) (a_data v) 0))%R).
      right. apply in_map_iff. eexists. split; [reflexivity|]. apply filter_In. split; [apply (wlist_in batch); repeat split; try lia; exists h', w'; auto|].
      apply negb_true_iff, Nat.eqb_neq. intros E. apply N. destruct Wn as (Q1 & Q2 & _), W' as (Q1' & Q2' & _).
      assert (EE : [b; c; h'; w'] = [b; c; h; w]) by (apply (ravel_inj xsh); [repeat constructor; assumption|repeat constructor; assumption|exact E]). congruence.
  Qed.
End Gradient.
