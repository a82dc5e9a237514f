(** Max pooling: windows, scan, loops. *)
From Coq Require Import List Arith ZArith NArith Bool Lia Reals Lra RealField Sorting.Sorted.
Import ListNotations.
From Verif Require Import Eval_Proofs Array_Model Array_Proofs Array_Sum Vjp_Spec Vjp_Proofs Conv_Model Conv_Backward Pool_Model Pool_Spec.

(** ** Writing into vectors *)
Lemma put_at {A} (pre : list A) x post v : put (pre ++ x :: post) (length pre) v = Some (pre ++ v :: post).
Proof. induction pre as [|y pre IH]; simpl; [reflexivity|]. rewrite IH. reflexivity. Qed.
Lemma put_some {A} (l : list A) k v : k < length l -> exists l', put l k v = Some l' /\ length l' = length l /\ forall d m, nth m l' d = if m =? k then v else nth m l d.
Proof.
  revert k. induction l as [|x l IH]; intros k Hk; simpl in Hk; [lia|]. destruct k as [|k]; simpl.
  - eexists. split; [reflexivity|]. split; [reflexivity|]. intros d [|m]; reflexivity.
  - destruct (IH k ltac:(lia)) as (l' & E & L & G). rewrite E. eexists. split; [reflexivity|]. split; [simpl; rewrite L; reflexivity|].
    intros d [|m]; simpl; [reflexivity|]. apply G.
Qed.
Lemma put_none {A} (l : list A) k v : length l <= k -> put l k v = None.
Proof. revert k. induction l as [|x l IH]; intros k Hk; simpl in *; [reflexivity|]. destruct k as [|k]; [lia|]. rewrite IH by lia. reflexivity. Qed.

(** ** Index rounding *)
Lemma float_index_small bits n : (N.of_nat n < 2 ^ bits)%N -> float_index bits n = n.
Proof. intros H. unfold float_index, round_bits. destruct (N.ltb_spec (N.of_nat n) (2 ^ bits)); [|lia]. apply Nat2N.id. Qed.

(** ** Sizes *)
Lemma fits_out_size x p s size n : 0 < s -> 0 < n -> fits x p s size n -> pool_out_size x p s size = KOk n.
Proof.
  intros Hs Hn F. assert (H0 : size <= x + 2 * p) by (apply (F 0); exact Hn).
  unfold pool_out_size, usub, udiv. destruct (Nat.leb_spec size (x + 2 * p)); [|lia]. cbn [kbind]. destruct (Nat.eqb_spec s 0); [lia|]. cbn [kbind]. f_equal.
  pose proof (Nat.div_mod (x + 2 * p - size) s ltac:(lia)) as D. pose proof (Nat.mod_upper_bound (x + 2 * p - size) s ltac:(lia)) as U.
  set (q := (x + 2 * p - size) / s) in *. clearbody q.
  assert (A1 : q < n). { apply F. rewrite (Nat.mul_comm q s). lia. }
  assert (A2 : ~ S q < n). { intros C. apply F in C. simpl in C. rewrite (Nat.mul_comm q s) in C. lia. }
  lia.
Qed.
Lemma fits_last x p s size n i : fits x p s size n -> i < n -> i * s + size <= x + 2 * p.
Proof. intros F. apply F. Qed.

(** ** Windows *)
Lemma seq_shift_map a n : map (fun k => a + k) (seq 0 n) = seq a n.
Proof.
  revert a. induction n as [|n IH]; intros a; simpl; [reflexivity|]. f_equal; [lia|]. rewrite <- (IH (S a)), <- seq_shift, map_map.
  apply map_ext. intros k. lia.
Qed.
Definition visited (i s p size x : nat) : list nat := seq (i * s - p) (min (i * s - p + size) x - (i * s - p)).
Lemma window_range_value checked i s p size x :
  (Z.of_nat (i * s + size + x + 2 * p) < 2 ^ 64)%Z ->
  window_range checked i s p size x =
    if i * s <? p then (if checked then KPanic else KOk []) else KOk (visited i s p size x).
Proof.
  intros F. unfold window_range, window_start, visited. set (a := i * s) in *. clearbody a.
  destruct (Nat.ltb_spec a p) as [Lt|Ge].
  - destruct checked.
    + unfold usub. destruct (Nat.leb_spec p a); [lia|]. reflexivity.
    + cbn [kbind]. assert (E : ((Z.of_nat a - Z.of_nat p) mod 2 ^ 64 = Z.of_nat a - Z.of_nat p + 2 ^ 64)%Z).
      { rewrite <- (Z.mod_add _ 1) by lia. rewrite Z.mod_small by lia. lia. }
      rewrite E. set (st := (Z.of_nat a - Z.of_nat p + 2 ^ 64)%Z). assert (N : (window_end false st size x - st <= 0)%Z).
      { unfold window_end. destruct (Z.lt_ge_cases (st + Z.of_nat size) (2 ^ 64)) as [L|G].
        - rewrite Z.mod_small by (unfold st; lia). destruct (Z.ltb_spec (Z.of_nat x) (st + Z.of_nat size)); unfold st in *; lia.
        - assert (E2 : ((st + Z.of_nat size) mod 2 ^ 64 = st + Z.of_nat size - 2 ^ 64)%Z).
          { rewrite <- (Z.mod_add _ (-1)) by lia. rewrite Z.mod_small by (unfold st in *; lia). lia. }
          rewrite E2. destruct (Z.ltb_spec (Z.of_nat x) (st + Z.of_nat size - 2 ^ 64)); unfold st in *; lia. }
      replace (Z.to_nat (window_end false st size x - st)) with 0 by lia. reflexivity.
  - assert (S0 : (if checked then kbind (usub a p) (fun a => KOk (Z.of_nat a)) else KOk ((Z.of_nat a - Z.of_nat p) mod 2 ^ 64)%Z) = KOk (Z.of_nat (a - p))).
    { destruct checked.
      - unfold usub. destruct (Nat.leb_spec p a); [|lia]. reflexivity.
      - f_equal. rewrite Z.mod_small by lia. lia. }
    rewrite S0. cbn [kbind]. rewrite Nat2Z.id, seq_shift_map. f_equal. f_equal. unfold window_end.
    assert (E : (if checked then Z.of_nat (a - p) + Z.of_nat size else (Z.of_nat (a - p) + Z.of_nat size) mod 2 ^ 64)%Z = Z.of_nat (a - p + size)).
    { destruct checked; [lia|]. rewrite Z.mod_small by lia. lia. }
    rewrite E. destruct (Z.ltb_spec (Z.of_nat x) (Z.of_nat (a - p + size))); lia.
Qed.
Lemma visited_in i s p size x h : p <= i * s -> (In h (visited i s p size x) <-> h < x /\ i * s <= h + p /\ h + p < i * s + size).
Proof. intros H. unfold visited. rewrite in_seq. set (a := i * s) in *. clearbody a. lia. Qed.

Lemma position_ravel batch ch xh xw b c h w : w + xw * (h + xh * (c + b * ch)) = ravel [batch; ch; xh; xw] [b; c; h; w].
Proof. unfold ravel. cbn [prod fold_right]. ring_simplify. lia. Qed.

Lemma StronglySorted_app (l1 l2 : list nat) : StronglySorted lt l1 -> StronglySorted lt l2 -> (forall a b, In a l1 -> In b l2 -> a < b) -> StronglySorted lt (l1 ++ l2).
Proof.
  induction l1 as [|a l1 IH]; intros S1 S2 H; simpl; [exact S2|]. inversion S1 as [|? ? S1' F1]; subst. constructor.
  - apply IH; [exact S1'|exact S2|]. intros x y Hx Hy. apply H; simpl; auto.
  - apply Forall_app. split; [exact F1|]. apply Forall_forall. intros y Hy. apply H; simpl; auto.
Qed.
Lemma seq_sorted a n : StronglySorted lt (seq a n).
Proof.
  revert a. induction n as [|n IH]; intros a; simpl; constructor; [apply IH|]. apply Forall_forall. intros x Hx. apply in_seq in Hx. lia.
Qed.
Lemma map_sorted f l : (forall a b, a < b -> f a < f b) -> StronglySorted lt l -> StronglySorted lt (map f l).
Proof.
  intros M. induction l as [|a l IH]; intros S; simpl; constructor; inversion S as [|? ? S' F]; subst; [auto|].
  apply Forall_forall. intros y Hy. apply in_map_iff in Hy. destruct Hy as (z & <- & Hz). apply M. rewrite Forall_forall in F. auto.
Qed.
Lemma positions_sorted xh xw ch b c rows cols : StronglySorted lt rows -> StronglySorted lt cols -> (forall w, In w cols -> w < xw) ->
  StronglySorted lt (window_positions xh xw ch b c rows cols).
Proof.
  intros SR SC HC. unfold window_positions. induction rows as [|h rows IH]; simpl; [constructor|]. inversion SR as [|? ? SR' F]; subst.
  apply StronglySorted_app; [|apply IH; exact SR'|].
  - apply map_sorted; [intros; lia|exact SC].
  - intros x y Hx Hy. apply in_map_iff in Hx. destruct Hx as (w & <- & Hw). apply in_flat_map in Hy. destruct Hy as (h' & Hh' & Hy).
    apply in_map_iff in Hy. destruct Hy as (w' & <- & Hw'). rewrite Forall_forall in F. specialize (F h' Hh'). specialize (HC w Hw).
    set (k := xh * (c + b * ch)). assert (xw * (S h + k) <= xw * (h' + k)) by (apply Nat.mul_le_mono_l; lia). lia.
Qed.
Lemma positions_in xh xw ch b c rows cols k :
  In k (window_positions xh xw ch b c rows cols) <-> exists h w, In h rows /\ In w cols /\ k = w + xw * (h + xh * (c + b * ch)).
Proof.
  unfold window_positions. rewrite in_flat_map. split.
  - intros (h & Hh & Hk). apply in_map_iff in Hk. destruct Hk as (w & <- & Hw). eauto.
  - intros (h & w & Hh & Hw & ->). exists h. split; [exact Hh|]. apply in_map_iff. eauto.
Qed.
Lemma sorted_split (l1 l2 : list nat) k k' : StronglySorted lt (l1 ++ k :: l2) -> In k' (l1 ++ k :: l2) -> k' < k -> In k' l1.
Proof.
  induction l1 as [|a l1 IH]; simpl; intros S H Lt.
  - destruct H as [->|H]; [lia|]. inversion S as [|? ? _ F]; subst. rewrite Forall_forall in F. specialize (F _ H). lia.
  - inversion S; subst. destruct H as [->|H]; auto.
Qed.

(** ** The scan *)
Lemma scan_generic {A} (gt : A -> A -> bool) data l m : (forall k, In k l -> exists v, nth_error data k = Some v /\ gt v (fst m) = false) -> scan gt data l m = KOk m.
Proof.
  induction l as [|k l IH]; intros H; simpl; [reflexivity|]. destruct (H k) as (v & E & G); [simpl; auto|]. rewrite E. simpl. rewrite G. apply IH. intros k' Hk'. apply H. simpl. auto.
Qed.
Definition rgt (a b : R) : bool := if Rlt_dec b a then true else false.
Lemma rgt_spec a b : rgt a b = true <-> (b < a)%R.
Proof. unfold rgt. destruct (Rlt_dec b a); split; intros; auto; try discriminate; contradiction. Qed.
Lemma scan_spec data l : forall m, (forall k, In k l -> k < length data) ->
  exists m', scan rgt data l m = KOk m' /\
    ((m' = m /\ forall k, In k l -> (nth k data 0 <= fst m)%R) \/
     exists l1 k l2, l = l1 ++ k :: l2 /\ m' = (nth k data 0%R, k) /\ (fst m < nth k data 0)%R /\
       (forall k', In k' l1 -> (nth k' data 0 < nth k data 0)%R) /\ (forall k', In k' l2 -> (nth k' data 0 <= nth k data 0)%R)).
Proof.
  induction l as [|k l IH]; intros m H; simpl.
  - exists m. split; [reflexivity|]. left. split; [reflexivity|]. intros k [].
  - rewrite (nth_error_nth' data 0%R) by (apply H; simpl; auto). simpl.
    destruct (rgt (nth k data 0%R) (fst m)) eqn:G.
    + apply rgt_spec in G. destruct (IH (nth k data 0%R, k)) as (m' & E & C); [intros; apply H; simpl; auto|]. exists m'. split; [exact E|]. right. cbn [fst] in C.
      destruct C as [(-> & C)|(l1 & k2 & l2 & -> & -> & C1 & C2 & C3)].
      * exists [], k, l. split; [reflexivity|]. split; [reflexivity|]. split; [exact G|]. split; [intros ? []|exact C].
      * exists (k :: l1), k2, l2. split; [reflexivity|]. split; [reflexivity|]. split; [lra|]. split; [|exact C3]. intros k' [<-|Hk']; [exact C1|auto].
    + assert (G' : (nth k data 0 <= fst m)%R) by (destruct (Rle_or_lt (nth k data 0%R) (fst m)) as [Q|Q]; [exact Q|apply rgt_spec in Q; congruence]).
      destruct (IH m) as (m' & E & C); [intros; apply H; simpl; auto|]. exists m'. split; [exact E|].
      destruct C as [(-> & C)|(l1 & k2 & l2 & -> & -> & C1 & C2 & C3)].
      * left. split; [reflexivity|]. intros k' [<-|Hk']; auto.
      * right. exists (k :: l1), k2, l2. split; [reflexivity|]. split; [reflexivity|]. split; [exact C1|]. split; [|exact C3]. intros k' [<-|Hk']; [lra|auto].
Qed.
Lemma scan_unique data l m k : (forall k, In k l -> k < length data) -> In k l -> (fst m < nth k data 0)%R ->
  (forall k', In k' l -> k' <> k -> (nth k' data 0 < nth k data 0)%R) -> scan rgt data l m = KOk (nth k data 0%R, k).
Proof.
  intros H Hk Hm U. destruct (scan_spec data l m H) as (m' & E & [(-> & C)|(l1 & k2 & l2 & -> & -> & C1 & C2 & C3)]).
  - specialize (C k Hk). lra.
  - rewrite E. destruct (Nat.eq_dec k2 k) as [->|N]; [reflexivity|]. assert (Hk2 : In k2 (l1 ++ k2 :: l2)) by (apply in_or_app; simpl; auto). specialize (U k2 Hk2 N).
    apply in_app_or in Hk. destruct Hk as [Hk|[->|Hk]]; [specialize (C2 k Hk); lra|contradiction|specialize (C3 k Hk); lra].
Qed.

(** ** The loop over all outputs *)
Lemma pool_loop_value {A} (lowest : A) gt bits checked p s size ch xh xw yh yw data (win : list nat -> A * nat) ixs : forall pre old prei oldi,
  map (out_index ch yh yw) ixs = seq (length pre) (length ixs) -> length prei = length pre -> length old = length ixs -> length oldi = length ixs ->
  (forall ix, In ix ixs -> pool_window lowest gt checked p s size ch xh xw data ix = KOk (win ix)) ->
  pool_loop lowest gt bits checked p s size ch xh xw yh yw data ixs (pre ++ old, prei ++ oldi) =
    KOk (pre ++ map (fun ix => fst (win ix)) ixs, prei ++ map (fun ix => float_index bits (snd (win ix))) ixs).
Proof.
  induction ixs as [|ix ixs IH]; intros pre old prei oldi HO HP HL HI HW; simpl.
  - destruct old; [|discriminate HL]. destruct oldi; [|discriminate HI]. reflexivity.
  - rewrite HW by (simpl; auto). cbn [kbind]. destruct old as [|o old]; [discriminate HL|]. destruct oldi as [|oi oldi]; [discriminate HI|].
    simpl in HO. injection HO as HO1 HO2. rewrite HO1. rewrite put_at. cbn [kopt kbind fst snd]. rewrite <- HP, put_at. cbn [kopt kbind].
    assert (EL : forall (B : Type) (l : list B) v post, l ++ v :: post = (l ++ [v]) ++ post) by (intros; rewrite <- app_assoc; reflexivity).
    rewrite (EL _ pre), (EL _ prei). rewrite IH.
    + rewrite <- !app_assoc. reflexivity.
    + rewrite HO2, app_length. simpl. f_equal. lia.
    + rewrite !app_length. simpl. lia.
    + simpl in HL. lia.
    + simpl in HI. lia.
    + intros ix' H'. apply HW. simpl. auto.
Qed.
Lemma out_index_ravel batch ch yh yw ix : in_bounds [batch; ch; yh; yw] ix -> out_index ch yh yw ix = ravel [batch; ch; yh; yw] ix.
Proof.
  intros H. assert (L : length ix = 4) by (rewrite (in_bounds_length _ _ H); reflexivity).
  destruct ix as [|b [|c [|i [|j [|? ?]]]]]; try discriminate L. apply position_ravel.
Qed.
Lemma max_pool2d_windows {A} (lowest : A) gt bits uninit checked p s size batch ch xh xw yh yw x (win : list nat -> A * nat) :
  a_shape x = [batch; ch; xh; xw] -> pool_out_size xh p s size = KOk yh -> pool_out_size xw p s size = KOk yw ->
  (forall ix, in_bounds [batch; ch; yh; yw] ix -> pool_window lowest gt checked p s size ch xh xw (a_data x) ix = KOk (win ix)) ->
  max_pool2d lowest gt bits uninit checked p s size x =
    KOk (tab [batch; ch; yh; yw] (fun ix => fst (win ix)), tab [batch; ch; yh; yw] (fun ix => float_index bits (snd (win ix)))).
Proof.
  intros Sx Eh Ew HW. unfold max_pool2d. rewrite Sx, Eh, Ew. cbn [kbind].
  assert (P : batch * ch * yh * yw = length (indices [batch; ch; yh; yw])) by (rewrite indices_length; simpl; lia).
  rewrite P. pose proof (pool_loop_value lowest gt bits checked p s size ch xh xw yh yw (a_data x) win (indices [batch; ch; yh; yw]) []
    (map uninit (seq 0 (length (indices [batch; ch; yh; yw])))) [] (repeat 0 (length (indices [batch; ch; yh; yw])))) as Q.
  rewrite !app_nil_l in Q. rewrite Q; [reflexivity| |reflexivity|rewrite map_length, seq_length; reflexivity|apply repeat_length|].
  - rewrite (map_ext_in _ (ravel [batch; ch; yh; yw])); [rewrite ravel_indices, indices_length; reflexivity|]. intros ix Hix. apply out_index_ravel. apply indices_in. exact Hix.
  - intros ix Hix. apply HW. apply indices_in. exact Hix.
Qed.

(** ** Scatter and gather *)
Lemma scatter_value pos : forall gx gy, length gy = length pos -> (forall k, In k pos -> k < length gx) ->
  exists gx', scatter Rplus gx gy pos (length pos) = KOk gx' /\ length gx' = length gx /\
    forall m, nth m gx' 0%R = (nth m gx 0 + rsum (combine pos gy) (fun e => if fst e =? m then snd e else 0))%R.
Proof.
  induction pos as [|k pos IH]; intros gx gy L H.
  - destruct gy; [|discriminate L]. exists gx. split; [reflexivity|]. split; [reflexivity|]. intros m. simpl. unfold sumf. simpl. lra.
  - destruct gy as [|g gy]; [discriminate L|]. simpl in L. injection L as L. cbn [length scatter]. rewrite (nth_error_nth' gx 0%R) by (apply H; simpl; auto). cbn [kopt kbind].
    destruct (put_some gx k (nth k gx 0%R + g)%R) as (gx1 & E & L1 & G1); [apply H; simpl; auto|]. rewrite E. cbn [kopt kbind].
    destruct (IH gx1 gy L) as (gx' & E' & L' & G'); [intros k' Hk'; rewrite L1; apply H; simpl; auto|].
    exists gx'. split; [exact E'|]. split; [congruence|]. intros m. rewrite G', G1. cbn [combine]. unfold sumf. cbn [map fold_right fst snd]. rewrite (Nat.eqb_sym k m). destruct (Nat.eqb_spec m k) as [->|N]; lra.
Qed.
Lemma scatter_outside gx gy pos n k : In k (firstn n pos) -> n <= length gy -> length gx <= k -> scatter Rplus gx gy pos n = KFault.
Proof.
  revert gx gy pos. induction n as [|n IH]; intros gx gy pos Hk L B; [destruct Hk|].
  destruct pos as [|k0 pos]; [destruct Hk|]. destruct gy as [|g gy]; [simpl in L; lia|]. cbn [scatter].
  destruct (nth_error gx k0) as [v|] eqn:E; cbn [kopt kbind]; [|reflexivity].
  assert (k0 < length gx) by (apply nth_error_Some; congruence). destruct (put_some gx k0 (v + g)%R) as (gx1 & E1 & L1 & _); [assumption|]. rewrite E1. cbn [kopt kbind].
  destruct Hk as [->|Hk]; [lia|]. apply IH; [exact Hk|simpl in L; lia|congruence || lia].
Qed.
Lemma gather_value {A} (d : A) data pos : (forall k, In k pos -> k < length data) -> gather_at data pos (length pos) = KOk (map (fun k => nth k data d) pos).
Proof.
  induction pos as [|k pos IH]; intros H; [reflexivity|]. cbn [length gather_at map]. rewrite (nth_error_nth' data d) by (apply H; simpl; auto). cbn [kopt kbind].
  rewrite IH by (intros; apply H; simpl; auto). reflexivity.
Qed.
