(** The filter gradients of conv2d and conv2d_transpose. *)
From Coq Require Import List Arith ZArith Bool Lia Reals Lra RealField.
Import ListNotations.
From Verif Require Import Eval_Proofs Array_Model Array_Proofs Array_Sum Vjp_Spec Vjp_Proofs Dot_Spec Dot_Proofs Kernel_Model Kernel_Proofs Conv_Model Conv_Loops Conv_Spec Conv_Proofs Conv_Forward Conv_Backward.

Lemma Forall2_inv_head {X Y} {P : X -> Y -> Prop} {a b l l'} : Forall2 P (a :: l) (b :: l') -> P a b. Proof. intros H. inversion H. assumption. Qed.
Lemma Forall2_inv_tail {X Y} {P : X -> Y -> Prop} {a b l l'} : Forall2 P (a :: l) (b :: l') -> Forall2 P l l'. Proof. intros H. inversion H. assumption. Qed.
(** Products accumulated over the batch; the first one overwrites. *)
Lemma accumulate_gemm (m : mem) (q k n A ga gc : nat) (G C : nat -> nat -> nat -> R) : A <> OUT ->
  (forall i, i < prod [q; n] -> load m (OUT, z i) <> None) -> forall nb,
  (forall b o l, b < nb -> o < q -> l < k -> load m (A, z (b * ga + o * k + l)) = Some (G b o l)) ->
  (forall b j l, b < nb -> j < n -> l < k -> load m (COLS, z (b * gc + j * k + l)) = Some (C b j l)) ->
  exists m', rexec m (flat_map (fun i => gemm_call q k n (A, z (i * ga)) (z k) 1%Z (COLS, z (i * gc)) 1%Z (z k) (negb (i =? 0)) (OUT, 0%Z) (z n) 1%Z) (seq 0 nb)) = Some m' /\
    (0 < nb -> forall o j, o < q -> j < n -> load m' (OUT, z (ravel [q; n] [o; j])) = Some (rsum (seq 0 nb) (fun b => rsum (seq 0 k) (fun l => G b o l * C b j l)))%R) /\
    (forall a, fst a <> OUT -> load m' a = load m a) /\
    (forall i, i < prod [q; n] -> load m' (OUT, z i) <> None) /\
    load m' (OUT, z (prod [q; n])) = load m (OUT, z (prod [q; n])) /\
    (nb = 0 -> m' = m).
Proof.
  intros NA HO. induction nb as [|nb IH]; intros HG HC.
  - exists m. split; [reflexivity|]. split; [lia|]. auto.
  - destruct IH as (m1 & E1 & V1 & O1 & D1 & N1 & _); [intros; apply HG; lia|intros; apply HC; lia|].
    rewrite seq_S, flat_map_app, exec_app. rewrite E1. cbn [flat_map]. rewrite app_nil_r. simpl Nat.add. rewrite gemm_closed.
    set (ins := gemm_ins q k n (A, z (nb * ga)) (z k) 1%Z (COLS, z (nb * gc)) 1%Z (z k) (negb (nb =? 0)) (OUT, 0%Z)).
    set (S := fun nb o j => rsum (seq 0 nb) (fun b => rsum (seq 0 k) (fun l => G b o l * C b j l))%R).
    destruct (exec_fill OUT [q; n] ins (fun i => match i with [o; j] => S (nb + 1) o j | _ => 0%R end) m1) as (m2 & E2 & V2 & O2 & N2).
    + intros i Hi. unfold ins, gemm_ins. cbn [dest fst snd]. f_equal.
    + intros i a Hi Ha.
      assert (Q : a = dest (ins i) \/ In a (reads (Gemm (dest (ins i)) false (map (fun l => ((A, z (nb * ga) + z (nth 0 i 0%nat) * z k + z l * 1)%Z, (COLS, z (nb * gc) + z l * 1 + z (nth 1 i 0%nat) * z k)%Z)) (seq 0 k))))).
      { unfold ins, gemm_ins in Ha |- *. cbn [reads dest fst snd] in Ha |- *. destruct (negb (nb =? 0)); [destruct Ha as [<-|Ha]; [left; reflexivity|right; exact Ha]|right; exact Ha]. }
      destruct Q as [Q|Q]; [right; exact Q|left]. cbn [reads] in Q. rewrite !map_map in Q. cbn [fst snd] in Q.
      apply in_app_or in Q. destruct Q as [Q|Q]; apply in_map_iff in Q; destruct Q as (l & <- & _); cbn [fst]; [exact NA|discriminate].
    + intros i Hi. apply pair_bounds in Hi. destruct Hi as (o & j & -> & Ho & Hj). unfold ins, gemm_ins. cbn [nth fst snd value].
      assert (PS : forall s, products Rplus Rmult m1 (map (fun l => ((A, z (nb * ga) + z o * z k + z l * 1)%Z, (COLS, z (nb * gc) + z l * 1 + z j * z k)%Z)) (seq 0 k)) s =
        Some (s + rsum (seq 0 k) (fun l => G nb o l * C nb j l))%R).
      { intros s. apply (products_sum m1 (seq 0 k) _ _ (fun l => G nb o l) (fun l => C nb j l)).
        - intros l Hl. apply in_seq in Hl. rewrite O1 by exact NA. rewrite <- HG by lia. f_equal. f_equal. lia.
        - intros l Hl. apply in_seq in Hl. rewrite O1 by discriminate. rewrite <- HC by lia. f_equal. f_equal. lia. }
      assert (SS : S (nb + 1) o j = (S nb o j + rsum (seq 0 k) (fun l => G nb o l * C nb j l))%R).
      { unfold S. rewrite seq_app, (sum_app 0%R 1%R Rplus Rmult Rminus Ropp RT). simpl seq. cbn [sumf fold_right]. ring. }
      rewrite SS. destruct (Nat.eqb_spec nb 0) as [E0|N0]; cbn [negb].
      * rewrite PS. subst nb. f_equal.
      * replace (0 + z (ravel [q; n] [o; j]))%Z with (z (ravel [q; n] [o; j])) by lia. rewrite V1 by (auto; lia). rewrite PS. reflexivity.
    + exact D1.
    + exists m2. split; [exact E2|]. split; [|split; [|split; [|split; [|lia]]]].
      * intros _ o j Ho Hj. rewrite (V2 [o; j]) by (repeat constructor; assumption). replace (nb + 1) with (Datatypes.S nb) by lia. unfold S. rewrite seq_S. reflexivity.
      * intros a Ha. rewrite O2 by exact Ha. apply O1. exact Ha.
      * intros i Hi. specialize (V2 (nth i (indices [q; n]) [])). rewrite ravel_nth in V2 by exact Hi. rewrite V2; [discriminate|].
        apply indices_in. apply nth_In. rewrite indices_length. exact Hi.
      * rewrite N2. exact N1.
Qed.

Definition filter_array (batch xch ych kh kw yh yw p s d : nat) (x y : arr R) : arr R :=
  tab [ych; xch; kh; kw] (fun i => match i with [o; c; ki; kj] => filter_gradient batch yh yw p s d x y o c ki kj | _ => 0%R end).
Definition conv_array (batch xch ych kh kw yh yw p s d : nat) (x w : arr R) : arr R :=
  tab [batch; ych; yh; yw] (fun i => match i with [b; o; i; j] => correlation xch kh kw p s d x w b o i j | _ => 0%R end).
Definition cols_array (batch xch kh kw yh yw p s d : nat) (x : arr R) : arr R :=
  Arr [batch; xch; kw; kh; yh; yw] (a_data (tab [batch; xch; kh; kw; yh; yw] (fun i => match i with b :: idx => column p s d x b idx | [] => 0%R end))).

Section Filter.
  Variables (batch xch ych kh kw p s d yh yw : nat).
  Notation csh := [xch; kh; kw; yh; yw].
  Notation k := (yh * yw).
  Notation n := (kh * kw * xch).
  Notation cs := (xch * kw * kh * yh * yw).
  Lemma pk : prod [xch; kh; kw] = n. Proof. simpl prod. lia. Qed.
  Lemma pn : prod [yh; yw] = k. Proof. simpl prod. lia. Qed.
  Lemma pcs : cs = n * k. Proof. lia. Qed.
  Notation T j := (nth j (indices [xch; kh; kw]) []).
  Notation U l := (nth l (indices [yh; yw]) []).
  Lemma Tin j : j < n -> in_bounds [xch; kh; kw] (T j).
  Proof. intros H. apply indices_in. apply nth_In. rewrite indices_length, pk. exact H. Qed.
  Lemma Uin l : l < k -> in_bounds [yh; yw] (U l).
  Proof. intros H. apply indices_in. apply nth_In. rewrite indices_length, pn. exact H. Qed.

  (** The accumulated products, wherever the batch items are. *)
  Lemma filter_gemm_at (m : mem) (A gc : nat) (y : arr R) (F : nat -> list nat -> R) : A <> OUT -> 0 < batch ->
    (forall i, in_bounds [batch; ych; yh; yw] i -> load m (A, z (ravel [batch; ych; yh; yw] i)) = Some (rget y i)) ->
    (forall b idx, in_bounds (batch :: csh) (b :: idx) -> load m (COLS, z (b * gc + ravel csh idx)) = Some (F b idx)) ->
    (forall i, i < ych * n -> load m (OUT, z i) <> None) -> load m (OUT, z (ych * n)) = None ->
    exists m', rexec m (flat_map (fun i => gemm_call ych k n (A, z (i * (ych * yh * yw))) (z k) 1%Z (COLS, z (i * gc)) 1%Z (z k) (negb (i =? 0)) (OUT, 0%Z) (z n) 1%Z) (seq 0 batch)) = Some m' /\
      nth OUT m' [] = a_data (tab [ych; xch; kh; kw] (fun i => match i with [o; c; ki; kj] =>
        sum_below batch (fun b => sum_below yh (fun i => sum_below yw (fun j => rget y [b; o; i; j] * F b [c; ki; kj; i; j]))) | _ => 0 end))%R.
  Proof.
    intros NA PB HY HC HO HN.
    destruct (accumulate_gemm m ych k n A (ych * yh * yw) gc (fun b o l => rget y (b :: o :: U l)) (fun b j l => F b (T j ++ U l)) NA) with (nb := batch) as (m' & E & V & _ & _ & N & _).
    - intros i Hi. apply HO. replace (ych * n) with (prod [ych; n]) by (cbn [prod fold_right]; lia). exact Hi.
    - intros b o l Hb Ho Hl. rewrite <- HY by (constructor; [exact Hb|constructor; [exact Ho|apply Uin; exact Hl]]). f_equal. f_equal.
      change (ravel [batch; ych; yh; yw] (b :: o :: U l)) with (b * (ych * prod [yh; yw]) + (o * prod [yh; yw] + ravel [yh; yw] (U l))).
      rewrite ravel_nth by (rewrite pn; exact Hl). rewrite pn. lia.
    - intros b j l Hb Hj Hl. rewrite <- HC by (constructor; [exact Hb|exact (in_bounds_app _ _ _ _ (Tin j Hj) (Uin l Hl))]). f_equal. f_equal.
      change csh with ([xch; kh; kw] ++ [yh; yw]). rewrite ravel_app by (apply (in_bounds_length _ _ (Tin j Hj))).
      rewrite !ravel_nth by (rewrite ?pn, ?pk; assumption). rewrite pn. lia.
    - exists m'. split; [exact E|]. apply buffer_tab.
      + intros i Hi. inversion Hi as [|o ? t ? Ho Ht]; subst.
        pose proof (ravel_lt _ _ Ht) as Lt. rewrite pk in Lt.
        replace (ravel [ych; xch; kh; kw] (o :: t)) with (ravel [ych; n] [o; ravel [xch; kh; kw] t]).
        2: { change (ravel [ych; xch; kh; kw] (o :: t)) with (o * prod [xch; kh; kw] + ravel [xch; kh; kw] t). rewrite pk. cbn [ravel prod fold_right]. lia. }
        rewrite V by assumption. f_equal.
        assert (L3 : length t = 3) by (rewrite (in_bounds_length _ _ Ht); reflexivity). rewrite (nth_error_nth _ _ [] (nth_indices _ _ Ht)).
        destruct t as [|c [|ki [|kj [|? ?]]]]; try discriminate L3.
        rewrite sum_below_rsum. apply sum_ext. intros b _. rewrite <- pn, rsum_ravel, rsum_cons, sum_below_rsum. apply sum_ext. intros i Hi'. apply in_seq in Hi'.
        rewrite rsum_cons, sum_below_rsum. apply sum_ext. intros j Hj. apply in_seq in Hj. change (indices []) with [@nil nat]. cbn [sumf fold_right].
        rewrite (nth_error_nth (indices [yh; yw]) (ravel [yh; yw] [i; j]) [] (nth_indices [yh; yw] [i; j] ltac:(repeat constructor; lia))).
        cbn [app]. ring.
      + replace (prod [ych; xch; kh; kw]) with (prod [ych; n]) by (cbn [prod fold_right]; lia). rewrite N.
        replace (prod [ych; n]) with (ych * n) by (cbn [prod fold_right]; lia). exact HN.
  Qed.
  Lemma filter_gemm (m : mem) (A gc : nat) (x y : arr R) : A <> OUT -> 0 < batch ->
    (forall i, in_bounds [batch; ych; yh; yw] i -> load m (A, z (ravel [batch; ych; yh; yw] i)) = Some (rget y i)) ->
    (forall b idx, in_bounds (batch :: csh) (b :: idx) -> load m (COLS, z (b * gc + ravel csh idx)) = Some (column p s d x b idx)) ->
    (forall i, i < ych * n -> load m (OUT, z i) <> None) -> load m (OUT, z (ych * n)) = None ->
    exists m', rexec m (flat_map (fun i => gemm_call ych k n (A, z (i * (ych * yh * yw))) (z k) 1%Z (COLS, z (i * gc)) 1%Z (z k) (negb (i =? 0)) (OUT, 0%Z) (z n) 1%Z) (seq 0 batch)) = Some m' /\
      nth OUT m' [] = a_data (filter_array batch xch ych kh kw yh yw p s d x y).
  Proof.
    intros NA PB HY HC HO HN. destruct (filter_gemm_at m A gc y (column p s d x) NA PB HY HC HO HN) as (m' & E & V). exists m'. split; [exact E|].
    rewrite V. unfold filter_array. reflexivity.
  Qed.

  Theorem conv2d_filter_grad_value u x gy w : 0 < batch -> has_shape [batch; ych; yh; yw] gy -> a_shape w = [ych; xch; kh; kw] ->
    conv2d_filter_grad 0%R Rplus Rmult u (cols_array batch xch kh kw yh yw p s d x) gy w = KOk (filter_array batch xch ych kh kw yh yw p s d x gy).
  Proof.
    intros PB Hg Sw. unfold conv2d_filter_grad. rewrite (proj1 Hg), Sw. cbn [cols_array a_shape a_data].
    set (D := a_data (tab [batch; xch; kh; kw; yh; yw] (fun i => match i with b :: idx => column p s d x b idx | [] => 0%R end))).
    set (m0 := [a_data gy; []; D; fresh u (ych * xch * kh * kw)]).
    destruct (filter_gemm m0 IN cs x gy ltac:(discriminate) PB) as (m' & E & V).
    - intros i Hi. apply (load_array m0 IN gy); [reflexivity|exact Hg|exact Hi].
    - intros b idx Hi.
      replace (b * cs + ravel csh idx) with (ravel (batch :: csh) (b :: idx)) by (cbn [ravel]; rewrite (cs_prod xch kh kw yh yw); lia).
      rewrite (load_array m0 COLS (tab [batch; xch; kh; kw; yh; yw] (fun i => match i with b :: idx => column p s d x b idx | [] => 0%R end)) (batch :: csh));
        [rewrite aget_tab by exact Hi; reflexivity|reflexivity|apply tab_has_shape|exact Hi].
    - intros i Hi. rewrite (load_data m0 OUT (fresh u (ych * xch * kh * kw))) by reflexivity. apply nth_error_Some. rewrite fresh_length. lia.
    - rewrite (load_data m0 OUT (fresh u (ych * xch * kh * kw))) by reflexivity. apply nth_error_None. rewrite fresh_length. lia.
    - rewrite E, V. unfold filter_array, tab. reflexivity.
  Qed.

  Lemma dot_filter x y w : has_shape [batch; ych; yh; yw] y -> has_shape [ych; xch; kh; kw] w ->
    dot (filter_array batch xch ych kh kw yh yw p s d x y) w = dot y (conv_array batch xch ych kh kw yh yw p s d x w).
  Proof.
    intros Hy Hw. rewrite (dot_sum [ych; xch; kh; kw]) by (exact Hw || apply tab_has_shape). rewrite (dot_sum [batch; ych; yh; yw]) by (exact Hy || apply tab_has_shape).
    rewrite (sum_ext 0%R Rplus (indices [batch; ych; yh; yw]) _ (fun i => match i with b :: o :: v => rsum (indices [xch; kh; kw]) (fun t => rget y (b :: o :: v) * (rget w (o :: t) * column p s d x b (t ++ v))) | _ => 0 end)%R).
    2: { intros i Hi. apply indices_in in Hi. unfold conv_array. rewrite aget_tab by exact Hi. assert (L : length i = 4) by (rewrite (in_bounds_length _ _ Hi); reflexivity).
         destruct i as [|b [|o [|i [|j [|? ?]]]]]; try discriminate L. rewrite <- sum_correlation. rewrite <- (sum_scale 0%R 1%R Rplus Rmult Rminus Ropp RT). reflexivity. }
    rewrite (sum_ext 0%R Rplus (indices [ych; xch; kh; kw]) _ (fun i => match i with o :: t => rsum (seq 0 batch) (fun b => rsum (indices [yh; yw]) (fun v => rget y (b :: o :: v) * (rget w (o :: t) * column p s d x b (t ++ v)))) | _ => 0 end)%R).
    2: { intros i Hi. apply indices_in in Hi. unfold filter_array. rewrite aget_tab by exact Hi. assert (L : length i = 4) by (rewrite (in_bounds_length _ _ Hi); reflexivity).
         destruct i as [|o [|c [|ki [|kj [|? ?]]]]]; try discriminate L. unfold filter_gradient. rewrite sum_below_rsum, <- (sum_scale_r 0%R 1%R Rplus Rmult Rminus Ropp RT). apply sum_ext. intros b _.
         rewrite sum_below_rsum, rsum_cons, <- (sum_scale_r 0%R 1%R Rplus Rmult Rminus Ropp RT). apply sum_ext. intros i _.
         rewrite sum_below_rsum, rsum_cons, <- (sum_scale_r 0%R 1%R Rplus Rmult Rminus Ropp RT). apply sum_ext. intros j _.
         cbn [indices flat_map map sumf fold_right app column]. unfold under, tap. ring. }
    rewrite rsum_cons. rewrite (rsum_cons batch). 
    rewrite (sum_ext 0%R Rplus (seq 0 ych) _ (fun o => rsum (seq 0 batch) (fun b => rsum (indices [xch; kh; kw]) (fun t => rsum (indices [yh; yw]) (fun v => rget y (b :: o :: v) * (rget w (o :: t) * column p s d x b (t ++ v))))))%R).
    2: { intros o _. apply (sum_swap 0%R 1%R Rplus Rmult Rminus Ropp RT). }
    rewrite (sum_swap 0%R 1%R Rplus Rmult Rminus Ropp RT). apply sum_ext. intros b _. rewrite rsum_cons. apply sum_ext. intros o _.
    apply (sum_swap 0%R 1%R Rplus Rmult Rminus Ropp RT).
  Qed.

  (** conv2d_transpose_filter_grad: the columns of the images are right, but the
      items are taken [yh * yh * kh * kw * xch] apart. *)
  Section TransposedFilter.
    Variables (xh xw : nat) (u : nat -> R).
    Hypothesis Hyh : u_out_size xh p s d kh = KOk yh.
    Hypothesis Hyw : u_out_size xw p s d kw = KOk yw.
    Hypothesis Fit : in_i32 [xh + 2 * p + s; xw + 2 * p + s; xh * xw; cs].
    Hypothesis Pos : 0 < batch /\ 0 < xch /\ 0 < ych /\ 0 < xh /\ 0 < xw.
    Lemma tf_fit2 : in_i32 [xh + 2 * p + s; xw + 2 * p + s].
    Proof. inversion Fit as [|? ? F1 F2]; subst. inversion F2; subst. repeat constructor; assumption. Qed.
    Notation gc := (yh * yh * kh * kw * xch).

    Theorem transpose_filter_at gy x w : has_shape [batch; xch; xh; xw] gy -> has_shape [batch; ych; yh; yw] x -> a_shape w = [ych; xch; kh; kw] ->
      yh <= yw \/ batch = 1 ->
      let D := a_data (cols_array batch xch kh kw yh yw p s d gy) in
      conv2d_transpose_filter_grad 0%R Rplus Rmult u p s d gy x w = KOk (tab [ych; xch; kh; kw] (fun i => match i with [o; c; ki; kj] =>
        sum_below batch (fun b => sum_below yh (fun i => sum_below yw (fun j => rget x [b; o; i; j] * nth (b * gc + ravel csh [c; ki; kj; i; j]) D 0))) | _ => 0 end))%R.
    Proof.
      intros Hg Hx Sw Hle D. unfold conv2d_transpose_filter_grad. rewrite (proj1 Hg), (proj1 Hx), Sw, Hyh, Hyw. cbn [kbind].
      assert (AF := all_fit_ok _ Fit). cbn [map] in AF. rewrite AF. cbn [negb].
      pose proof (proj1 (u_out_size_ok _ _ _ _ _ _) Hyh) as (Hs & Hkh & Hyh0 & _). pose proof (proj1 (u_out_size_ok _ _ _ _ _ _) Hyw) as (_ & Hkw & Hyw0 & _).
      destruct Pos as (Pb & Px & Py & Ph & Pw).
      assert (Pcs : 0 < cs) by (repeat apply Nat.mul_pos_pos; assumption).
      rewrite any0_false by (repeat constructor; [repeat apply Nat.mul_pos_pos; assumption|exact Pcs]). rewrite Nat.eqb_refl. cbn [negb].
      set (m0 := [a_data gy; a_data x; fresh u (batch * cs); fresh u (ych * xch * kh * kw)]).
      assert (PC : prod (batch :: csh) = batch * cs) by (rewrite <- (cs_prod xch kh kw yh yw); reflexivity).
      destruct (im2col_all batch xch xh xw kh kw p s d yh yw Hyh Hyw tf_fit2 m0 gy (proj1 Hg)) as (m1 & E1 & C1 & O1 & N1).
      { intros i Hi. apply (load_array m0 IN gy); [reflexivity|exact Hg|exact Hi]. }
      { intros q Hq. rewrite (load_data m0 COLS (fresh u (batch * cs))) by reflexivity. apply nth_error_Some. rewrite fresh_length, <- PC. exact Hq. }
      unfold im2col_batch. cbv zeta. rewrite <- flat_map_concat_map. rewrite E1.
      assert (ED : nth COLS m1 [] = D).
      { apply (buffer_tab m1 COLS (batch :: csh)).
        - intros [|b idx] Hi; [inversion Hi|]. apply C1. exact Hi.
        - rewrite N1. rewrite (load_data m0 COLS (fresh u (batch * cs))) by reflexivity. apply nth_error_None. rewrite fresh_length, PC. lia. }
      assert (LD : length D = batch * cs).
      { unfold D, cols_array. cbn [a_data]. rewrite <- PC. apply (tab_wf (batch :: csh)). }
      assert (Le : forall b, b < batch -> b * gc <= b * cs).
      { intros b Hb. destruct Hle as [Hle|B1]; [|replace b with 0 by lia; lia]. apply Nat.mul_le_mono_l.
        replace gc with (yh * (kh * kw * xch) * yh) by lia. replace cs with (yh * (kh * kw * xch) * yw) by lia. apply Nat.mul_le_mono_l. exact Hle. }
      replace (forallb _ (seq 0 batch)) with true.
      2: { symmetry. apply forallb_forall. intros b Hb. apply in_seq in Hb. rewrite (proj2 Hx). apply andb_true_iff. rewrite !Nat.ltb_lt.
           assert (Pos1 : 0 < ych * yh * yw) by (repeat apply Nat.mul_pos_pos; assumption). specialize (Le b ltac:(lia)). split.
           - replace (prod [batch; ych; yh; yw]) with (batch * (ych * yh * yw)) by (simpl prod; lia). apply Nat.mul_lt_mono_pos_r; lia.
           - apply Nat.le_lt_trans with (b * cs); [exact Le|]. apply Nat.mul_lt_mono_pos_r; lia. }
      destruct (filter_gemm_at m1 FILTER gc x (fun b idx => nth (b * gc + ravel csh idx) D 0%R)) as (m2 & E2 & V2).
      - discriminate.
      - exact Pb.
      - intros i Hi. rewrite O1 by discriminate. apply (load_array m0 FILTER x); [reflexivity|exact Hx|exact Hi].
      - intros b idx Hi. inversion Hi as [|? ? ? ? Hb Hidx]; subst. pose proof (ravel_lt _ _ Hidx) as Lr. rewrite (cs_prod xch kh kw yh yw) in Lr.
        specialize (Le b Hb). set (r := ravel csh idx) in *.
        assert (Lt : b * gc + r < batch * cs) by (assert (b * cs + cs <= batch * cs) by (replace (b * cs + cs) with ((b + 1) * cs) by lia; apply Nat.mul_le_mono_r; lia); lia).
        rewrite (load_data m1 COLS D).
        + apply nth_error_nth'. rewrite LD. exact Lt.
        + rewrite <- ED. apply nth_error_nth'. destruct (Nat.lt_ge_cases COLS (length m1)) as [G|G]; [exact G|]. exfalso. rewrite (nth_overflow m1 [] G) in ED.
          rewrite <- ED in LD. simpl in LD. lia.
      - intros i Hi. rewrite O1 by discriminate. rewrite (load_data m0 OUT (fresh u (ych * xch * kh * kw))) by reflexivity. apply nth_error_Some. rewrite fresh_length. lia.
      - rewrite O1 by discriminate. rewrite (load_data m0 OUT (fresh u (ych * xch * kh * kw))) by reflexivity. apply nth_error_None. rewrite fresh_length. lia.
      - rewrite E2, V2. reflexivity.
    Qed.
    (** Square results (or a single image): the right gradient. *)
    Theorem transpose_filter_value gy x w : has_shape [batch; xch; xh; xw] gy -> has_shape [batch; ych; yh; yw] x -> a_shape w = [ych; xch; kh; kw] ->
      yh = yw \/ batch = 1 ->
      conv2d_transpose_filter_grad 0%R Rplus Rmult u p s d gy x w = KOk (filter_array batch xch ych kh kw yh yw p s d gy x).
    Proof.
      intros Hg Hx Sw Hsq. assert (Hle : yh <= yw \/ batch = 1) by lia. rewrite transpose_filter_at by assumption. f_equal. unfold filter_array. apply tab_ext.
      intros i Hi. assert (L : length i = 4) by (rewrite (in_bounds_length _ _ Hi); reflexivity). destruct i as [|o [|c [|ki [|kj [|? ?]]]]]; try discriminate L.
      unfold filter_gradient. apply sum_below_ext. intros b Hb. apply sum_below_ext. intros i Hi'. apply sum_below_ext. intros j Hj. f_equal.
      assert (HB : in_bounds (batch :: csh) [b; c; ki; kj; i; j]) by (pose proof (Forall2_inv_tail Hi) as B1; pose proof (Forall2_inv_tail B1) as B2; pose proof (Forall2_inv_tail B2) as B3; pose proof (Forall2_inv_head B1); pose proof (Forall2_inv_head B2); pose proof (Forall2_inv_head B3); repeat constructor; assumption).
      replace (b * gc + ravel csh [c; ki; kj; i; j]) with (ravel (batch :: csh) [b; c; ki; kj; i; j]).
      2: { cbn [ravel]. rewrite (cs_prod xch kh kw yh yw). destruct Hsq as [->|B1]; [f_equal; lia|replace b with 0 by lia; reflexivity]. }
      unfold cols_array. cbn [a_data].
      change (nth (ravel (batch :: csh) [b; c; ki; kj; i; j]) (a_data (tab (batch :: csh) (fun i => match i with b :: idx => column p s d gy b idx | [] => 0%R end))) 0%R)
        with (aget 0%R (tab (batch :: csh) (fun i => match i with b :: idx => column p s d gy b idx | [] => 0%R end)) [b; c; ki; kj; i; j]).
      rewrite aget_tab by exact HB. reflexivity.
    Qed.
  End TransposedFilter.
End Filter.

(** An execution that returns has read inside the buffers only. *)
Lemma products_reads (m : mem) l : forall s v, products Rplus Rmult m l s = Some v -> forall e, In e l -> load m (fst e) <> None /\ load m (snd e) <> None.
Proof.
  induction l as [|[a b] l IH]; intros s v E e He; [inversion He|]. cbn [products] in E. destruct (load m a) as [x|] eqn:Ea; [|discriminate].
  destruct (load m b) as [y|] eqn:Eb; [|discriminate]. destruct He as [<-|He]; [cbn [fst snd]; rewrite Ea, Eb; split; discriminate|]. exact (IH _ _ E e He).
Qed.
Lemma value_reads (m : mem) i v : rvalue m i = Some v -> forall a, In a (reads i) -> load m a <> None.
Proof.
  destruct i as [d s|d|d s|d beta l]; cbn [value reads]; intros E a Ha.
  - destruct Ha as [<-|[]]. congruence.
  - inversion Ha.
  - destruct (load m d) as [x|] eqn:Ed; [|discriminate]. destruct (load m s) as [y|] eqn:Es; [|discriminate]. destruct Ha as [<-|[<-|[]]]; congruence.
  - assert (P : exists s, products Rplus Rmult m l s = Some v) by (destruct beta; [destruct (load m d); [eauto|discriminate]|eauto]). destruct P as (s & P).
    assert (Q : (beta = true /\ a = d) \/ In a (map fst l ++ map snd l)) by (destruct beta; [destruct Ha as [<-|Ha]; [left; auto|right; exact Ha]|right; exact Ha]).
    destruct Q as [[-> ->]|Q]; [destruct (load m d); [discriminate|discriminate E]|].
    apply in_app_or in Q. destruct Q as [Q|Q]; apply in_map_iff in Q; destruct Q as (e & <- & He); apply (products_reads m l s v P e He).
Qed.
Lemma exec_reads (l : list instr) : forall (m m' : mem), rexec m l = Some m' -> forall i a, In i l -> In a (reads i) -> load m a <> None.
Proof.
  induction l as [|j l IH]; intros m m' E i a Hi Ha; [inversion Hi|]. cbn [exec] in E. destruct (exec1 0%R Rplus Rmult m j) as [m1|] eqn:E1; [|discriminate].
  unfold exec1 in E1. destruct (rvalue m j) as [v|] eqn:Ev; [|discriminate]. destruct Hi as [<-|Hi]; [exact (value_reads m j v Ev a Ha)|].
  pose proof (IH m1 m' E i a Hi Ha) as Q. rewrite (store_load _ _ _ _ E1) in Q. destruct (addr_eqb (dest j) a) eqn:Ea; [|exact Q].
  apply addr_eqb_ok in Ea. subst a. intros N. apply (store_defined m (dest j) v) in N. congruence.
Qed.

(** conv2d_with_cols on the columns of an image. *)
Section WithCols.
  Variables (batch xch ych kh kw p s d yh yw : nat) (u : nat -> R).
  Hypothesis Pos : 0 < xch /\ 0 < ych /\ 0 < kh /\ 0 < kw /\ 0 < yh /\ 0 < yw.
  Notation csh := [xch; kh; kw; yh; yw].
  Theorem conv2d_with_cols_value x w : has_shape [ych; xch; kh; kw] w ->
    conv2d_with_cols 0%R Rplus Rmult u (cols_array batch xch kh kw yh yw p s d x) w = KOk (conv_array batch xch ych kh kw yh yw p s d x w).
  Proof.
    intros Hw. unfold conv2d_with_cols. rewrite (proj1 Hw). cbn [cols_array a_shape a_data]. destruct Pos as (Px & Py & Pkh & Pkw & Pyh & Pyw).
    rewrite any0_false by (repeat constructor; repeat apply Nat.mul_pos_pos; assumption).
    set (X := tab [batch; xch; kh; kw; yh; yw] (fun i => match i with b :: idx => column p s d x b idx | [] => 0%R end)).
    set (m0 := [[]; a_data w; a_data X; fresh u (batch * (ych * yh * yw))]).
    assert (PO : prod [batch; ych; yh; yw] = batch * (ych * yh * yw)) by (simpl prod; rewrite Nat.mul_1_r, !Nat.mul_assoc; reflexivity).
    destruct (conv_gemm_all batch xch ych kh kw yh yw m0 (rget w) (column p s d x)) as (m2 & E2 & C2 & O2 & N2).
    { intros i Hi. apply (load_array m0 FILTER w); [reflexivity|exact Hw|exact Hi]. }
    { intros b idx Hi. rewrite (load_array m0 COLS X (batch :: csh)); [unfold X; rewrite aget_tab by exact Hi; reflexivity|reflexivity|apply tab_has_shape|exact Hi]. }
    { intros q Hq. rewrite (load_data m0 OUT (fresh u (batch * (ych * yh * yw)))) by reflexivity. apply nth_error_Some. rewrite fresh_length, <- PO. exact Hq. }
    rewrite E2. f_equal. unfold conv_array, tab at 1. f_equal.
    rewrite (buffer_tab m2 OUT [batch; ych; yh; yw] (fun i => match i with [b; o; i; j] => correlation xch kh kw p s d x w b o i j | _ => 0%R end)); [reflexivity| |].
    - intros i Hi. assert (L : length i = 4) by (rewrite (in_bounds_length _ _ Hi); reflexivity).
      destruct i as [|b [|o [|i [|j [|? ?]]]]]; try discriminate L. rewrite C2 by exact Hi. f_equal. apply sum_correlation.
    - rewrite N2. rewrite (load_data m0 OUT (fresh u (batch * (ych * yh * yw)))) by reflexivity. apply nth_error_None. rewrite fresh_length, PO. lia.
  Qed.
End WithCols.

(** A filter gradient of an empty batch is what the memory happened to contain. *)
Lemma conv2d_filter_grad_empty u cols gy w c1 c2 c3 c4 c5 ych yh yw xch kh kw :
  a_shape cols = [0; c1; c2; c3; c4; c5] -> a_shape gy = [0; ych; yh; yw] -> a_shape w = [ych; xch; kh; kw] ->
  conv2d_filter_grad 0%R Rplus Rmult u cols gy w = KOk (Arr [ych; xch; kh; kw] (map u (seq 0 (ych * xch * kh * kw)))).
Proof. intros Sc Sg Sw. unfold conv2d_filter_grad. rewrite Sc, Sg, Sw. reflexivity. Qed.

(** More rows than columns and two images or more: the last item's products read
    behind the columns. *)
Lemma transpose_filter_tall u batch xch ych xh xw kh kw p s d yh yw gy x w :
  u_out_size xh p s d kh = KOk yh -> u_out_size xw p s d kw = KOk yw -> in_i32 [xh + 2 * p + s; xw + 2 * p + s] ->
  2 <= batch -> 0 < xch -> 0 < ych -> yw < yh ->
  has_shape [batch; xch; xh; xw] gy -> has_shape [batch; ych; yh; yw] x -> a_shape w = [ych; xch; kh; kw] ->
  forall r, conv2d_transpose_filter_grad 0%R Rplus Rmult u p s d gy x w <> KOk r.
Proof.
  intros Hyh Hyw Fit2 Hb Px Py Tall Hg Hx Sw r. unfold conv2d_transpose_filter_grad. rewrite (proj1 Hg), (proj1 Hx), Sw, Hyh, Hyw. cbn [kbind].
  pose proof (proj1 (u_out_size_ok _ _ _ _ _ _) Hyh) as (Hs & Hkh & Hyh0 & _). pose proof (proj1 (u_out_size_ok _ _ _ _ _ _) Hyw) as (_ & Hkw & Hyw0 & _).
  destruct (negb _); [discriminate|]. destruct (any0 _); [discriminate|]. destruct (negb _); [discriminate|].
  set (cs := xch * kw * kh * yh * yw). set (gc := yh * yh * kh * kw * xch).
  set (m0 := [a_data gy; a_data x; fresh u (batch * cs); fresh u (ych * xch * kh * kw)]).
  destruct (im2col_all batch xch xh xw kh kw p s d yh yw Hyh Hyw Fit2 m0 gy (proj1 Hg)) as (m1 & E1 & C1 & O1 & N1).
  { intros i Hi. apply (load_array m0 IN gy); [reflexivity|exact Hg|exact Hi]. }
  assert (PC : prod [batch; xch; kh; kw; yh; yw] = batch * cs) by (unfold cs; rewrite <- (cs_prod xch kh kw yh yw); reflexivity).
  { intros q Hq. rewrite (load_data m0 COLS (fresh u (batch * cs))) by reflexivity. apply nth_error_Some. rewrite fresh_length, <- PC. exact Hq. }
  assert (PC : prod [batch; xch; kh; kw; yh; yw] = batch * cs) by (unfold cs; rewrite <- (cs_prod xch kh kw yh yw); reflexivity).
  unfold im2col_batch. cbv zeta. rewrite <- flat_map_concat_map. fold cs. fold cs in E1. fold m0. rewrite E1.
  destruct (forallb _ _); [|discriminate].
  destruct (rexec m1 _) as [m2|] eqn:E2; [|discriminate]. exfalso.
  set (n := kh * kw * xch) in *. set (k := yh * yw) in *.
  assert (Pn : 0 < n) by (repeat apply Nat.mul_pos_pos; assumption). assert (Pk : 0 < k) by (repeat apply Nat.mul_pos_pos; assumption).
  assert (Ecs : cs = n * yh * yw) by (unfold cs, n; lia). assert (Egc : gc = n * yh * yh) by (unfold gc, n; lia).
  assert (Lt : cs + n * yh <= gc).
  { rewrite Ecs, Egc. replace (n * yh * yw + n * yh) with (n * yh * (yw + 1)) by lia. apply Nat.mul_le_mono_l. lia. }
  (* the last address read by the last item *)
  set (a := (COLS, z ((batch - 1) * gc + (k - 1) + (n - 1) * k))).
  set (ins := gemm_ins ych k n (FILTER, z ((batch - 1) * (ych * yh * yw))) (z k) 1%Z (COLS, z ((batch - 1) * gc)) 1%Z (z k) (negb (batch - 1 =? 0)) (OUT, 0%Z) [0; n - 1]).
  assert (In1 : In ins (flat_map (fun i => gemm_call ych k n (FILTER, z (i * (ych * yh * yw))) (z k) 1%Z (COLS, z (i * gc)) 1%Z (z k) (negb (i =? 0)) (OUT, 0%Z) (z n) 1%Z) (seq 0 batch))).
  { apply in_flat_map. exists (batch - 1). split; [apply in_seq; lia|]. rewrite gemm_closed. apply in_map. apply indices_in. repeat constructor; lia. }
  assert (In2 : In a (reads ins)).
  { assert (Q : In a (map snd (map (fun l => ((FILTER, z ((batch - 1) * (ych * yh * yw)) + z 0 * z k + z l * 1)%Z, (COLS, z ((batch - 1) * gc) + z l * 1 + z (n - 1) * z k)%Z)) (seq 0 k)))).
    { rewrite map_map. apply in_map_iff. exists (k - 1). split; [|apply in_seq; lia]. cbn [snd]. unfold a. f_equal. lia. }
    unfold ins, gemm_ins. cbn [nth fst snd reads]. destruct (negb _); [right|]; apply in_or_app; right; exact Q. }
  apply (exec_reads _ m1 m2 E2 ins a In1 In2).
  assert (Out : forall q, batch * cs <= q -> load m1 (COLS, z q) = None).
  { intros q Hq. rewrite (load_data m1 COLS (nth COLS m1 [])).
    - apply nth_error_None. rewrite (buffer_tab m1 COLS [batch; xch; kh; kw; yh; yw] (fun i => match i with b :: idx => column p s d gy b idx | [] => 0%R end)).
      + rewrite (tab_wf [batch; xch; kh; kw; yh; yw]). simpl a_shape. rewrite PC. exact Hq.
      + intros [|b idx] Hi; [inversion Hi|]. apply C1. exact Hi.
      + rewrite N1. rewrite (load_data m0 COLS (fresh u (batch * cs))) by reflexivity. apply nth_error_None. rewrite fresh_length, PC. lia.
    - apply nth_error_nth'. destruct (Nat.lt_ge_cases COLS (length m1)) as [G|G]; [exact G|]. exfalso.
      specialize (C1 0 [0; 0; 0; 0; 0]). assert (HB : in_bounds [batch; xch; kh; kw; yh; yw] [0; 0; 0; 0; 0; 0]) by (repeat constructor; lia).
      specialize (C1 HB). unfold load in C1. cbn [fst snd] in C1. destruct (Z.ltb _ _); [discriminate|]. apply nth_error_None in G. rewrite G in C1. discriminate. }
  apply Out.
  assert (cs = (n - 1) * k + k) by (rewrite Ecs; unfold k; replace n with (n - 1 + 1) at 1 by lia; lia).
  assert ((batch - 1) * cs + (batch - 1) * (n * yh) <= (batch - 1) * gc) by (rewrite <- Nat.mul_add_distr_l; apply Nat.mul_le_mono_l; exact Lt).
  assert (batch * cs = (batch - 1) * cs + cs) by (replace batch with (batch - 1 + 1) at 1 by lia; lia).
  assert (1 * 1 <= (batch - 1) * (n * yh)) by (apply Nat.mul_le_mono; [lia|assert (0 < n * yh) by (apply Nat.mul_pos_pos; assumption); lia]).
  lia.
Qed.
