(** conv2d_transpose and the filter gradients. *)
From Coq Require Import List Arith ZArith Bool Lia Reals Lra RealField.
Import ListNotations.
From Verif Require Import Eval_Proofs Array_Model Array_Proofs Array_Sum Vjp_Spec Vjp_Proofs Dot_Spec Dot_Proofs Kernel_Model Kernel_Proofs Conv_Model Conv_Loops Conv_Spec Conv_Proofs Conv_Forward.

(** ** Accumulation *)
Lemma exec_accum (val : addr -> R) (l : list (addr * addr)) : forall m : mem,
  (forall a b, In a l -> In b l -> fst a <> snd b) ->
  (forall a, In a l -> load m (fst a) <> None /\ load m (snd a) = Some (val (snd a))) ->
  exists m', rexec m (map (fun ds => Accum (fst ds) (snd ds)) l) = Some m' /\
    forall a, load m' a = match load m a with
                          | None => None
                          | Some v => Some (v + rsum (filter (fun ds => addr_eqb (fst ds) a) l) (fun ds => val (snd ds)))%R
                          end.
Proof.
  induction l as [|[d s] l IH]; intros m N H.
  - exists m. split; [reflexivity|]. intros a. simpl. destruct (load m a); [|reflexivity]. f_equal. ring.
  - destruct (H (d, s) (or_introl eq_refl)) as (Hd & Hs). cbn [fst snd] in *. destruct (load m d) as [v|] eqn:Ed; [|congruence].
    destruct (store m d (v + val s)%R) as [m1|] eqn:Es; [|apply store_defined in Es; congruence].
    assert (E1 : exec1 0%R Rplus Rmult m (Accum d s) = Some m1) by (unfold exec1; cbn [value dest]; rewrite Ed, Hs; exact Es).
    pose proof (store_load _ _ _ _ Es) as SL.
    destruct (IH m1) as (m' & E & L).
    + intros a b Ha Hb. apply N; simpl; auto.
    + intros a Ha. destruct (H a (or_intror Ha)) as (Ha1 & Ha2). rewrite !SL. split; [destruct (addr_eqb d (fst a)); [discriminate|exact Ha1]|].
      destruct (addr_eqb d (snd a)) eqn:Q; [|exact Ha2]. apply addr_eqb_ok in Q. exfalso. apply (N (d, s) a); simpl; auto.
    + exists m'. split; [simpl map; cbn [exec]; unfold exec in E |- *; rewrite E1; exact E|]. intros a. rewrite L, SL. simpl filter.
      destruct (addr_eqb d a) eqn:Q.
      * apply addr_eqb_ok in Q. subst a. rewrite Ed. f_equal. simpl. ring.
      * reflexivity.
Qed.

(** ** Sizes of conv2d_transpose *)
Lemma KOk_inj {X} (a b : X) : KOk a = KOk b -> a = b. Proof. intros E. injection E as E. exact E. Qed.
Lemma u_in_size_ok checked y p s d k x : 0 < s -> 0 < y -> 0 < k -> u_in_size checked y p s d k = KOk x -> (z x < 2 ^ 31)%Z ->
  (Z.of_nat s * (Z.of_nat y - 1) + Z.of_nat d * (Z.of_nat k - 1) + 1 < 2 ^ 63)%Z -> (2 * z p < 2 ^ 63)%Z ->
  s * (y - 1) + d * (k - 1) + 1 = x + 2 * p.
Proof.
  intros Hs Hy Hk. unfold u_in_size. destruct checked.
  - unfold kbind, usub. destruct (Nat.leb_spec 1 y); [|discriminate]. destruct (Nat.leb_spec (2 * p) (s * (y - 1))); [|discriminate].
    destruct (Nat.leb_spec 1 k); [|discriminate]. intros E _ _ _. injection E as E. lia.
  - intros E. apply KOk_inj in E. intros Fx Fa Fp. set (a := (z s * (z y - 1) + z d * (z k - 1) + 1)%Z) in *.
    assert (A0 : (0 <= a)%Z) by (unfold a; assert (0 <= z s * (z y - 1))%Z by (apply Z.mul_nonneg_nonneg; lia); assert (0 <= z d * (z k - 1))%Z by (apply Z.mul_nonneg_nonneg; lia); lia).
    replace (z s * (z y - 1) - 2 * z p + (z d * (z k - 1) + 1))%Z with (a - 2 * z p)%Z in E by (unfold a; lia).
    assert (Ea : a = z (s * (y - 1) + d * (k - 1) + 1)) by (unfold a; rewrite !Nat2Z.inj_add, !Nat2Z.inj_mul, !Nat2Z.inj_sub by lia; lia).
    clearbody a. set (q := s * (y - 1) + d * (k - 1) + 1) in *. clearbody q. destruct (Z.le_gt_cases (2 * z p) a) as [Le|Gt].
    + rewrite Z.mod_small in E by lia. lia.
    + exfalso. replace ((a - 2 * z p) mod 2 ^ 64)%Z with (a - 2 * z p + 2 ^ 64)%Z in E.
      * lia.
      * rewrite <- (Z.mod_small (a - 2 * z p + 2 ^ 64) (2 ^ 64)) by lia.
        replace (a - 2 * z p + 2 ^ 64)%Z with (a - 2 * z p + 1 * 2 ^ 64)%Z by lia. apply Z.mod_add. lia.
Qed.
Lemma exact_placements y p s d k x : 0 < s -> 0 < y -> 0 < k -> s * (y - 1) + d * (k - 1) + 1 = x + 2 * p -> u_out_size x p s d k = KOk y.
Proof.
  intros Hs Hy Hk E. apply u_out_size_ok. split; [exact Hs|]. split; [exact Hk|]. split; [exact Hy|]. intros i. rewrite <- E. split; intros H.
  - assert (i * s <= s * (y - 1)) by (rewrite (Nat.mul_comm s); apply Nat.mul_le_mono_r; lia). lia.
  - destruct (Nat.lt_ge_cases i y); [assumption|]. assert (S (y - 1) * s <= i * s) by (apply Nat.mul_le_mono_r; lia). lia.
Qed.

Section Transpose.
  Variables (batch xch ych xh xw kh kw p s d yh yw : nat).
  Hypothesis Hyh : u_out_size xh p s d kh = KOk yh.
  Hypothesis Hyw : u_out_size xw p s d kw = KOk yw.
  Hypothesis Fit : in_i32 [xh + 2 * p + s; xw + 2 * p + s].
  Notation csh := [xch; kh; kw; yh; yw].
  Notation xsh := [batch; xch; xh; xw].
  Notation cs := (xch * kh * kw * yh * yw).
  Notation os := (xch * xh * xw).
  Lemma cs_prod' : prod csh = cs. Proof. simpl prod. rewrite Nat.mul_1_r, !Nat.mul_assoc. reflexivity. Qed.
  Lemma os_prod : prod [xch; xh; xw] = os. Proof. simpl prod. rewrite Nat.mul_1_r, !Nat.mul_assoc. reflexivity. Qed.

  Lemma col2im_stays b i : In i (col2im (COLS, z (b * cs)) (OUT, z (b * os)) (z xch) (z xh) (z xw) (z kh) (z kw) (z p) (z p) (z s) (z s) (z d) (z d)) ->
    stays_in cs os b i.
  Proof.
    rewrite (col2im_eq xch xh xw kh kw p s d yh yw Hyh Hyw Fit). intros H. apply in_flat_map in H. destruct H as (idx & Hidx & H). apply indices_in in Hidx.
    pose proof (ravel_lt _ _ Hidx) as L. rewrite cs_prod' in L. set (r := ravel csh idx) in *.
    unfold col2im_ins in H. destruct (source xh xw p s d idx) as [o|] eqn:Es; [|inversion H]. destruct H as [<-|[]].
    destruct (source_bounds _ _ _ _ _ _ _ _ _ _ _ _ Hidx Es) as (Ho & _). fold r. cbn [fst snd].
    assert (EO : xch * (xh * xw) = os) by (rewrite Nat.mul_assoc; reflexivity). rewrite EO in Ho.
    assert (D : own cs os b (OUT, z (b * os) + o)%Z) by (right; cbn [fst snd]; split; [reflexivity|lia]).
    split; cbn [dest reads]; [exact D|]. intros a [<-|[<-|[]]]; right; [exact D|]. left. cbn [fst snd]. split; [reflexivity|lia].
  Qed.
  Lemma transpose_gemm_stays b i :
    In i (gemm_call (kh * kw * xch) ych (yh * yw) (FILTER, 0%Z) 1%Z (z (kh * kw * xch)) (IN, z (b * (ych * yh * yw))) (z (yh * yw)) 1%Z false (COLS, z (b * cs)) (z (yh * yw)) 1%Z) ->
    stays_in cs os b i.
  Proof.
    rewrite gemm_closed. intros H. apply in_map_iff in H. destruct H as (idx & <- & H). apply indices_in in H.
    apply pair_bounds in H. destruct H as (o & n & -> & Ho & Hn). unfold gemm_ins. cbn [nth fst snd]. split; cbn [dest reads].
    - left. cbn [fst snd]. split; [reflexivity|]. simpl ravel. pose proof (mul_pos_lt _ _ _ _ Ho Hn) as Q.
      replace cs with (kh * kw * xch * (yh * yw)) by (rewrite !Nat.mul_assoc; f_equal; f_equal; lia). lia.
    - intros a Ha. left. apply in_app_or in Ha. rewrite !map_map in Ha. destruct Ha as [Ha|Ha]; apply in_map_iff in Ha; destruct Ha as (l & <- & Hl); [right|left]; reflexivity.
  Qed.
  Lemma conv2d_transpose_item_stays b i : In i (conv2d_transpose_item xch ych xh xw kh kw p s d yh yw b) -> stays_in cs os b i.
  Proof.
    unfold conv2d_transpose_item. intros H. apply in_app_or in H. destruct H as [H|H]; [exact (transpose_gemm_stays b i H)|exact (col2im_stays b i H)].
  Qed.

  (** Phase 1: the columns of the result. *)
  Lemma transpose_gemm_all (m : mem) (w gy : list nat -> R) :
    (forall i, in_bounds [ych; xch; kh; kw] i -> load m (FILTER, z (ravel [ych; xch; kh; kw] i)) = Some (w i)) ->
    (forall i, in_bounds [batch; ych; yh; yw] i -> load m (IN, z (ravel [batch; ych; yh; yw] i)) = Some (gy i)) ->
    (forall k, k < prod (batch :: csh) -> load m (COLS, z k) <> None) ->
    exists m', rexec m (flat_map (fun b =>
        gemm_call (kh * kw * xch) ych (yh * yw) (FILTER, 0%Z) 1%Z (z (kh * kw * xch)) (IN, z (b * (ych * yh * yw))) (z (yh * yw)) 1%Z false (COLS, z (b * cs)) (z (yh * yw)) 1%Z)
        (seq 0 batch)) = Some m' /\
      (forall b t u, b < batch -> in_bounds [xch; kh; kw] t -> in_bounds [yh; yw] u ->
         load m' (COLS, z (ravel (batch :: csh) (b :: t ++ u))) = Some (rsum (seq 0 ych) (fun o => w (o :: t) * gy (b :: o :: u)))%R) /\
      (forall a, fst a <> COLS -> load m' a = load m a).
  Proof.
    intros HW HG HC. set (n := yh * yw). set (q := kh * kw * xch).
    set (ins := fun i => match i with b :: ij => gemm_ins q ych n (FILTER, 0%Z) 1%Z (z q) (IN, z (b * (ych * yh * yw))) (z n) 1%Z false (COLS, z (b * cs)) ij | [] => Zero (COLS, 0%Z) end).
    assert (E : flat_map (fun b => gemm_call q ych n (FILTER, 0%Z) 1%Z (z q) (IN, z (b * (ych * yh * yw))) (z n) 1%Z false (COLS, z (b * cs)) (z n) 1%Z)
        (seq 0 batch) = map ins (indices [batch; q; n])).
    { rewrite <- flat_map_single, flat_indices. apply flat_map_ext_in. intros b _. rewrite gemm_closed, flat_map_single. reflexivity. }
    rewrite E. clear E.
    assert (Pk : prod [xch; kh; kw] = q) by (unfold q; simpl prod; lia).
    assert (Pn : prod [yh; yw] = n) by (unfold n; simpl prod; lia).
    assert (Pcs : cs = q * n) by (rewrite <- cs_prod', <- Pk, <- Pn; rewrite <- (prod_app [xch; kh; kw] [yh; yw]); reflexivity).
    assert (P3 : prod [batch; q; n] = prod (batch :: csh)) by (change (prod (batch :: csh)) with (batch * prod csh); rewrite cs_prod', Pcs; simpl prod; lia).
    destruct (exec_fill COLS [batch; q; n] ins (fun i => match i with [b; l; ij] =>
       rsum (seq 0 ych) (fun o => w (o :: nth l (indices [xch; kh; kw]) []) * gy (b :: o :: nth ij (indices [yh; yw]) []))%R | _ => 0%R end) m) as (m' & Ex & L1 & L2 & L3).
    - intros [|b ij] H; [inversion H|]. unfold ins, gemm_ins. cbn [dest fst snd]. f_equal. cbn [ravel prod fold_right]. rewrite Pcs. lia.
    - intros [|b ij] a H; [inversion H|]. unfold ins, gemm_ins. cbn [reads fst snd]. intros Ha. apply in_app_or in Ha. rewrite !map_map in Ha.
      destruct Ha as [Ha|Ha]; apply in_map_iff in Ha; destruct Ha as (l & <- & Hl); left; discriminate.
    - intros [|b ij] H; [inversion H|]. inversion H as [|? ? ? ? Hb Hij]; subst. apply pair_bounds in Hij. destruct Hij as (l & u & -> & Hl & Hu).
      unfold ins, gemm_ins. cbn [nth fst snd value].
      assert (Hl' : l < prod [xch; kh; kw]) by (rewrite Pk; lia). assert (Hu' : u < prod [yh; yw]) by (rewrite Pn; exact Hu).
      pose proof (nth_In (indices [xch; kh; kw]) [] (n := l)) as Hin. rewrite indices_length in Hin. specialize (Hin Hl'). apply indices_in in Hin.
      pose proof (nth_In (indices [yh; yw]) [] (n := u)) as Hiu. rewrite indices_length in Hiu. specialize (Hiu Hu'). apply indices_in in Hiu.
      rewrite (products_sum m (seq 0 ych) _ _ (fun o => w (o :: nth l (indices [xch; kh; kw]) []))
        (fun o => gy (b :: o :: nth u (indices [yh; yw]) []))).
      + f_equal. ring.
      + intros o Ho. apply in_seq in Ho. rewrite <- HW by (constructor; [lia|auto]). f_equal. f_equal.
        change (ravel [ych; xch; kh; kw] (o :: nth l (indices [xch; kh; kw]) [])) with (o * prod [xch; kh; kw] + ravel [xch; kh; kw] (nth l (indices [xch; kh; kw]) [])).
        rewrite Pk. rewrite ravel_nth by exact Hl'. lia.
      + intros o Ho. apply in_seq in Ho. rewrite <- HG by (constructor; [exact Hb|constructor; [lia|auto]]). f_equal. f_equal.
        change (ravel [batch; ych; yh; yw] (b :: o :: nth u (indices [yh; yw]) [])) with
          (b * (ych * prod [yh; yw]) + (o * prod [yh; yw] + ravel [yh; yw] (nth u (indices [yh; yw]) []))).
        rewrite ravel_nth by exact Hu'. rewrite Pn. replace (ych * yh * yw) with (ych * n) by (unfold n; lia). lia.
    - intros k Hk. apply HC. rewrite <- P3. exact Hk.
    - exists m'. split; [exact Ex|]. split; [|exact L2].
      intros b t u Hb Ht Hu.
      specialize (L1 [b; ravel [xch; kh; kw] t; ravel [yh; yw] u]).
      replace (ravel (batch :: csh) (b :: t ++ u)) with (ravel [batch; q; n] [b; ravel [xch; kh; kw] t; ravel [yh; yw] u]).
      2: { change (ravel (batch :: csh) (b :: t ++ u)) with (b * prod csh + ravel ([xch; kh; kw] ++ [yh; yw]) (t ++ u)).
           rewrite (ravel_app [xch; kh; kw] [yh; yw]) by (apply (in_bounds_length _ _ Ht)). rewrite Pn, cs_prod', Pcs. cbn [ravel prod fold_right]. lia. }
      rewrite L1.
      + f_equal. apply sum_ext. intros o _.
        assert (Nt : nth (ravel [xch; kh; kw] t) (indices [xch; kh; kw]) [] = t) by (apply nth_error_nth; apply nth_indices; exact Ht).
        assert (Nu : nth (ravel [yh; yw] u) (indices [yh; yw]) [] = u) by (apply nth_error_nth; apply nth_indices; exact Hu).
        rewrite Nt, Nu. reflexivity.
      + pose proof (ravel_lt _ _ Ht) as Q1. pose proof (ravel_lt _ _ Hu) as Q2. rewrite Pk in Q1. rewrite Pn in Q2. repeat constructor; assumption.
  Qed.

  (** Phase 2: every entry of the columns is added to the pixel it was taken from. *)
  Definition hits (i : list nat) : option (list nat) :=
    match i with
    | [b; c; ki; kj; i; j] =>
        if inb (tap p s d i ki) (z xh) && inb (tap p s d j kj) (z xw)
        then Some [b; c; Z.to_nat (tap p s d i ki); Z.to_nat (tap p s d j kj)] else None
    | _ => None
    end.
  Definition hit_sum (C : list nat -> R) (pos : list nat) : R :=
    rsum (indices (batch :: csh)) (fun i => match hits i with Some q => if idx_eqb q pos then C i else 0%R | None => 0%R end).
  Lemma hits_bounds i pos : in_bounds (batch :: csh) i -> hits i = Some pos -> in_bounds xsh pos.
  Proof.
    intros Hi. assert (L : length i = 6) by (rewrite (in_bounds_length _ _ Hi); reflexivity).
    destruct i as [|b [|c [|ki [|kj [|i [|j [|? ?]]]]]]]; try discriminate L. unfold hits.
    destruct (inb (tap p s d i ki) (z xh)) eqn:E1; [|discriminate]. destruct (inb (tap p s d j kj) (z xw)) eqn:E2; [|discriminate].
    intros E. injection E as <-. apply inb_ok in E1. apply inb_ok in E2.
    inversion Hi as [|? ? ? ? Hb H1]; subst. inversion H1; subst. repeat constructor; auto; lia.
  Qed.
  Lemma column_hits x b idx : a_shape x = xsh -> in_bounds csh idx ->
    column p s d x b idx = match hits (b :: idx) with Some pos => rget x pos | None => 0%R end.
  Proof.
    intros Sx Hi. assert (L : length idx = 5) by (rewrite (in_bounds_length _ _ Hi); reflexivity).
    destruct idx as [|c [|ki [|kj [|i [|j [|? ?]]]]]]; try discriminate L. unfold column, pixel, hits, inb. rewrite Sx.
    destruct (0 <=? tap p s d i ki)%Z; cbn [andb]; [|reflexivity]. destruct (tap p s d i ki <? z xh)%Z; cbn [andb]; [|reflexivity].
    destruct (0 <=? tap p s d j kj)%Z; cbn [andb]; [|reflexivity]. destruct (tap p s d j kj <? z xw)%Z; reflexivity.
  Qed.
  Definition pair_of (i : list nat) : list (addr * addr) :=
    match hits i with Some pos => [((OUT, z (ravel xsh pos)), (COLS, z (ravel (batch :: csh) i)))] | None => [] end.
  Lemma col2im_pairs :
    flat_map (fun b => col2im (COLS, z (b * cs)) (OUT, z (b * os)) (z xch) (z xh) (z xw) (z kh) (z kw) (z p) (z p) (z s) (z s) (z d) (z d)) (seq 0 batch) =
    map (fun ds => Accum (fst ds) (snd ds)) (flat_map pair_of (indices (batch :: csh))).
  Proof.
    rewrite map_flat_map, flat_indices. apply flat_map_ext_in. intros b Hb. rewrite (col2im_eq xch xh xw kh kw p s d yh yw Hyh Hyw Fit).
    apply flat_map_ext_in. intros idx Hi. apply indices_in in Hi.
    assert (L : length idx = 5) by (rewrite (in_bounds_length _ _ Hi); reflexivity).
    destruct idx as [|c [|ki [|kj [|i [|j [|? ?]]]]]]; try discriminate L. unfold col2im_ins, pair_of, hits. simpl source.
    destruct (inb (tap p s d i ki) (z xh)) eqn:E1; [|reflexivity]. destruct (inb (tap p s d j kj) (z xw)) eqn:E2; [|reflexivity].
    apply inb_ok in E1. apply inb_ok in E2. cbn [andb map fst snd]. f_equal. f_equal; f_equal.
    - cbn [ravel prod fold_right]. rewrite !Nat.mul_1_r. set (r := tap p s d i ki) in *. set (q := tap p s d j kj) in *. clearbody r q.
      rewrite <- (Z2Nat.id r) at 1 by lia. rewrite <- (Z2Nat.id q) at 1 by lia. set (r' := Z.to_nat r). set (q' := Z.to_nat q).
      rewrite <- !Nat2Z.inj_mul, <- !Nat2Z.inj_add. f_equal. rewrite ?Nat.add_0_r. rewrite Nat.mul_assoc. ring.
    - cbn [ravel]. rewrite cs_prod'. lia.
  Qed.
  Lemma col2im_all (m : mem) (C : list nat -> R) (v : R) :
    (forall i, in_bounds (batch :: csh) i -> load m (COLS, z (ravel (batch :: csh) i)) = Some (C i)) ->
    (forall pos, in_bounds xsh pos -> load m (OUT, z (ravel xsh pos)) = Some v) ->
    exists m', rexec m (flat_map (fun b => col2im (COLS, z (b * cs)) (OUT, z (b * os)) (z xch) (z xh) (z xw) (z kh) (z kw) (z p) (z p) (z s) (z s) (z d) (z d)) (seq 0 batch)) = Some m' /\
      (forall pos, in_bounds xsh pos -> load m' (OUT, z (ravel xsh pos)) = Some (v + hit_sum C pos)%R) /\
      (load m (OUT, z (prod xsh)) = None -> load m' (OUT, z (prod xsh)) = None).
  Proof.
    intros HC HO. rewrite col2im_pairs.
    assert (Hp : forall ds, In ds (flat_map pair_of (indices (batch :: csh))) ->
       exists i pos, in_bounds (batch :: csh) i /\ in_bounds xsh pos /\ ds = ((OUT, z (ravel xsh pos)), (COLS, z (ravel (batch :: csh) i)))).
    { intros ds H. apply in_flat_map in H. destruct H as (i & Hi & H). apply indices_in in Hi. unfold pair_of in H.
      destruct (hits i) as [pos|] eqn:E; [|inversion H]. destruct H as [<-|[]]. exists i, pos. split; [exact Hi|]. split; [exact (hits_bounds _ _ Hi E)|reflexivity]. }
    destruct (exec_accum (fun a => C (nth (Z.to_nat (snd a)) (indices (batch :: csh)) [])) (flat_map pair_of (indices (batch :: csh))) m) as (m' & E & Lm).
    - intros a b Ha Hb. destruct (Hp a Ha) as (i & pos & _ & _ & ->). destruct (Hp b Hb) as (i' & pos' & _ & _ & ->). cbn [fst snd]. discriminate.
    - intros a Ha. destruct (Hp a Ha) as (i & pos & Hi & Hpos & ->). cbn [fst snd]. rewrite HO by exact Hpos. split; [discriminate|].
      rewrite HC by exact Hi. rewrite Nat2Z.id. f_equal. f_equal. symmetry. apply nth_error_nth. apply nth_indices. exact Hi.
    - exists m'. split; [exact E|]. split; [|intros N; rewrite Lm, N; reflexivity].
      intros pos Hpos. rewrite Lm, HO by exact Hpos. f_equal. f_equal. unfold hit_sum.
      rewrite (sum_filter 0%R 1%R Rplus Rmult Rminus Ropp RT), (sum_flat_map 0%R 1%R Rplus Rmult Rminus Ropp RT). apply sum_ext. intros i Hi. apply indices_in in Hi.
      unfold pair_of. destruct (hits i) as [q|] eqn:Eq; [|reflexivity]. cbn [sumf fold_right fst snd]. rewrite Nat2Z.id.
      rewrite (nth_error_nth _ _ [] (nth_indices _ _ Hi)).
      assert (Eb : addr_eqb (OUT, z (ravel xsh q)) (OUT, z (ravel xsh pos)) = idx_eqb q pos).
      { apply eq_true_iff_eq. rewrite addr_eqb_ok. unfold idx_eqb. rewrite shape_eqb_ok. split; [|congruence].
        intros Q. apply (f_equal snd) in Q. cbn [snd] in Q. apply Nat2Z.inj in Q. apply (ravel_inj xsh); [exact (hits_bounds _ _ Hi Eq)|exact Hpos|exact Q]. }
      rewrite Eb. destruct (idx_eqb q pos); ring.
  Qed.
  (** Adding entries to the pixels they were taken from is the adjoint of taking them. *)
  Lemma hits_adjoint x (C : list nat -> R) : a_shape x = xsh ->
    rsum (indices xsh) (fun pos => hit_sum C pos * rget x pos)%R = rsum (indices (batch :: csh)) (fun i => C i * match i with b :: idx => column p s d x b idx | [] => 0 end)%R.
  Proof.
    intros Sx. unfold hit_sum.
    rewrite (sum_ext 0%R Rplus (indices xsh) _ (fun pos => rsum (indices (batch :: csh)) (fun i => (match hits i with Some q => if idx_eqb q pos then C i else 0 | None => 0 end) * rget x pos)%R)).
    2: { intros pos _. symmetry. apply (sum_scale_r 0%R 1%R Rplus Rmult Rminus Ropp RT). }
    rewrite (sum_swap 0%R 1%R Rplus Rmult Rminus Ropp RT). apply sum_ext. intros i Hi. apply indices_in in Hi.
    destruct i as [|b idx]; [inversion Hi|]. rewrite (column_hits x b idx Sx) by (inversion Hi; assumption).
    destruct (hits (b :: idx)) as [q|] eqn:E.
    - pose proof (hits_bounds _ _ Hi E) as Hq.
      rewrite (sum_ext 0%R Rplus (indices xsh) _ (fun pos => if idx_eqb q pos then (C (b :: idx) * rget x pos)%R else 0%R)).
      2: { intros pos _. destruct (idx_eqb q pos); ring. }
      apply (sum_one 0%R 1%R Rplus Rmult Rminus Ropp RT (indices xsh) (idx_eqb q) (fun pos => C (b :: idx) * rget x pos)%R q); [apply indices_nodup|apply indices_in; exact Hq|apply shape_eqb_ok; reflexivity|].
      intros pos _ Q. unfold idx_eqb in Q. apply shape_eqb_ok in Q. congruence.
    - rewrite Rmult_0_r. apply (sum_zero 0%R 1%R Rplus Rmult Rminus Ropp RT). intros pos _. ring.
  Qed.

  Definition cols_of (w gy : arr R) (i : list nat) : R :=
    match i with
    | [b; c; ki; kj; i; j] => rsum (seq 0 ych) (fun o => rget w [o; c; ki; kj] * rget gy [b; o; i; j])%R
    | _ => 0%R
    end.
  Lemma hit_sum_transposed w gy b c r q : in_bounds xsh [b; c; r; q] ->
    hit_sum (cols_of w gy) [b; c; r; q] = transposed ych kh kw yh yw p s d gy w b c r q.
  Proof.
    intros H. inversion H as [|? ? ? ? Hb H1]; subst. inversion H1 as [|? ? ? ? Hc H2]; subst. apply pair_bounds in H2. destruct H2 as (r' & q' & E & Hr & Hq). injection E as <- <-.
    unfold hit_sum. rewrite rsum_cons.
    set (T := fun b' c' => rsum (indices [kh; kw; yh; yw]) (fun t => match hits (b' :: c' :: t) with Some g => if idx_eqb g [b; c; r; q] then cols_of w gy (b' :: c' :: t) else 0%R | None => 0%R end)).
    assert (Z0 : forall b' c', (b' = b /\ c' = c -> False) -> T b' c' = 0%R).
    { intros b' c' N. apply (sum_zero 0%R 1%R Rplus Rmult Rminus Ropp RT). intros t _.
      destruct (hits (b' :: c' :: t)) as [g|] eqn:E; [|reflexivity]. destruct (idx_eqb g [b; c; r; q]) eqn:Q; [|reflexivity].
      unfold idx_eqb in Q. apply shape_eqb_ok in Q. subst g. exfalso. apply N. unfold hits in E. destruct t as [|? [|? [|? [|? [|? ?]]]]]; try discriminate E.
      destruct (_ && _) in E; [|discriminate]. injection E as -> -> _ _. auto. }
    rewrite (sum_ext 0%R Rplus (seq 0 batch) _ (fun b' => if Nat.eqb b' b then rsum (seq 0 xch) (T b') else 0%R)).
    2: { intros b' _. rewrite rsum_cons. fold (T b'). destruct (Nat.eqb_spec b' b); [reflexivity|]. apply (sum_zero 0%R 1%R Rplus Rmult Rminus Ropp RT). intros c' _. apply Z0. tauto. }
    rewrite (sum_one 0%R 1%R Rplus Rmult Rminus Ropp RT (seq 0 batch) (fun b' => Nat.eqb b' b) (fun b' => rsum (seq 0 xch) (T b')) b).
    2: apply seq_NoDup. 2: apply in_seq; lia. 2: apply Nat.eqb_refl. 2: intros i _ Q; apply Nat.eqb_eq; exact Q.
    rewrite (sum_ext 0%R Rplus (seq 0 xch) _ (fun c' => if Nat.eqb c' c then T b c' else 0%R)).
    2: { intros c' _. destruct (Nat.eqb_spec c' c); [reflexivity|]. apply Z0. tauto. }
    rewrite (sum_one 0%R 1%R Rplus Rmult Rminus Ropp RT (seq 0 xch) (fun c' => Nat.eqb c' c) (T b) c).
    2: apply seq_NoDup. 2: apply in_seq; lia. 2: apply Nat.eqb_refl. 2: intros i _ Q; apply Nat.eqb_eq; exact Q.
    unfold T.
    rewrite (sum_ext 0%R Rplus (indices [kh; kw; yh; yw]) _ (fun t => rsum (seq 0 ych) (fun o => match t with [ki; kj; i; j] =>
       if ((under p s d i ki =? z r) && (under p s d j kj =? z q))%Z then (rget w [o; c; ki; kj] * rget gy [b; o; i; j])%R else 0%R | _ => 0%R end))).
    - rewrite (sum_swap 0%R 1%R Rplus Rmult Rminus Ropp RT). unfold transposed. rewrite sum_below_rsum. apply sum_ext. intros o _.
      rewrite rsum_cons, sum_below_rsum. apply sum_ext. intros ki _. rewrite rsum_cons, sum_below_rsum. apply sum_ext. intros kj _.
      rewrite rsum_cons, sum_below_rsum. apply sum_ext. intros i _. rewrite rsum_cons, sum_below_rsum. apply sum_ext. intros j _.
      simpl. apply Rplus_0_r.
    - intros t Ht. apply indices_in in Ht. assert (L : length t = 4) by (rewrite (in_bounds_length _ _ Ht); reflexivity).
      destruct t as [|ki [|kj [|i [|j [|? ?]]]]]; try discriminate L. unfold hits, cols_of.
      change (under p s d i ki) with (tap p s d i ki). change (under p s d j kj) with (tap p s d j kj).
      assert (S0 : rsum (seq 0 ych) (fun _ => 0%R) = 0%R) by (apply (sum_zero 0%R 1%R Rplus Rmult Rminus Ropp RT); reflexivity).
      set (tr := tap p s d i ki). set (tq := tap p s d j kj). clearbody tr tq.
      destruct (Z.eqb_spec tr (z r)) as [->|N1]; cbn [andb].
      + destruct (Z.eqb_spec tq (z q)) as [->|N2].
        * rewrite (proj2 (inb_ok (z r) (z xh))), (proj2 (inb_ok (z q) (z xw))) by lia. cbn [andb]. rewrite !Nat2Z.id.
          unfold idx_eqb. rewrite (proj2 (shape_eqb_ok [b; c; r; q] [b; c; r; q]) eq_refl). reflexivity.
        * rewrite S0.
          destruct (inb (z r) (z xh) && inb tq (z xw)) eqn:E; [|reflexivity]. apply andb_true_iff in E. destruct E as [_ E]. apply inb_ok in E.
          destruct (idx_eqb [b; c; Z.to_nat (z r); Z.to_nat tq] [b; c; r; q]) eqn:Q; [|reflexivity]. unfold idx_eqb in Q. apply shape_eqb_ok in Q.
          apply (f_equal (fun l => nth 3 l 0)) in Q. cbn [nth] in Q. lia.
      + rewrite S0.
        destruct (inb tr (z xh) && inb tq (z xw)) eqn:E; [|reflexivity]. apply andb_true_iff in E. destruct E as [E _]. apply inb_ok in E.
        destruct (idx_eqb [b; c; Z.to_nat tr; Z.to_nat tq] [b; c; r; q]) eqn:Q; [|reflexivity]. unfold idx_eqb in Q. apply shape_eqb_ok in Q.
        apply (f_equal (fun l => nth 2 l 0)) in Q. cbn [nth] in Q. lia.
  Qed.
End Transpose.

Section TransposeValue.
  Variables (batch xch ych xh xw kh kw p s d yh yw : nat) (u : nat -> R) (checked : bool).
  Hypothesis Hs : 0 < s.
  Hypothesis Pos : 0 < batch /\ 0 < xch /\ 0 < ych /\ 0 < yh /\ 0 < yw /\ 0 < kh /\ 0 < kw /\ 0 < xh /\ 0 < xw.
  Hypothesis Hxh : u_in_size checked yh p s d kh = KOk xh.
  Hypothesis Hxw : u_in_size checked yw p s d kw = KOk xw.
  Hypothesis Hyh : u_out_size xh p s d kh = KOk yh.
  Hypothesis Hyw : u_out_size xw p s d kw = KOk yw.
  Hypothesis Fit : in_i32 [xh + 2 * p + s; xw + 2 * p + s; xh * xw; xch * kw * kh * yh * yw].
  Notation csh := [xch; kh; kw; yh; yw].
  Notation cs := (xch * kh * kw * yh * yw).
  Notation os := (xch * xh * xw).
  Lemma fit2' : in_i32 [xh + 2 * p + s; xw + 2 * p + s].
  Proof. inversion Fit as [|? ? F1 F2]; subst. inversion F2; subst. repeat constructor; assumption. Qed.

  Theorem conv2d_transpose_value gy w : has_shape [batch; ych; yh; yw] gy -> has_shape [ych; xch; kh; kw] w ->
    conv2d_transpose 0%R Rplus Rmult u checked p s d gy w =
      KOk (tab [batch; xch; xh; xw] (hit_sum batch xch xh xw kh kw p s d yh yw (cols_of ych w gy))).
  Proof.
    intros Hg Hw. unfold conv2d_transpose. rewrite (proj1 Hg), (proj1 Hw), Nat.eqb_refl. rewrite Hxh, Hxw. cbn [kbind negb].
    assert (AF := all_fit_ok _ Fit). cbn [map] in AF. rewrite AF. cbn [negb].
    destruct Pos as (Pb & Px & Py & Pyh & Pyw & Pkh & Pkw & Pxh & Pxw).
    destruct (Nat.eqb_spec batch 0); [lia|]. destruct (Nat.eqb_spec s 0); [lia|]. cbn [orb].
    rewrite any0_false.
    2: { repeat constructor; repeat apply Nat.mul_pos_pos; assumption. }
    set (m0 := [a_data gy; a_data w; fresh u (batch * cs); repeat 0%R (batch * os)]).
    assert (Ph1 : rexec m0 (flat_map (conv2d_transpose_item xch ych xh xw kh kw p s d yh yw) (seq 0 batch)) =
      rexec m0 (flat_map (fun b => gemm_call (kh * kw * xch) ych (yh * yw) (FILTER, 0%Z) 1%Z (z (kh * kw * xch)) (IN, z (b * (ych * yh * yw))) (z (yh * yw)) 1%Z false (COLS, z (b * cs)) (z (yh * yw)) 1%Z) (seq 0 batch) ++
        flat_map (fun b => col2im (COLS, z (b * cs)) (OUT, z (b * os)) (z xch) (z xh) (z xw) (z kh) (z kw) (z p) (z p) (z s) (z s) (z d) (z d)) (seq 0 batch))).
    { unfold conv2d_transpose_item. cbv zeta. apply exec_phases; [apply seq_NoDup|]. intros b b' i j _ _ N Hi Hj.
      apply (stays_independent cs os b b'); [exact N| |].
      - apply (col2im_stays xch xh xw kh kw p s d yh yw Hyh Hyw fit2'). exact Hi.
      - apply (transpose_gemm_stays xch ych xh xw kh kw yh yw). exact Hj. }
    rewrite Ph1, exec_app.
    assert (PC : prod (batch :: csh) = batch * cs) by (rewrite <- (cs_prod' xch kh kw yh yw); reflexivity).
    assert (PO : prod [batch; xch; xh; xw] = batch * os) by (rewrite <- (os_prod xch xh xw); reflexivity).
    destruct (transpose_gemm_all batch xch ych kh kw yh yw m0 (rget w) (rget gy)) as (m1 & E1 & C1 & O1).
    { intros i Hi. apply (load_array m0 FILTER w); [reflexivity|exact Hw|exact Hi]. }
    { intros i Hi. apply (load_array m0 IN gy); [reflexivity|exact Hg|exact Hi]. }
    { intros k Hk. rewrite (load_data m0 COLS (fresh u (batch * cs))) by reflexivity. apply nth_error_Some. rewrite fresh_length, <- PC. exact Hk. }
    rewrite E1.
    destruct (col2im_all batch xch xh xw kh kw p s d yh yw Hyh Hyw fit2' m1 (cols_of ych w gy) 0%R) as (m2 & E2 & C2 & N2).
    { intros i Hi. assert (L : length i = 6) by (rewrite (in_bounds_length _ _ Hi); reflexivity).
      destruct i as [|b [|c [|ki [|kj [|i [|j [|? ?]]]]]]]; try discriminate L.
      inversion Hi as [|? ? ? ? Hb Hi']; subst. destruct (exists_split [xch; kh; kw] [yh; yw] _ Hi') as (t & v & Et & Ht & Hv).
      assert (Lt : length t = 3) by (rewrite (in_bounds_length _ _ Ht); reflexivity). destruct t as [|? [|? [|? [|? ?]]]]; try discriminate Lt.
      injection Et as <- <- <- <-. exact (C1 b [c; ki; kj] [i; j] Hb Ht Hv). }
    { intros pos Hpos. rewrite O1 by discriminate. rewrite (load_data m0 OUT (repeat 0%R (batch * os))) by reflexivity.
      apply nth_error_repeat. rewrite <- PO. apply ravel_lt. exact Hpos. }
    rewrite E2. unfold tab. f_equal. f_equal.
    rewrite (buffer_tab m2 OUT [batch; xch; xh; xw] (hit_sum batch xch xh xw kh kw p s d yh yw (cols_of ych w gy))); [reflexivity| |].
    - intros pos Hpos. rewrite C2 by exact Hpos. f_equal. ring.
    - apply N2. rewrite O1 by discriminate. rewrite (load_data m0 OUT (repeat 0%R (batch * os))) by reflexivity. apply nth_error_None. rewrite repeat_length, PO. lia.
  Qed.

  (** The inner product with any image of the right shape. *)
  Lemma dot_transpose gy w x : has_shape [batch; xch; xh; xw] x ->
    dot (tab [batch; xch; xh; xw] (hit_sum batch xch xh xw kh kw p s d yh yw (cols_of ych w gy))) x =
    rsum (indices [batch; ych; yh; yw]) (fun i => match i with [b; o; i; j] => rget gy [b; o; i; j] * correlation xch kh kw p s d x w b o i j | _ => 0 end)%R.
  Proof.
    intros Hx. rewrite (dot_sum [batch; xch; xh; xw]) by (exact Hx || apply tab_has_shape).
    rewrite (sum_ext 0%R Rplus _ _ (fun pos => hit_sum batch xch xh xw kh kw p s d yh yw (cols_of ych w gy) pos * rget x pos)%R).
    2: { intros i Hi. apply indices_in in Hi. rewrite aget_tab by exact Hi. reflexivity. }
    rewrite hits_adjoint by apply (proj1 Hx).
    rewrite !rsum_cons. apply sum_ext. intros b Hb.
    change csh with ([xch; kh; kw] ++ [yh; yw]). rewrite rsum_app.
    rewrite (sum_ext 0%R Rplus _ _ (fun t => rsum (indices [yh; yw]) (fun v => rsum (seq 0 ych) (fun o => rget gy (b :: o :: v) * (rget w (o :: t) * column p s d x b (t ++ v)))))%R).
    2: { intros t Ht. apply indices_in in Ht. assert (Lt : length t = 3) by (rewrite (in_bounds_length _ _ Ht); reflexivity).
         destruct t as [|c [|ki [|kj [|? ?]]]]; try discriminate Lt. apply sum_ext. intros v Hv. apply indices_in in Hv.
         assert (Lv : length v = 2) by (rewrite (in_bounds_length _ _ Hv); reflexivity). destruct v as [|i [|j [|? ?]]]; try discriminate Lv.
         cbn [app cols_of]. rewrite <- (sum_scale_r 0%R 1%R Rplus Rmult Rminus Ropp RT). apply sum_ext. intros o _. ring. }
    rewrite (sum_swap 0%R 1%R Rplus Rmult Rminus Ropp RT).
    rewrite (sum_ext 0%R Rplus _ _ (fun v => rsum (seq 0 ych) (fun o => rget gy (b :: o :: v) * rsum (indices [xch; kh; kw]) (fun t => rget w (o :: t) * column p s d x b (t ++ v))))%R).
    2: { intros v _. rewrite (sum_swap 0%R 1%R Rplus Rmult Rminus Ropp RT). apply sum_ext. intros o _. apply (sum_scale 0%R 1%R Rplus Rmult Rminus Ropp RT). }
    rewrite (sum_swap 0%R 1%R Rplus Rmult Rminus Ropp RT). rewrite rsum_cons. apply sum_ext. intros o _. apply sum_ext. intros v Hv. apply indices_in in Hv.
    assert (Lv : length v = 2) by (rewrite (in_bounds_length _ _ Hv); reflexivity). destruct v as [|i [|j [|? ?]]]; try discriminate Lv.
    rewrite sum_correlation. reflexivity.
  Qed.
End TransposeValue.
