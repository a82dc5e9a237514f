(** conv2d: what each batch item touches, and the value computed. *)
From Coq Require Import List Arith ZArith Bool Lia Reals Lra RealField.
Import ListNotations.
From Verif Require Import Eval_Proofs Array_Model Array_Proofs Array_Sum Vjp_Spec Vjp_Proofs Dot_Spec Dot_Proofs Kernel_Model Kernel_Proofs Conv_Model Conv_Loops Conv_Spec Conv_Proofs.

Lemma load_data {A} (m : @mem A) B l k : nth_error m B = Some l -> load m (B, z k) = nth_error l k.
Proof. intros E. unfold load. cbn [fst snd]. destruct (Z.ltb_spec (z k) 0); [lia|]. rewrite E, Nat2Z.id. reflexivity. Qed.
Lemma fresh_length {A} (u : nat -> A) n : length (fresh u n) = n.
Proof. unfold fresh. rewrite map_length, seq_length. reflexivity. Qed.
Lemma load_array (m : mem) B x sh i : nth_error m B = Some (a_data x) -> has_shape sh x -> in_bounds sh i ->
  load m (B, z (ravel sh i)) = Some (rget x i).
Proof.
  intros E [S L] Hi. rewrite (load_data m B _ _ E). unfold aget. rewrite S. apply nth_error_nth'. rewrite L. apply ravel_lt. exact Hi.
Qed.
Lemma ravel_nth sh k : k < prod sh -> ravel sh (nth k (indices sh) []) = k.
Proof.
  intros H. rewrite <- (map_nth (ravel sh)). rewrite ravel_indices. rewrite (nth_indep _ _ 0) by (rewrite seq_length; exact H).
  rewrite seq_nth by exact H. reflexivity.
Qed.
Lemma exists_split sh sh' i : in_bounds (sh ++ sh') i -> exists t u, i = t ++ u /\ in_bounds sh t /\ in_bounds sh' u.
Proof.
  revert i. induction sh as [|d sh IH]; intros i H; simpl in H.
  - exists [], i. repeat split; auto. constructor.
  - inversion H as [|a d' i' sh0 Ha Hi]; subst. destruct (IH _ Hi) as (t & u & -> & Ht & Hu). exists (a :: t), u. split; [reflexivity|]. split; [constructor|]; auto.
Qed.

Section Sizes.
  Variables (batch xch ych xh xw kh kw p s d yh yw : nat).
  Hypothesis Hyh : u_out_size xh p s d kh = KOk yh.
  Hypothesis Hyw : u_out_size xw p s d kw = KOk yw.
  Hypothesis Fit : in_i32 [xh + 2 * p + s; xw + 2 * p + s].
  Notation csh := [xch; kh; kw; yh; yw].
  Notation cs := (xch * kw * kh * yh * yw).
  Notation os := (ych * yh * yw).

  Lemma Zyh : out_size (z xh) (z p) (z s) (z d) (z kh) = z yh. Proof. apply out_size_z. exact Hyh. Qed.
  Lemma Zyw : out_size (z xw) (z p) (z s) (z d) (z kw) = z yw. Proof. apply out_size_z. exact Hyw. Qed.
  Lemma fit_h : (z (xh + 2 * p + s) < 2 ^ 31)%Z. Proof. apply (Forall_inv Fit). Qed.
  Lemma fit_w : (z (xw + 2 * p + s) < 2 ^ 31)%Z. Proof. apply (Forall_inv (Forall_inv_tail Fit)). Qed.
  Lemma bound_h : forall i k, i < yh -> k < kh -> (tap p s d i k < 2 ^ 31)%Z.
  Proof. apply (tap_bound xh); [apply u_out_size_ok in Hyh; tauto|apply fit_h]. Qed.
  Lemma bound_w : forall i k, i < yw -> k < kw -> (tap p s d i k < 2 ^ 31)%Z.
  Proof. apply (tap_bound xw); [apply u_out_size_ok in Hyw; tauto|apply fit_w]. Qed.
  Lemma im2col_eq x ret : im2col x ret (z xch) (z xh) (z xw) (z kh) (z kw) (z p) (z p) (z s) (z s) (z d) (z d) =
    map (im2col_ins xch xh xw kh kw p s d yh yw x ret) (indices csh).
  Proof. pose proof fit_h. pose proof fit_w. apply im2col_closed; [apply Zyh|apply Zyw|apply bound_h|apply bound_w|lia|lia|lia]. Qed.
  Lemma col2im_eq x ret : col2im x ret (z xch) (z xh) (z xw) (z kh) (z kw) (z p) (z p) (z s) (z s) (z d) (z d) =
    flat_map (col2im_ins xch xh xw kh kw p s d yh yw x ret) (indices csh).
  Proof. pose proof fit_h. pose proof fit_w. apply col2im_closed; [apply Zyh|apply Zyw|apply bound_h|apply bound_w|lia|lia|lia]. Qed.
  Lemma cs_prod : prod csh = cs. Proof. simpl prod. rewrite Nat.mul_1_r. rewrite !Nat.mul_assoc. f_equal. f_equal. rewrite <- !Nat.mul_assoc. f_equal. apply Nat.mul_comm. Qed.

  (** Item [b] stores into its own regions only. *)
  Lemma im2col_stays o b i : In i (im2col (IN, o) (COLS, z (b * cs)) (z xch) (z xh) (z xw) (z kh) (z kw) (z p) (z p) (z s) (z s) (z d) (z d)) ->
    stays_in cs os b i.
  Proof.
    rewrite im2col_eq. intros H. apply in_map_iff in H. destruct H as (idx & <- & H). apply indices_in in H.
    pose proof (ravel_lt _ _ H) as L. rewrite cs_prod in L. set (r := ravel csh idx) in *.
    unfold im2col_ins. fold r. cbn [fst snd].
    assert (D : own cs os b (COLS, z (b * cs) + z r)%Z) by (left; cbn [fst snd]; split; [reflexivity|lia]).
    destruct (source xh xw p s d idx); split; cbn [dest reads]; try exact D.
    - intros a [<-|[]]. left. left. reflexivity.
    - intros a [].
  Qed.
  Lemma mul_pos_lt a b i j : i < a -> j < b -> i * b + j < a * b.
  Proof. intros Hi Hj. assert ((i + 1) * b <= a * b) by (apply Nat.mul_le_mono_r; lia). lia. Qed.
  Lemma conv_gemm_stays b i :
    In i (gemm_call ych (xch * kh * kw) (yh * yw) (FILTER, 0%Z) (z (xch * kh * kw)) 1%Z (COLS, z (b * cs)) (z (yh * yw)) 1%Z false (OUT, z (b * os)) (z (yh * yw)) 1%Z) ->
    stays_in cs os b i.
  Proof.
    rewrite gemm_closed. intros H. apply in_map_iff in H. destruct H as (idx & <- & H). apply indices_in in H.
    apply pair_bounds in H. destruct H as (o & n & -> & Ho & Hn). unfold gemm_ins. cbn [nth fst snd]. split; cbn [dest reads].
    - right. cbn [fst snd]. split; [reflexivity|]. simpl ravel. pose proof (mul_pos_lt _ _ _ _ Ho Hn). rewrite <- (Nat.mul_assoc ych). lia.
    - intros a Ha. apply in_app_or in Ha. rewrite !map_map in Ha. destruct Ha as [Ha|Ha]; apply in_map_iff in Ha; destruct Ha as (l & <- & Hl).
      + left. right. reflexivity.
      + right. left. cbn [fst snd]. split; [reflexivity|]. apply in_seq in Hl. assert (Hl' : l < xch * kh * kw) by lia.
        pose proof (mul_pos_lt _ _ _ _ Hl' Hn) as Q. rewrite <- cs_prod. simpl prod. rewrite Nat.mul_1_r.
        replace (xch * (kh * (kw * (yh * yw)))) with (xch * kh * kw * (yh * yw)) by (rewrite !Nat.mul_assoc; reflexivity). lia.
  Qed.
  Lemma conv2d_item_stays b i : In i (conv2d_item xch ych xh xw kh kw p s d yh yw b) -> stays_in cs os b i.
  Proof.
    unfold conv2d_item. intros H. apply in_app_or in H. destruct H as [H|H]; [exact (im2col_stays _ b i H)|exact (conv_gemm_stays b i H)].
  Qed.

  (** The columns of an image. *)
  Definition column (x : arr R) (b : nat) (idx : list nat) : R :=
    match idx with [c; ki; kj; i; j] => pixel x b c (tap p s d i ki) (tap p s d j kj) | _ => 0%R end.

  (** Phase 1: the columns of all images. *)
  Lemma im2col_all (m : mem) x : a_shape x = [batch; xch; xh; xw] ->
    (forall i, in_bounds [batch; xch; xh; xw] i -> load m (IN, z (ravel [batch; xch; xh; xw] i)) = Some (rget x i)) ->
    (forall k, k < prod (batch :: csh) -> load m (COLS, z k) <> None) ->
    exists m', rexec m (flat_map (fun b => im2col (IN, z (b * (xch * (xh * xw)))) (COLS, z (b * cs))
        (z xch) (z xh) (z xw) (z kh) (z kw) (z p) (z p) (z s) (z s) (z d) (z d)) (seq 0 batch)) = Some m' /\
      (forall b idx, in_bounds (batch :: csh) (b :: idx) -> load m' (COLS, z (ravel (batch :: csh) (b :: idx))) = Some (column x b idx)) /\
      (forall a, fst a <> COLS -> load m' a = load m a) /\
      load m' (COLS, z (prod (batch :: csh))) = load m (COLS, z (prod (batch :: csh))).
  Proof.
    intros Sx HL HC.
    set (ins := fun i => match i with b :: idx => im2col_ins xch xh xw kh kw p s d yh yw (IN, z (b * (xch * (xh * xw)))) (COLS, z (b * cs)) idx | [] => Zero (COLS, 0%Z) end).
    assert (E : flat_map (fun b => im2col (IN, z (b * (xch * (xh * xw)))) (COLS, z (b * cs))
        (z xch) (z xh) (z xw) (z kh) (z kw) (z p) (z p) (z s) (z s) (z d) (z d)) (seq 0 batch) = map ins (indices (batch :: csh))).
    { rewrite <- flat_map_single, flat_indices. apply flat_map_ext_in. intros b _. rewrite im2col_eq, flat_map_single. reflexivity. }
    rewrite E. clear E.
    destruct (exec_fill COLS (batch :: csh) ins (fun i => match i with b :: idx => column x b idx | [] => 0%R end) m) as (m' & Ex & L1 & L2 & L3); auto.
    - intros [|b idx] H; [inversion H|]. unfold ins, im2col_ins. cbn [fst snd].
      assert (Er : (z (b * cs) + z (ravel csh idx))%Z = z (ravel (batch :: csh) (b :: idx))) by (cbn [ravel]; rewrite cs_prod; lia).
      rewrite Er. destruct (source xh xw p s d idx); reflexivity.
    - intros [|b idx] a H; [inversion H|]. unfold ins, im2col_ins. cbn [fst snd].
      destruct (source xh xw p s d idx); cbn [reads]; [|intros []]. intros [<-|[]]. left. discriminate.
    - intros [|b idx] H; [inversion H|]. inversion H as [|? ? ? ? Hb Hi]; subst. unfold ins, im2col_ins. cbn [fst snd].
      destruct (source xh xw p s d idx) as [o|] eqn:Es; cbn [value].
      + destruct (source_bounds _ _ _ _ _ _ _ _ _ _ _ _ Hi Es) as (_ & c & ki & kj & i & j & -> & Hr & Hq & ->).
        assert (Hc : c < xch) by (inversion Hi; assumption).
        replace (z (b * (xch * (xh * xw))) + z (ravel [xch; xh; xw] [c; Z.to_nat (tap p s d i ki); Z.to_nat (tap p s d j kj)]))%Z
          with (z (ravel [batch; xch; xh; xw] [b; c; Z.to_nat (tap p s d i ki); Z.to_nat (tap p s d j kj)])).
        2: { cbn [ravel prod fold_right]. rewrite !Nat.mul_1_r. lia. }
        rewrite HL.
        * f_equal. unfold column, pixel. rewrite Sx.
          destruct (Z.leb_spec 0 (tap p s d i ki)); [|lia]. destruct (Z.ltb_spec (tap p s d i ki) (z xh)); [|lia].
          destruct (Z.leb_spec 0 (tap p s d j kj)); [|lia]. destruct (Z.ltb_spec (tap p s d j kj) (z xw)); [|lia]. reflexivity.
        * repeat constructor; lia.
      + f_equal. unfold column. assert (L : length idx = 5) by (rewrite (in_bounds_length _ _ Hi); reflexivity).
        destruct idx as [|c [|ki [|kj [|i [|j [|? ?]]]]]]; try discriminate L. simpl in Es. unfold inb in Es. unfold pixel. rewrite Sx.
        destruct (0 <=? tap p s d i ki)%Z; cbn [andb] in *; [|reflexivity]. destruct (tap p s d i ki <? z xh)%Z; cbn [andb] in *; [|reflexivity].
        destruct (0 <=? tap p s d j kj)%Z; cbn [andb] in *; [|reflexivity]. destruct (tap p s d j kj <? z xw)%Z; cbn [andb] in *; [discriminate|reflexivity].
    - exists m'. split; [exact Ex|]. split; [|auto]. intros b idx H. apply (L1 (b :: idx) H).
  Qed.

  (** Phase 2: the products of the filter and the columns. *)
  Lemma conv_gemm_all (m : mem) (w : list nat -> R) (C : nat -> list nat -> R) :
    (forall i, in_bounds [ych; xch; kh; kw] i -> load m (FILTER, z (ravel [ych; xch; kh; kw] i)) = Some (w i)) ->
    (forall b idx, in_bounds (batch :: csh) (b :: idx) -> load m (COLS, z (ravel (batch :: csh) (b :: idx))) = Some (C b idx)) ->
    (forall k, k < prod [batch; ych; yh; yw] -> load m (OUT, z k) <> None) ->
    exists m', rexec m (flat_map (fun b =>
        gemm_call ych (xch * kh * kw) (yh * yw) (FILTER, 0%Z) (z (xch * kh * kw)) 1%Z (COLS, z (b * cs)) (z (yh * yw)) 1%Z false (OUT, z (b * os)) (z (yh * yw)) 1%Z)
        (seq 0 batch)) = Some m' /\
      (forall b o i j, in_bounds [batch; ych; yh; yw] [b; o; i; j] -> load m' (OUT, z (ravel [batch; ych; yh; yw] [b; o; i; j])) =
         Some (rsum (indices [xch; kh; kw]) (fun t => w (o :: t) * C b (t ++ [i; j])))%R) /\
      (forall a, fst a <> OUT -> load m' a = load m a) /\
      load m' (OUT, z (prod [batch; ych; yh; yw])) = load m (OUT, z (prod [batch; ych; yh; yw])).
  Proof.
    intros HW HC HO. set (n := yh * yw). set (k := xch * kh * kw).
    set (ins := fun i => match i with b :: ij => gemm_ins ych k n (FILTER, 0%Z) (z k) 1%Z (COLS, z (b * cs)) (z n) 1%Z false (OUT, z (b * os)) ij | [] => Zero (COLS, 0%Z) end).
    assert (E : flat_map (fun b => gemm_call ych k n (FILTER, 0%Z) (z k) 1%Z (COLS, z (b * cs)) (z n) 1%Z false (OUT, z (b * os)) (z n) 1%Z)
        (seq 0 batch) = map ins (indices [batch; ych; n])).
    { rewrite <- flat_map_single, flat_indices. apply flat_map_ext_in. intros b _. rewrite gemm_closed, flat_map_single. reflexivity. }
    rewrite E. clear E.
    assert (Pk : prod [xch; kh; kw] = k) by (unfold k; simpl prod; rewrite Nat.mul_1_r, Nat.mul_assoc; reflexivity).
    assert (Pn : prod [yh; yw] = n) by (unfold n; simpl prod; rewrite Nat.mul_1_r; reflexivity).
    assert (Pcs : cs = k * n) by (rewrite <- cs_prod, <- Pk, <- Pn; rewrite <- (prod_app [xch; kh; kw] [yh; yw]); reflexivity).
    assert (P3 : prod [batch; ych; n] = prod [batch; ych; yh; yw]) by (unfold n; simpl prod; rewrite !Nat.mul_1_r; lia).
    destruct (exec_fill OUT [batch; ych; n] ins (fun i => match i with [b; o; ij] =>
       rsum (seq 0 k) (fun l => w (o :: nth l (indices [xch; kh; kw]) []) * C b (nth l (indices [xch; kh; kw]) [] ++ nth ij (indices [yh; yw]) []))%R | _ => 0%R end) m) as (m' & Ex & L1 & L2 & L3).
    - intros [|b ij] H; [inversion H|]. unfold ins, gemm_ins. cbn [dest fst snd]. f_equal. cbn [ravel prod fold_right]. unfold n.
      replace (ych * yh * yw) with (ych * (yh * yw)) by (rewrite Nat.mul_assoc; reflexivity). rewrite !Nat.mul_1_r. lia.
    - intros [|b ij] a H; [inversion H|]. unfold ins, gemm_ins. cbn [reads fst snd]. intros Ha. apply in_app_or in Ha. rewrite !map_map in Ha.
      destruct Ha as [Ha|Ha]; apply in_map_iff in Ha; destruct Ha as (l & <- & Hl); left; discriminate.
    - intros [|b ij] H; [inversion H|]. inversion H as [|? ? ? ? Hb Hij]; subst. apply pair_bounds in Hij. destruct Hij as (o & u & -> & Ho & Hu).
      unfold ins, gemm_ins. cbn [nth fst snd value].
      rewrite (products_sum m (seq 0 k) _ _ (fun l => w (o :: nth l (indices [xch; kh; kw]) []))
        (fun l => C b (nth l (indices [xch; kh; kw]) [] ++ nth u (indices [yh; yw]) []))).
      + f_equal. ring.
      + intros l Hl. apply in_seq in Hl. assert (Hl' : l < prod [xch; kh; kw]) by (rewrite Pk; lia).
        pose proof (nth_In (indices [xch; kh; kw]) [] (n := l)) as Hin. rewrite indices_length in Hin. specialize (Hin Hl'). apply indices_in in Hin.
        rewrite <- HW by (constructor; auto). f_equal. f_equal. cbn [ravel]. fold (ravel [xch; kh; kw] (nth l (indices [xch; kh; kw]) [])).
        rewrite Pk. rewrite ravel_nth by exact Hl'. lia.
      + intros l Hl. apply in_seq in Hl. assert (Hl' : l < prod [xch; kh; kw]) by (rewrite Pk; lia).
        assert (Hu' : u < prod [yh; yw]) by (rewrite Pn; exact Hu).
        pose proof (nth_In (indices [xch; kh; kw]) [] (n := l)) as Hin. rewrite indices_length in Hin. specialize (Hin Hl'). apply indices_in in Hin.
        pose proof (nth_In (indices [yh; yw]) [] (n := u)) as Hiu. rewrite indices_length in Hiu. specialize (Hiu Hu'). apply indices_in in Hiu.
        rewrite <- HC by (constructor; [exact Hb|exact (in_bounds_app _ _ _ _ Hin Hiu)]). f_equal. f_equal.
        change (ravel (batch :: csh) (b :: nth l (indices [xch; kh; kw]) [] ++ nth u (indices [yh; yw]) [])) with
          (b * prod csh + ravel ([xch; kh; kw] ++ [yh; yw]) (nth l (indices [xch; kh; kw]) [] ++ nth u (indices [yh; yw]) [])).
        rewrite (ravel_app [xch; kh; kw] [yh; yw]) by (apply (in_bounds_length _ _ Hin)). rewrite !ravel_nth by assumption. rewrite Pn, cs_prod. lia.
    - intros q Hq. apply HO. rewrite <- P3. exact Hq.
    - exists m'. split; [exact Ex|]. split; [|split; [exact L2|rewrite <- P3; exact L3]].
      intros b o i j H. inversion H as [|? ? ? ? Hb H1]; subst. inversion H1 as [|? ? ? ? Ho H2]; subst. apply pair_bounds in H2.
      destruct H2 as (i' & j' & E & Hi & Hj). injection E as <- <-.
      assert (Hij : i * yw + j < n) by (unfold n; apply mul_pos_lt; assumption).
      specialize (L1 [b; o; i * yw + j]). replace (ravel [batch; ych; yh; yw] [b; o; i; j]) with (ravel [batch; ych; n] [b; o; i * yw + j]).
      2: { cbn [ravel prod fold_right]. unfold n. rewrite !Nat.mul_1_r. lia. }
      rewrite L1 by (repeat constructor; assumption). f_equal. rewrite <- Pk, rsum_ravel. apply sum_ext. intros t Ht. apply indices_in in Ht.
      assert (Nt : nth (ravel [xch; kh; kw] t) (indices [xch; kh; kw]) [] = t) by (apply nth_error_nth; apply nth_indices; exact Ht).
      assert (Nu : nth (i * yw + j) (indices [yh; yw]) [] = [i; j]).
      { apply nth_error_nth. replace (i * yw + j) with (ravel [yh; yw] [i; j]) by (cbn [ravel prod fold_right]; lia). apply nth_indices. repeat constructor; assumption. }
      rewrite Nt, Nu. reflexivity.
  Qed.
End Sizes.

Lemma all_fit_ok l : in_i32 l -> all_fit (map z l) = true.
Proof.
  intros H. unfold all_fit. apply forallb_forall. intros a Ha. apply in_map_iff in Ha. destruct Ha as (n & <- & Hn).
  unfold in_i32 in H. rewrite Forall_forall in H. specialize (H n Hn). unfold fits32.
  apply andb_true_iff. rewrite Z.leb_le, Z.ltb_lt. split; [|exact H]. assert (0 <= z n)%Z by lia. assert (0 <= 2 ^ 31)%Z by (apply Z.pow_nonneg; lia). lia.
Qed.
Lemma any0_false l : Forall (fun n => 0 < n) l -> any0 l = false.
Proof. induction 1 as [|n l H F IH]; [reflexivity|]. change (any0 (n :: l)) with ((0 =? n) || any0 l). rewrite IH. destruct n; [lia|reflexivity]. Qed.
Lemma ravel_all {X} sh (f : nat -> X) : map f (seq 0 (prod sh)) = map (fun i => f (ravel sh i)) (indices sh).
Proof. rewrite <- ravel_indices, map_map. reflexivity. Qed.
Lemma buffer_tab (m : mem) B sh (f : list nat -> R) : (forall i, in_bounds sh i -> load m (B, z (ravel sh i)) = Some (f i)) ->
  load m (B, z (prod sh)) = None -> nth B m [] = a_data (tab sh f).
Proof.
  intros L N. rewrite (buffer_loads 0%R m B (prod sh) (fun k => f (nth k (indices sh) []))).
  - unfold tab. cbn [a_data]. rewrite (ravel_all sh). apply map_ext_in. intros i Hi. apply indices_in in Hi. f_equal.
    apply nth_error_nth. apply nth_indices. exact Hi.
  - intros k Hk. rewrite <- L.
    + rewrite ravel_nth by exact Hk. reflexivity.
    + apply indices_in. apply nth_In. rewrite indices_length. exact Hk.
  - exact N.
Qed.
Lemma sum_correlation xch kh kw p s d x w b o i j :
  rsum (indices [xch; kh; kw]) (fun t => rget w (o :: t) * column p s d x b (t ++ [i; j]))%R = correlation xch kh kw p s d x w b o i j.
Proof.
  unfold correlation. rewrite sum_below_rsum, rsum_cons. apply sum_ext. intros c _. rewrite sum_below_rsum, rsum_cons. apply sum_ext. intros ki _.
  rewrite sum_below_rsum, rsum_cons. apply sum_ext. intros kj _. simpl. rewrite Rplus_0_r. reflexivity.
Qed.

Section Forward.
  Variables (batch xch ych xh xw kh kw p s d yh yw : nat) (u : nat -> R).
  Hypothesis Hyh : u_out_size xh p s d kh = KOk yh.
  Hypothesis Hyw : u_out_size xw p s d kw = KOk yw.
  Hypothesis Fit : in_i32 [xh + 2 * p + s; xw + 2 * p + s; xh * xw; xch * kw * kh * yh * yw; ych * yh * yw].
  Hypothesis Pos : 0 < xch /\ 0 < ych /\ 0 < xh /\ 0 < xw.
  Notation csh := [xch; kh; kw; yh; yw].

  Lemma fit2 : in_i32 [xh + 2 * p + s; xw + 2 * p + s].
  Proof. inversion Fit as [|? ? F1 F2]; subst. inversion F2; subst. repeat constructor; assumption. Qed.

  (** The result and the columns for any initial contents of the fresh buffers. *)
  Theorem conv2d_value x w : has_shape [batch; xch; xh; xw] x -> has_shape [ych; xch; kh; kw] w ->
    conv2d 0%R Rplus Rmult u p s d x w =
      KOk (tab [batch; ych; yh; yw] (fun i => match i with [b; o; i; j] => correlation xch kh kw p s d x w b o i j | _ => 0%R end),
           Arr [batch; xch; kw; kh; yh; yw] (a_data (tab (batch :: csh) (fun i => match i with b :: idx => column p s d x b idx | [] => 0%R end)))).
  Proof.
    intros Hx Hw. unfold conv2d. rewrite (proj1 Hx), (proj1 Hw), Nat.eqb_refl. cbn [negb]. rewrite Hyh, Hyw. cbn [kbind].
    assert (AF := all_fit_ok _ Fit). cbn [map] in AF. rewrite AF. cbn [negb].
    pose proof (proj1 (u_out_size_ok _ _ _ _ _ _) Hyh) as (Hs & Hkh & Hyh0 & _). pose proof (proj1 (u_out_size_ok _ _ _ _ _ _) Hyw) as (_ & Hkw & Hyw0 & _).
    destruct Pos as (Px & Py & Ph & Pw).
    rewrite any0_false.
    2: { repeat constructor; repeat apply Nat.mul_pos_pos; assumption. }
    set (m0 := [a_data x; a_data w; fresh u (batch * (xch * kw * kh * yh * yw)); fresh u (batch * (ych * yh * yw))]).
    assert (Ph1 : rexec m0 (flat_map (conv2d_item xch ych xh xw kh kw p s d yh yw) (seq 0 batch)) =
      rexec m0 (flat_map (fun b => im2col (IN, z (b * (xch * (xh * xw)))) (COLS, z (b * (xch * kw * kh * yh * yw))) (z xch) (z xh) (z xw) (z kh) (z kw) (z p) (z p) (z s) (z s) (z d) (z d)) (seq 0 batch) ++
        flat_map (fun b => gemm_call ych (xch * kh * kw) (yh * yw) (FILTER, 0%Z) (z (xch * kh * kw)) 1%Z (COLS, z (b * (xch * kw * kh * yh * yw))) (z (yh * yw)) 1%Z false (OUT, z (b * (ych * yh * yw))) (z (yh * yw)) 1%Z) (seq 0 batch))).
    { unfold conv2d_item. cbv zeta. apply exec_phases; [apply seq_NoDup|]. intros b b' i j _ _ N Hi Hj.
      apply (stays_independent (xch * kw * kh * yh * yw) (ych * yh * yw) b b'); [exact N| |].
      - apply (conv_gemm_stays xch ych kh kw yh yw). exact Hi.
      - apply (im2col_stays xch ych xh xw kh kw p s d yh yw Hyh Hyw fit2 _ b' j Hj). }
    rewrite Ph1, exec_app.
    assert (PC : prod (batch :: csh) = batch * (xch * kw * kh * yh * yw)) by (rewrite <- (cs_prod xch kh kw yh yw); reflexivity).
    assert (PO : prod [batch; ych; yh; yw] = batch * (ych * yh * yw)) by (simpl prod; rewrite Nat.mul_1_r, !Nat.mul_assoc; reflexivity).
    destruct (im2col_all batch xch xh xw kh kw p s d yh yw Hyh Hyw fit2 m0 x (proj1 Hx)) as (m1 & E1 & C1 & O1 & N1).
    { intros i Hi. apply (load_array m0 IN x); [reflexivity|exact Hx|exact Hi]. }
    { intros k Hk. rewrite (load_data m0 COLS (fresh u (batch * (xch * kw * kh * yh * yw)))) by reflexivity. apply nth_error_Some. rewrite fresh_length, <- PC. exact Hk. }
    rewrite E1.
    destruct (conv_gemm_all batch xch ych kh kw yh yw m1 (rget w) (column p s d x)) as (m2 & E2 & C2 & O2 & N2).
    { intros i Hi. rewrite O1 by discriminate. apply (load_array m0 FILTER w); [reflexivity|exact Hw|exact Hi]. }
    { exact C1. }
    { intros k Hk. rewrite O1 by discriminate. rewrite (load_data m0 OUT (fresh u (batch * (ych * yh * yw)))) by reflexivity. apply nth_error_Some. rewrite fresh_length, <- PO. exact Hk. }
    rewrite E2. f_equal. f_equal.
    - unfold tab at 1. f_equal.
      rewrite (buffer_tab m2 OUT [batch; ych; yh; yw] (fun i => match i with [b; o; i; j] => correlation xch kh kw p s d x w b o i j | _ => 0%R end)); [reflexivity| |].
      + intros i Hi. assert (L : length i = 4) by (rewrite (in_bounds_length _ _ Hi); reflexivity).
        destruct i as [|b [|o [|i [|j [|? ?]]]]]; try discriminate L. rewrite C2 by exact Hi. f_equal. apply sum_correlation.
      + rewrite N2, O1 by discriminate. rewrite (load_data m0 OUT (fresh u (batch * (ych * yh * yw)))) by reflexivity. apply nth_error_None. rewrite fresh_length, PO. lia.
    - f_equal. apply buffer_tab.
      + intros [|b idx] Hi; [inversion Hi|]. rewrite O2 by discriminate. apply C1. exact Hi.
      + rewrite O2 by discriminate. rewrite N1. rewrite (load_data m0 COLS (fresh u (batch * (xch * kw * kh * yh * yw)))) by reflexivity. apply nth_error_None. rewrite fresh_length, PC. lia.
  Qed.
End Forward.
