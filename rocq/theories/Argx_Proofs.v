(** argmax/argmin on the first axis, on matrices, and where they fail. *)
From Coq Require Import List Arith ZArith Bool Reals Lia Lra.
Import ListNotations.
From Verif Require Import Array_Model Array_Proofs Vjp_Spec Vjp_Proofs Argx_Model.

(** [k] is the first position of the largest (smallest) of [f 0 .. f (n-1)]. *)
Definition first_max (f : nat -> R) (n k : nat) : Prop :=
  k < n /\ (forall k', k' < n -> (f k' <= f k)%R) /\ (forall k', k' < k -> (f k' < f k)%R).
Definition first_min (f : nat -> R) (n k : nat) : Prop :=
  k < n /\ (forall k', k' < n -> (f k <= f k')%R) /\ (forall k', k' < k -> (f k < f k')%R).

Definition reqb (a b : R) : bool := if Req_EM_T a b then true else false.
Lemma reqb_ok a b : reqb a b = true <-> a = b.
Proof. unfold reqb. destruct (Req_EM_T a b); split; auto; discriminate. Qed.
Notation argx := (argx_helper 0%R 1%R Rplus Rmult reqb INR).

Section Lines.
  Local Open Scope R_scope.
  (** The first element equal to [m]. *)
  Definition first_eq (f : nat -> R) (m : R) (n k : nat) : Prop :=
    (k < n)%nat /\ f k = m /\ forall k', (k' < k)%nat -> f k' <> m.
  Lemma first_eq_exists f m n : (exists k, (k < n)%nat /\ f k = m) -> exists k, first_eq f m n k.
  Proof.
    induction n as [|n IH]; intros (k & Hk & Hf); [lia|].
    destruct (existsb (fun k => reqb (f k) m) (seq 0 n)) eqn:E.
    - apply existsb_exists in E. destruct E as (k' & Hin & He). apply in_seq in Hin. apply reqb_ok in He.
      destruct IH as (k1 & H1 & H2 & H3); [exists k'; split; [lia|auto]|]. exists k1. split; [lia|]. auto.
    - assert (Hno : forall k', (k' < n)%nat -> f k' <> m).
      { intros k' Hk' He. assert (existsb (fun k => reqb (f k) m) (seq 0 n) = true); [|congruence].
        apply existsb_exists. exists k'. split; [apply in_seq; lia | apply reqb_ok; exact He]. }
      assert (k = n) by (destruct (Nat.eq_dec k n); auto; exfalso; apply (Hno k); [lia | exact Hf]). subst k.
      exists n. split; [lia|]. split; auto.
  Qed.
  Lemma fold_max f d n : (forall k, (k < n)%nat -> d <= f k) -> (0 < n)%nat ->
    let m := fold_left Rmax (map f (seq 0 n)) d in
    (forall k, (k < n)%nat -> f k <= m) /\ exists k, (k < n)%nat /\ f k = m.
  Proof.
    intros Hd Hn. destruct n as [|n]; [lia|]. clear Hn. induction n as [|n IH].
    - simpl. assert (d <= f 0%nat) by (apply Hd; lia). rewrite Rmax_right by auto. split.
      + intros k Hk. replace k with 0%nat by lia. lra.
      + exists 0%nat. split; [lia|auto].
    - rewrite seq_S, map_app, fold_left_app. cbn [map fold_left]. rewrite Nat.add_0_l.
      destruct IH as (H1 & k0 & H2 & H3); [intros k Hk; apply Hd; lia|].
      set (m := fold_left Rmax (map f (seq 0 (S n))) d) in *. split.
      + intros k Hk. destruct (Nat.eq_dec k (S n)) as [->|]; [apply Rmax_r|].
        apply Rle_trans with m; [apply H1; lia | apply Rmax_l].
      + unfold Rmax. destruct (Rle_dec m (f (S n))); [exists (S n) | exists k0]; split; auto; lia.
  Qed.
  Lemma fold_min f d n : (forall k, (k < n)%nat -> f k <= d) -> (0 < n)%nat ->
    let m := fold_left Rmin (map f (seq 0 n)) d in
    (forall k, (k < n)%nat -> m <= f k) /\ exists k, (k < n)%nat /\ f k = m.
  Proof.
    intros Hd Hn. destruct n as [|n]; [lia|]. clear Hn. induction n as [|n IH].
    - simpl. assert (f 0%nat <= d) by (apply Hd; lia). rewrite Rmin_right by auto. split.
      + intros k Hk. replace k with 0%nat by lia. lra.
      + exists 0%nat. split; [lia|auto].
    - rewrite seq_S, map_app, fold_left_app. cbn [map fold_left]. rewrite Nat.add_0_l.
      destruct IH as (H1 & k0 & H2 & H3); [intros k Hk; apply Hd; lia|].
      set (m := fold_left Rmin (map f (seq 0 (S n))) d) in *. split.
      + intros k Hk. destruct (Nat.eq_dec k (S n)) as [->|]; [apply Rmin_r|].
        apply Rle_trans with m; [apply Rmin_l | apply H1; lia].
      + unfold Rmin. destruct (Rle_dec m (f (S n))); [exists k0 | exists (S n)]; split; auto; lia.
  Qed.

  (** The dot product with the indices picks the index. *)
  Lemma dot_index (w : nat -> R) n k : (k < n)%nat -> w k = 1 -> (forall k', (k' < n)%nat -> k' <> k -> w k' = 0) ->
    fold_left Rplus (map (fun k => w k * INR k) (seq 0 n)) 0 = INR k.
  Proof.
    intros Hk H1 H0.
    assert (G : forall n0, (n0 <= n)%nat -> fold_left Rplus (map (fun k => w k * INR k) (seq 0 n0)) 0 = if (k <? n0)%nat then INR k else 0).
    { induction n0 as [|n0 IH]; intros Hle; [simpl; destruct k; reflexivity|].
      rewrite seq_S, map_app, fold_left_app. cbn [map fold_left]. rewrite Nat.add_0_l, IH by lia.
      destruct (Nat.ltb_spec k n0); destruct (Nat.ltb_spec k (S n0)); try lia.
      - rewrite (H0 n0) by lia. ring.
      - replace n0 with k by lia. rewrite H1. ring.
      - rewrite (H0 n0) by lia. ring. }
    rewrite G by lia. destruct (Nat.ltb_spec k n); [reflexivity|lia].
  Qed.
End Lines.

Lemma set_insert {A} ax (x d : A) l : ax < length l -> set_at ax x l = insert_at ax x (remove_at ax l).
Proof.
  revert l; induction ax as [|ax IH]; intros [|y l] H; simpl in *; try lia; auto. f_equal. apply IH. lia.
Qed.
Lemma offset_2 s0 s1 a b : offset [s0; s1] [a; b] = a * s0 + b * s1.
Proof. simpl. lia. Qed.

Section Core.
  Variables (comp : R -> R -> R) (default : R) (x : arr R) (axz : Z) (ax : nat).
  Notation sh := (a_shape x).
  Notation n := (nth ax sh 0).
  Notation rest := (remove_at ax sh).
  Notation line j := (fun k => aget 0%R x (insert_at ax k j)).
  Notation ext j := (fold_left comp (map (line j) (seq 0 n)) default).
  Hypothesis Hax : normalize_axis axz (length sh) = Some ax.
  Hypothesis Hlt : ax < length sh.
  Hypothesis Hn : 0 < n.

  Lemma mask_value mk : mask 0%R 1%R reqb comp default ax x = Some mk ->
    a_shape mk = sh /\ wf mk /\ forall j k, in_bounds rest j -> k < n ->
      (first_eq (line j) (ext j) n k -> aget 0%R mk (insert_at ax k j) = 1%R) /\
      (~ first_eq (line j) (ext j) n k -> aget 0%R mk (insert_at ax k j) = 0%R).
  Proof.
    unfold mask, fold_axis.
    destruct (nth_error sh ax) as [d|] eqn:Hd; [|discriminate].
    assert (d = n) by (apply nth_error_nth with (d := 0) in Hd; congruence). subst d.
    intros H. injection H as <-. split; [reflexivity|]. split; [apply tab_wf|].
    intros j k Hj Hk.
    assert (Hjl : length j = length rest) by (eapply in_bounds_length; eauto).
    assert (Hrl : length rest = length sh - 1).
    { assert (L := insert_length ax n rest). rewrite insert_remove_nth in L by exact Hlt. lia. }
    assert (Hi : in_bounds sh (insert_at ax k j)).
    { rewrite <- (insert_remove_nth ax 0 sh Hlt) at 1. apply (in_bounds_insert ax rest j k n); [lia|]. auto. }
    rewrite aget_tab by exact Hi. cbv zeta. rewrite nth_insert_eq by lia. rewrite insert_remove by lia.
    set (m := tab rest (fun j0 => fold_left comp (map (fun i => aget 0%R x (insert_at ax i j0)) (seq 0 n)) default)).
    assert (Hm : aget 0%R m j = ext j) by (unfold m; rewrite aget_tab by exact Hj; reflexivity).
    assert (Hf : forall k0, found 0%R reqb x m ax k0 j = true <-> exists k', k' < k0 /\ line j k' = ext j).
    { induction k0 as [|k0 IH]; simpl.
      - split; [discriminate | intros (k' & ? & _); lia].
      - rewrite orb_true_iff, IH, Hm, reqb_ok. split.
        + intros [(k' & H1 & H2)|H]; [exists k'; split; [lia|auto] | exists k0; split; [lia|auto]].
        + intros (k' & H1 & H2). destruct (Nat.eq_dec k' k0) as [->|]; [right; exact H2 | left; exists k'; split; [lia|auto]]. }
    rewrite Hm. split.
    - intros (_ & He & Hno). cbv beta in He. rewrite (proj2 (reqb_ok _ _) He).
      destruct (found 0%R reqb x m ax k j) eqn:F; [|reflexivity].
      apply Hf in F. destruct F as (k' & H1 & H2). exfalso. apply (Hno k' H1 H2).
    - intros Hnot. destruct (reqb (aget 0%R x (insert_at ax k j)) (ext j)) eqn:E; [|reflexivity].
      destruct (found 0%R reqb x m ax k j) eqn:F; [reflexivity|]. exfalso. apply Hnot. apply reqb_ok in E.
      split; auto. split; auto. intros k' H1 H2.
      assert (found 0%R reqb x m ax k j = true) by (apply Hf; eauto). congruence.
  Qed.

  Lemma rows_rest : prod sh / n = prod rest.
  Proof.
    rewrite <- (insert_remove_nth ax 0 sh Hlt) at 1. rewrite prod_insert, Nat.mul_comm. apply Nat.div_mul. lia.
  Qed.

  (** Everything but the reshaping of the mask. *)
  Lemma argx_core keep mk mk2 : mask 0%R 1%R reqb comp default ax x = Some mk ->
    s_into_shape (roll_axis (to_s mk) 0 ax) [n; prod rest] = Some mk2 -> length (s_shape mk2) = 2 -> length (s_strides mk2) = 2 ->
    (forall j k, in_bounds rest j -> k < n -> sget 0%R mk2 [k; ravel rest j] = aget 0%R mk (insert_at ax k j)) ->
    exists r, argx comp default keep axz x = Some r /\
      has_shape (if keep then insert_at ax 1 rest else rest) r /\
      forall j k, in_bounds rest j -> first_eq (line j) (ext j) n k ->
        aget 0%R r (if keep then insert_at ax 0 j else j) = INR k.
  Proof.
    intros Hmk Hre Hl1 Hl2 Hval. unfold argx_helper. rewrite Hax, Hmk. cbv zeta.
    destruct (Nat.eqb_spec n 0) as [Hz|_]; [lia|]. rewrite rows_rest, Hre.
    set (mat := tab [prod rest; 1] _).
    assert (Hfin : (if keep then set_at ax 1 sh else rest) = if keep then insert_at ax 1 rest else rest).
    { destruct keep; auto. apply (set_insert ax 1 0); exact Hlt. }
    rewrite Hfin. unfold into_shape.
    assert (Hp : prod (if keep then insert_at ax 1 rest else rest) = prod rest).
    { destruct keep; auto. rewrite prod_insert. lia. }
    rewrite Hp. change (a_shape mat) with [prod rest; 1].
    assert (Hp2 : prod [prod rest; 1] = prod rest) by (cbn [prod fold_right]; lia).
    rewrite Hp2, Nat.eqb_refl. eexists. split; [reflexivity|]. split.
    - split; [reflexivity|]. cbn [a_data]. rewrite Hp, <- Hp2. apply (tab_wf [prod rest; 1]).
    - intros j k Hj Hk.
      assert (Hrl : length rest = length sh - 1).
      { assert (L := insert_length ax n rest). rewrite insert_remove_nth in L by exact Hlt. lia. }
      assert (Hjl : length j = length rest) by (eapply in_bounds_length; eauto).
      unfold aget at 1. cbn [a_shape a_data].
      assert (Hrav : ravel (if keep then insert_at ax 1 rest else rest) (if keep then insert_at ax 0 j else j) = ravel rest j).
      { destruct keep; auto. apply ravel_insert1; lia. }
      rewrite Hrav.
      assert (Hb : in_bounds [prod rest; 1] [ravel rest j; 0]).
      { constructor; [apply ravel_lt; exact Hj|]. constructor; [lia|constructor]. }
      transitivity (aget 0%R mat [ravel rest j; 0]).
      { unfold aget. cbn [a_shape]. f_equal. change (a_shape mat) with [prod rest; 1].
        cbn [ravel prod fold_right]. lia. }
      unfold mat. rewrite aget_tab by exact Hb. cbn [nth].
      destruct (mask_value mk Hmk) as (_ & _ & Hmv).
      assert (Hsw : forall k0, sget 0%R (swap_axes 0 1 mk2) [ravel rest j; k0] = sget 0%R mk2 [k0; ravel rest j]).
      { intros k0. unfold sget, swap_axes. cbn [s_strides s_data]. f_equal.
        destruct (s_strides mk2) as [|s0 [|s1 [|]]]; try discriminate. unfold swap. cbn [nth set_at]. rewrite !offset_2. lia. }
      pose proof Hk as (Hk1 & _).
      apply (dot_index (fun k0 => sget 0%R (swap_axes 0 1 mk2) [ravel rest j; k0]) n k Hk1).
      + rewrite Hsw, Hval by auto. apply (Hmv j k Hj Hk1). exact Hk.
      + intros k' Hk' Hne. rewrite Hsw, Hval by auto. apply (Hmv j k' Hj Hk').
        intros (_ & He & Hno). destruct Hk as (_ & He' & Hno'). destruct (Nat.lt_trichotomy k k') as [L|[->|L]]; auto.
        * apply (Hno k L). exact He'.
        * apply (Hno' k' L). exact He.
  Qed.
End Core.

(** ** Layouts *)
Lemma c_strides_length sh : length (c_strides sh) = length sh.
Proof. induction sh; simpl; auto. Qed.
Lemma layout_c_app sh l : layout_rev (rev (combine sh (c_strides sh)) ++ l) 1 = layout_rev l (prod sh).
Proof.
  revert l. induction sh as [|d sh IH]; intros l; [reflexivity|]. cbn [c_strides combine rev].
  rewrite <- app_assoc. cbn [app]. rewrite IH. cbn [layout_rev].
  destruct (Nat.eqb_spec d 1) as [->|]; [f_equal; simpl; lia|]. rewrite Nat.eqb_refl. cbn [andb]. f_equal. simpl. lia.
Qed.
Lemma layout_c_standard sh : layout_c sh (c_strides sh) = true.
Proof.
  unfold layout_c. rewrite <- (app_nil_r (rev _)), layout_c_app. apply orb_true_r.
Qed.
Lemma wf_data {A} (a : arr A) : wf a -> length (a_data a) = prod (a_shape a).
Proof. auto. Qed.

Section Instances.
  Variables (comp : R -> R -> R) (default : R) (x : arr R) (axz : Z) (keep : bool).
  Hypothesis Hx : wf x.

  Lemma mask_some ax : ax < length (a_shape x) -> exists mk, mask 0%R 1%R reqb comp default ax x = Some mk.
  Proof.
    intros H. unfold mask, fold_axis. destruct (nth_error (a_shape x) ax) eqn:E; [eauto|].
    apply nth_error_None in E. lia.
  Qed.

  Lemma argx_axis0 n rest : a_shape x = n :: rest -> 0 < n -> normalize_axis axz (S (length rest)) = Some 0 ->
    exists r, argx comp default keep axz x = Some r /\ has_shape (if keep then 1 :: rest else rest) r /\
      forall j k, in_bounds rest j ->
        first_eq (fun k => aget 0%R x (k :: j)) (fold_left comp (map (fun k => aget 0%R x (k :: j)) (seq 0 n)) default) n k ->
        aget 0%R r (if keep then 0 :: j else j) = INR k.
  Proof.
    intros Hsh Hn Hax.
    assert (Hlt : 0 < length (a_shape x)) by (rewrite Hsh; simpl; lia).
    destruct (mask_some 0 Hlt) as (mk & Hmk).
    assert (Hnn : 0 < nth 0 (a_shape x) 0) by (rewrite Hsh; exact Hn).
    destruct (mask_value comp default x 0 Hlt Hnn mk Hmk) as (Hms & Hmw & _).
    destruct (argx_core comp default x axz 0) with (keep := keep) (mk := mk) (mk2 := SArr [n; prod rest] (c_strides [n; prod rest]) (a_data mk)) as (r & Hr); auto.
    - rewrite Hsh. exact Hax.
    - rewrite Hsh. cbn [nth remove_at]. unfold roll_axis. cbn [Nat.ltb Nat.leb Nat.sub roll_up].
      unfold s_into_shape, to_s. cbn [s_shape s_strides s_data]. rewrite Hms, Hsh.
      replace (prod [n; prod rest]) with (prod (n :: rest)) by (cbn [prod fold_right]; fold (prod rest); lia).
      rewrite Nat.eqb_refl, layout_c_standard. reflexivity.
    - intros j k Hj Hk. rewrite Hsh in *. cbn [remove_at nth insert_at] in *. unfold sget, aget. cbn [s_strides s_data c_strides].
      rewrite offset_2, Hms. f_equal. cbn [ravel prod fold_right]. fold (prod rest). lia.
    - exists r. rewrite Hsh in Hr. exact Hr.
  Qed.

  Lemma argx_matrix r c : a_shape x = [r; c] -> 0 < c -> normalize_axis axz 2 = Some 1 ->
    exists y, argx comp default keep axz x = Some y /\ has_shape (if keep then [r; 1] else [r]) y /\
      forall i k, i < r ->
        first_eq (fun k => aget 0%R x [i; k]) (fold_left comp (map (fun k => aget 0%R x [i; k]) (seq 0 c)) default) c k ->
        aget 0%R y (if keep then [i; 0] else [i]) = INR k.
  Proof.
    intros Hsh Hn Hax.
    assert (Hlt : 1 < length (a_shape x)) by (rewrite Hsh; simpl; lia).
    destruct (mask_some 1 Hlt) as (mk & Hmk).
    assert (Hnn : 0 < nth 1 (a_shape x) 0) by (rewrite Hsh; exact Hn).
    destruct (mask_value comp default x 1 Hlt Hnn mk Hmk) as (Hms & Hmw & _).
    assert (Hroll : roll_axis (to_s mk) 0 1 = SArr [c; r] [1; c] (a_data mk)).
    { unfold roll_axis, to_s. rewrite Hms, Hsh. cbn. unfold swap_axes, swap. cbn. f_equal. f_equal. f_equal. lia. }
    assert (Hmk2 : exists st, s_into_shape (roll_axis (to_s mk) 0 1) [c; r] = Some (SArr [c; r] st (a_data mk)) /\ length st = 2 /\
        forall k q, k < c -> q < r -> offset st [k; q] = q * c + k).
    { rewrite Hroll. unfold s_into_shape. cbn [s_shape s_strides s_data]. rewrite Nat.eqb_refl.
      unfold layout_c. cbn [existsb rev combine app].
      destruct (Nat.eqb_spec c 0) as [Hc|Hc]; [lia|]. destruct (Nat.eqb_spec r 0) as [Hr|Hr].
      - cbn [orb]. eexists. split; [reflexivity|]. split; [reflexivity|]. intros; lia.
      - cbn [orb layout_rev length Nat.ltb Nat.leb].
        destruct (Nat.eqb_spec r 1) as [Hr1|Hr1].
        + (* one row *) cbn [layout_rev].
          assert (E : (if c =? 1 then true else (1 =? 1) && true) = true) by (destruct (c =? 1); reflexivity). rewrite E.
          eexists. split; [reflexivity|]. split; [reflexivity|]. intros k q Hk Hq. subst r. cbn [c_strides]. rewrite offset_2.
          cbn [prod fold_right]. nia.
        + destruct (Nat.eqb_spec c 1) as [Hc1|Hc1].
          * (* one column *) cbn [andb]. eexists. split; [reflexivity|]. split; [reflexivity|].
            intros k q Hk Hq. subst c. cbn [c_strides]. rewrite offset_2. cbn [prod fold_right]. nia.
          * cbn [andb]. rewrite Nat.eqb_refl, Nat.mul_1_l, Nat.eqb_refl. cbn [andb].
            eexists. split; [reflexivity|]. split; [reflexivity|].
            intros k q Hk Hq. unfold f_strides. cbn [rev app c_strides]. rewrite offset_2. cbn [prod fold_right]. lia. }
    destruct Hmk2 as (st & Hre & Hst & Hoff).
    destruct (argx_core comp default x axz 1) with (keep := keep) (mk := mk) (mk2 := SArr [c; r] st (a_data mk)) as (y & Hy & Hys & Hyv); auto.
    - rewrite Hsh. exact Hax.
    - rewrite Hsh. cbn [nth remove_at]. replace (prod [r]) with r by (cbn [prod fold_right]; lia). exact Hre.
    - intros j k Hj Hk. rewrite Hsh in *. cbn [remove_at nth] in *. inversion Hj as [|i ? ? ? Hi Hnil]; subst. inversion Hnil; subst.
      cbn [insert_at ravel prod fold_right]. unfold sget, aget. cbn [s_strides s_data]. rewrite Hms.
      replace (i * 1 + 0) with i by lia. rewrite Hoff by auto. f_equal. cbn [ravel prod fold_right]. lia.
    - exists y. rewrite Hsh in *. cbn [remove_at nth insert_at] in *. split; auto. split; auto.
      intros i k Hi Hk. specialize (Hyv [i] k). cbn [insert_at] in Hyv. apply Hyv; auto. constructor; [exact Hi|constructor].
  Qed.
End Instances.

(** ** Where it panics *)
Lemma swap_front {X} (d a b : X) l1 l2 : swap d 0 (S (length l1)) (a :: l1 ++ b :: l2) = b :: l1 ++ a :: l2.
Proof.
  unfold swap. cbn [nth set_at]. rewrite app_nth2, Nat.sub_diag by lia. cbn [nth]. f_equal.
  induction l1 as [|y l1 IH]; simpl; auto. f_equal. exact IH.
Qed.
Lemma roll_lists {A} n : forall (a : sarr A) d m l2 s ms ls2,
  s_shape a = d :: m ++ l2 -> s_strides a = s :: ms ++ ls2 -> length m = n -> length ms = n ->
  s_shape (roll_down n 0 n a) = m ++ d :: l2 /\ s_strides (roll_down n 0 n a) = ms ++ s :: ls2 /\
  s_data (roll_down n 0 n a) = s_data a.
Proof.
  induction n as [|n IH]; intros a d m l2 s ms ls2 H1 H2 L1 L2.
  - destruct m; [|discriminate]. destruct ms; [|discriminate]. simpl. auto.
  - destruct (exists_last (l := m)) as (m' & b & ->); [intros ->; discriminate|].
    destruct (exists_last (l := ms)) as (ms' & t & ->); [intros ->; discriminate|].
    rewrite app_length in L1, L2. cbn [length] in L1, L2.
    cbn [roll_down]. replace (S n - 1) with n by lia.
    rewrite <- app_assoc in H1, H2. cbn [app] in H1, H2.
    destruct (IH (swap_axes 0 (S n) a) b m' (d :: l2) t ms' (s :: ls2)) as (R1 & R2 & R3); try lia.
    + cbn [swap_axes s_shape]. rewrite H1. replace n with (length m') by lia. apply swap_front.
    + cbn [swap_axes s_strides]. rewrite H2. replace n with (length ms') by lia. apply swap_front.
    + rewrite <- !app_assoc. cbn [app]. rewrite R1, R2, R3. auto.
Qed.
Lemma c_strides_app m l : exists ms, c_strides (m ++ l) = ms ++ c_strides l /\ length ms = length m.
Proof.
  induction m as [|d m (ms & H & L)]; [exists []; auto|]. simpl. rewrite H. eexists (_ :: ms). split; [reflexivity|]. simpl; lia.
Qed.
Lemma prod_app a b : prod (a ++ b) = prod a * prod b.
Proof. induction a as [|d a IH]; simpl; [lia|]. rewrite IH. lia. Qed.
Lemma prod_big l : Forall (fun d => 2 <= d) l -> 1 <= prod l /\ (l <> [] -> 2 <= prod l).
Proof.
  induction 1 as [|d l Hd Hl [IH1 IH2]]; [split; [simpl; lia | congruence]|]. cbn [prod fold_right]. fold (prod l). split; [nia|]. intros _. nia.
Qed.
Lemma combine_app {X Y} (a : list X) (b : list Y) c d : length a = length b -> combine (a ++ c) (b ++ d) = combine a b ++ combine c d.
Proof. revert b; induction a as [|x a IH]; intros [|y b] H; simpl in *; try discriminate; auto. f_equal. apply IH. lia. Qed.
Lemma combine_rev {X Y} (a : list X) (b : list Y) : length a = length b -> combine (rev a) (rev b) = rev (combine a b).
Proof.
  revert b; induction a as [|x a IH]; intros [|y b] H; simpl in *; try discriminate; auto.
  rewrite combine_app by (rewrite !rev_length; lia). rewrite IH by lia. reflexivity.
Qed.

Lemma argx_panics comp default keep axz ax (x : arr R) : 3 <= length (a_shape x) -> Forall (fun d => 2 <= d) (a_shape x) ->
  normalize_axis axz (length (a_shape x)) = Some ax -> 1 <= ax < length (a_shape x) ->
  argx comp default keep axz x = None.
Proof.
  intros Hl Hd Hax Hr. unfold argx_helper. rewrite Hax.
  destruct (mask 0%R 1%R reqb comp default ax x) as [mk|] eqn:Hmk; [|reflexivity].
  assert (Hms : a_shape mk = a_shape x).
  { unfold mask in Hmk. destruct (fold_axis 0%R x ax default comp); [|discriminate]. injection Hmk as <-. reflexivity. }
  destruct (nth ax (a_shape x) 0 =? 0); [reflexivity|].
  assert (Hnone : forall t, s_into_shape (roll_axis (to_s mk) 0 ax) t = None); [|rewrite Hnone; reflexivity].
  intros t. destruct (a_shape x) as [|d0 sh] eqn:Hsh; [simpl in Hl; lia|]. cbn [length] in *.
  set (m := firstn ax sh). set (l2 := skipn ax sh).
  assert (Hsplit : sh = m ++ l2) by (symmetry; apply firstn_skipn).
  assert (Hm : length m = ax) by (apply firstn_length_le; lia).
  clearbody m l2.
  destruct (c_strides_app m l2) as (ms & Hcs & Hmsl).
  unfold roll_axis. destruct (Nat.ltb_spec 0 ax); [|lia]. rewrite Nat.sub_0_r.
  destruct (roll_lists ax (to_s mk) d0 m l2 (prod sh) ms (c_strides l2)) as (R1 & R2 & R3); auto; try lia.
  { cbn [to_s s_shape]. rewrite Hms, Hsplit. reflexivity. }
  { cbn [to_s s_strides]. rewrite Hms. cbn [c_strides]. rewrite Hsplit at 2. rewrite Hcs. reflexivity. }
  pose proof (Forall_inv Hd) as Hd0. pose proof (Forall_inv_tail Hd) as Hdsh. cbv beta in Hd0.
  assert (Hdm : Forall (fun d => 2 <= d) m /\ Forall (fun d => 2 <= d) l2) by (rewrite Hsplit in Hdsh; apply Forall_app in Hdsh; exact Hdsh).
  destruct Hdm as [Hdm Hdl].
  assert (Hm2 : 2 <= prod m).
  { apply prod_big; auto. intros E. rewrite E in Hm. simpl in Hm. lia. }
  assert (Hl1 : 1 <= prod l2) by (apply prod_big; auto).
  unfold s_into_shape. rewrite R1, R2. destruct (prod (m ++ d0 :: l2) =? prod t); [|reflexivity].
  assert (Hnz : forall l, Forall (fun d => 2 <= d) l -> existsb (fun d => d =? 0) l = false).
  { induction 1 as [|d l Hd' Hl' IH]; auto. simpl. rewrite IH. destruct (Nat.eqb_spec d 0); [lia|reflexivity]. }
  assert (Hall : Forall (fun d => 2 <= d) (m ++ d0 :: l2)) by (apply Forall_app; split; auto).
  assert (Hlen : length ms = length m) by exact Hmsl.
  assert (HC : layout_c (m ++ d0 :: l2) (ms ++ prod sh :: c_strides l2) = false).
  { unfold layout_c. rewrite (Hnz _ Hall). cbn [orb]. rewrite combine_app by (symmetry; exact Hlen). rewrite rev_app_distr. cbn [combine rev].
    rewrite <- !app_assoc. cbn [app]. rewrite layout_c_app. cbn [layout_rev].
    destruct (Nat.eqb_spec d0 1); [lia|]. destruct (Nat.eqb_spec (prod sh) (prod l2)) as [E|]; [|reflexivity].
    rewrite Hsplit, prod_app in E. nia. }
  assert (HF : layout_c (rev (m ++ d0 :: l2)) (rev (ms ++ prod sh :: c_strides l2)) = false).
  { unfold layout_c. rewrite (Hnz (rev (m ++ d0 :: l2))) by (apply Forall_rev; exact Hall). cbn [orb].
    rewrite combine_rev, rev_involutive by (rewrite !app_length; simpl; rewrite c_strides_length; lia).
    destruct m as [|d1 m']; [simpl in Hm2; lia|]. destruct ms as [|s1 ms']; [discriminate|].
    cbn [app combine layout_rev]. pose proof (Forall_inv Hdm) as Hd1. pose proof (Forall_inv_tail Hdm) as Hdm'. cbv beta in Hd1. destruct (Nat.eqb_spec d1 1); [lia|].
    assert (Hs1 : s1 = prod (m' ++ l2)) by (cbn [app c_strides] in Hcs; injection Hcs; auto).
    assert (Hbig : 2 <= s1).
    { rewrite Hs1. apply prod_big; [apply Forall_app; auto|]. intros E. rewrite Hsplit in Hl. cbn [app length] in Hl. rewrite E in Hl. simpl in Hl. lia. }
    destruct (Nat.eqb_spec s1 1); [lia|reflexivity]. }
  rewrite HC, HF, andb_false_r. reflexivity.
Qed.
