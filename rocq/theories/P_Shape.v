(** C29-C34, C41, C42, C44, C46: operations that move, copy or bound elements. *)
From Coq Require Import List Arith ZArith Bool Lia Reals Lra RealField Permutation Sorted.
Import ListNotations.
From Verif Require Import Eval_Proofs Array_Model Array_Proofs Array_Sum Array_Fold Arith_Model Arith_Proofs Vjp_Spec Vjp_Proofs Arith_Final Reduce_Model Reduce_Spec Reduce_Proofs Shape_Model Shape_Spec Clip_Model Shape_Proofs Shape_Proofs2 Shape_Proofs3.
Local Open Scope R_scope.

Ltac reals := cbv -[Rplus Rmult Rminus Ropp IZR]; apply f_equal; apply (f_equal2 (@Arr R)); [reflexivity|]; repeat (apply (f_equal2 (@cons R)); [lra|]); reflexivity.

(** ** C29: concat *)
Theorem C29_concat : forall (A : Type) (zero : A) k xs, xs <> [] -> stackable k xs ->
  exists y, concat zero (Z.of_nat k) xs = Some y /\ concatenation zero k xs y.
Proof.
  intros A zero k xs N S. destruct (concatenate_ok zero k xs N S) as (y & E & C). exists y. split; [|exact C].
  unfold concat. destruct (Z.ltb_spec (Z.of_nat k) 0); [lia|]. rewrite Nat2Z.id. exact E.
Qed.
Print Assumptions C29_concat.
Theorem C29_concat_determined : forall (A : Type) (zero : A) k xs y z, xs <> [] -> (k < length (a_shape y))%nat ->
  concatenation zero k xs y -> concatenation zero k xs z -> y = z.
Proof. exact @concatenation_unique. Qed.
Print Assumptions C29_concat_determined.
(** split undoes concat; concat undoes split. *)
Theorem C29_split_after_concat : forall (A : Type) (zero : A) axis k xs y m x,
  concat zero (Z.of_nat k) xs = Some y -> stackable k xs -> names_axis (length (a_shape y)) axis k -> nth_error xs m = Some x ->
  split_part zero (map (axis_len k) xs) axis m y = Some x.
Proof.
  intros A zero axis k xs y m x E S NA Ex. assert (N : xs <> []) by (intros ->; destruct m; discriminate).
  destruct (C29_concat A zero k xs N S) as (y' & E' & C). rewrite E in E'. injection E' as <-. apply split_concat; auto.
Qed.
Print Assumptions C29_split_after_concat.
Theorem C29_concat_after_split : forall (A : Type) (zero : A) axis k sizes y ps,
  names_axis (length (a_shape y)) axis k -> length (a_data y) = prod (a_shape y) ->
  list_sum sizes = axis_len k y -> sizes <> [] -> length ps = length sizes ->
  (forall m, (m < length sizes)%nat -> split_part zero sizes axis m y = nth_error ps m) ->
  concat zero (Z.of_nat k) ps = Some y.
Proof.
  intros A zero axis k sizes y ps NA W Hs N L H. unfold concat. destruct (Z.ltb_spec (Z.of_nat k) 0); [lia|]. rewrite Nat2Z.id.
  apply (concat_split zero axis k sizes); auto.
Qed.
Print Assumptions C29_concat_after_split.
Theorem C29_negative_axis_panics : forall (A : Type) (zero : A) axis xs, (axis < 0)%Z -> concat zero axis xs = None.
Proof. intros A zero axis xs H. unfold concat. destruct (Z.ltb_spec axis 0); [reflexivity|lia]. Qed.
Print Assumptions C29_negative_axis_panics.
(** The gradient for an operand should be the block of the output gradient that
    the operand occupies: *)
Theorem C29_expected_gradient : forall k m xs x y gy gx, stackable k xs -> nth_error xs m = Some x ->
  concat 0 (Z.of_nat k) xs = Some y -> has_shape (a_shape y) gy ->
  block_of 0 gy (on_axis (length (a_shape gy)) k (offset k m xs)) (a_shape x) gx ->
  vjp (fun x' => concat 0 (Z.of_nat k) (set_at m x' xs)) x gy gx.
Proof.
  intros k m xs x y gy gx S E C Hg B. unfold concat in *. destruct (Z.ltb_spec (Z.of_nat k) 0); [lia|]. rewrite Nat2Z.id in *.
  apply has_shape_wf in Hg. destruct Hg as [Sg Wg]. apply (concat_vjp k m xs x gy gx y); auto.
Qed.
Print Assumptions C29_expected_gradient.
(** What is computed: for operand m the block starts at the lengths of operands
    0..m-2 and ends at the operand's own length. *)
Theorem C29_computed_gradient : forall k m xs x y gy, stackable k xs -> nth_error xs m = Some x ->
  concat 0 (Z.of_nat k) xs = Some y -> has_shape (a_shape y) gy ->
  exists gx, concat_grad 0 (Z.of_nat k) m xs gy = Some gx /\
    block_of 0 gy (on_axis (length (a_shape gy)) k (offset k (m - 1)%nat xs))
      (set_at k (axis_len k x - offset k (m - 1)%nat xs)%nat (a_shape gy)) gx.
Proof.
  intros k m xs x y gy S E C Hg. unfold concat in C. destruct (Z.ltb_spec (Z.of_nat k) 0); [lia|]. rewrite Nat2Z.id in *.
  apply has_shape_wf in Hg. destruct Hg as [Sg Wg]. apply (concat_grad_ok 0 k m xs x y); auto.
Qed.
Print Assumptions C29_computed_gradient.
Lemma concat_shape {A} (zero : A) k xs y x m : stackable k xs -> concat zero (Z.of_nat k) xs = Some y -> nth_error xs m = Some x ->
  (k < length (a_shape y))%nat /\ a_shape x = set_at k (axis_len k x) (a_shape y).
Proof.
  intros (sh & Hk & F) E Ex. unfold concat in E. destruct (Z.ltb_spec (Z.of_nat k) 0); [lia|]. rewrite Nat2Z.id in E.
  assert (N : xs <> []) by (intros ->; destruct m; discriminate).
  rewrite (concatenate_cat zero k sh xs Hk N F) in E. injection E as <-. simpl. rewrite set_length, set_set. split; [exact Hk|].
  rewrite Forall_forall in F. destruct (F x (nth_error_In _ _ Ex)) as (_ & d & S). unfold axis_len. rewrite S, nth_set_eq by exact Hk. reflexivity.
Qed.
Theorem C29_first_operand : forall k xs x y gy, stackable k xs -> nth_error xs 0 = Some x ->
  concat 0 (Z.of_nat k) xs = Some y -> has_shape (a_shape y) gy ->
  exists gx, concat_grad 0 (Z.of_nat k) 0 xs gy = Some gx /\ vjp (fun x' => concat 0 (Z.of_nat k) (set_at 0 x' xs)) x gy gx.
Proof.
  intros k xs x y gy S E C Hg. destruct (C29_computed_gradient k 0 xs x y gy S E C Hg) as (gx & Eg & B). exists gx. split; [exact Eg|].
  apply (C29_expected_gradient k 0 xs x y); auto. simpl in B. unfold offset in *. simpl in B. simpl firstn. rewrite Nat.sub_0_r in B.
  destruct (concat_shape 0 k xs y x 0 S C E) as [_ Sx]. destruct Hg as [Sg _]. rewrite Sg in *. rewrite <- Sx in B. exact B.
Qed.
Print Assumptions C29_first_operand.
(** Every later non-empty operand that does not start at 0 gets a wrong gradient
    for some output gradient. *)
Theorem C29_later_operands_refuted : forall k m xs x y, stackable k xs -> nth_error xs m = Some x ->
  concat 0 (Z.of_nat k) xs = Some y -> prod (a_shape x) <> 0%nat -> (0 < offset k m xs)%nat ->
  exists gy gx, has_shape (a_shape y) gy /\ concat_grad 0 (Z.of_nat k) m xs gy = Some gx /\
    ~ vjp (fun x' => concat 0 (Z.of_nat k) (set_at m x' xs)) x gy gx.
Proof.
  intros k m xs x y S E C Nx Ho. destruct (concat_shape 0 k xs y x m S C E) as [Hk Sx].
  set (gy := tab (a_shape y) (fun i => INR (nth k i 0%nat))).
  assert (Hg : has_shape (a_shape y) gy) by apply tab_has_shape.
  destruct (C29_computed_gradient k m xs x y gy S E C Hg) as (gx & Eg & B). exists gy, gx. split; [exact Hg|]. split; [exact Eg|]. intros V.
  pose proof (offset_le k xs m x E) as Hle. simpl a_shape in B.
  assert (Tot : nth k (a_shape y) 0%nat = list_sum (map (axis_len k) xs)).
  { destruct S as (sh & Hk' & F). unfold concat in C. destruct (Z.ltb_spec (Z.of_nat k) 0); [lia|]. rewrite Nat2Z.id in C.
    rewrite (concatenate_cat 0 k sh xs Hk') in C; [|intros ->; destruct m; discriminate|exact F]. injection C as <-. simpl. apply nth_set_eq. exact Hk'. }
  assert (Lx : (0 < axis_len k x)%nat).
  { apply prod_pos in Nx. rewrite Sx in Nx. rewrite Forall_forall in Nx.
    assert (In (axis_len k x) (set_at k (axis_len k x) (a_shape y))).
    { rewrite <- (nth_set_eq k (axis_len k x) 0%nat (a_shape y) Hk) at 1. apply nth_In. rewrite set_length. exact Hk. }
    specialize (Nx _ H). lia. }
  set (g' := tab (a_shape x) (fun i => rget gy (shift (on_axis (length (a_shape y)) k (offset k m xs)) i))).
  assert (B' : block_of 0 gy (on_axis (length (a_shape gy)) k (offset k m xs)) (a_shape x) g').
  { split; [reflexivity|]. split; [apply tab_wf|]. intros i Hi. unfold g'. rewrite aget_tab by exact Hi. reflexivity. }
  pose proof (C29_expected_gradient k m xs x y gy g' S E C Hg B') as V'. pose proof (vjp_unique _ _ _ _ _ V V') as Q. subst gx.
  destruct B as (B1 & _ & B3). simpl a_shape in B1. rewrite Sx in B1.
  assert (O : offset k (m - 1)%nat xs = 0%nat).
  { apply (f_equal (fun l => nth k l 0%nat)) in B1. rewrite !nth_set_eq in B1 by exact Hk. lia. }
  rewrite O, Nat.sub_0_r, <- Sx in B3.
  set (z := repeat 0%nat (length (a_shape y))).
  assert (Hz : in_bounds (a_shape x) z).
  { unfold z. rewrite <- (set_length k (axis_len k x) (a_shape y)), <- Sx. apply prod_pos in Nx. clear - Nx. induction Nx; simpl; constructor; auto. lia. }
  assert (Hzy : forall o, (o <= offset k m xs)%nat -> in_bounds (a_shape y) (set_at k (o + nth k z 0%nat)%nat z)).
  { intros o Ho'. rewrite <- (set_nth_self k 0%nat (a_shape y)). apply (in_bounds_set_to k _ _ _ (axis_len k x)); [rewrite <- Sx; exact Hz|].
    rewrite Tot. unfold z. rewrite nth_repeat. lia. }
  assert (Lz : length z = length (a_shape y)) by apply repeat_length.
  specialize (B3 z Hz). rewrite (proj2 (proj2 B') z Hz) in B3. simpl a_shape in B3.
  rewrite !shift_on_axis in B3 by auto. unfold gy in B3. rewrite !aget_tab in B3 by (apply Hzy; lia). rewrite !nth_set_eq in B3 by lia.
  apply INR_eq in B3. lia.
Qed.
Print Assumptions C29_later_operands_refuted.
Example C29_hypotheses_met :
  let a := Arr [2;1]%nat [1;2] in let b := Arr [2;2]%nat [3;4;5;6] in
  let y := Arr [2;3]%nat [1;3;4;2;5;6] in
  stackable 1 [a; b] /\ concat 0 1 [a; b] = Some y /\ names_axis 2 (-1) 1 /\
  split_part 0 [1;2]%nat (-1) 1 y = Some b /\
  concat_grad 0 1 1 [a; b] (Arr [2;3]%nat [10;20;30;40;50;60]) = Some (Arr [2;2]%nat [10;20;40;50]) /\ (0 < offset 1 1 [a; b])%nat.
Proof.
  cbv zeta. split.
  { exists [2;1]%nat. split; [simpl; lia|]. repeat constructor; simpl; auto; [exists 1%nat|exists 2%nat]; reflexivity. }
  split; [reflexivity|]. split; [split; [lia|right; reflexivity]|]. split; [reflexivity|]. split; [reflexivity|]. unfold offset, axis_len. simpl. lia.
Qed.

(** ** C30: slice and split *)
Theorem C30_slice : forall (A : Type) (zero : A) starts ends los his x,
  slice_range (a_shape x) starts ends los his ->
  exists y, slice zero starts ends x = Some y /\ block_of zero x los (map2 Nat.sub his los) y.
Proof. exact @slice_ok. Qed.
Print Assumptions C30_slice.
Theorem C30_slice_gradient : forall starts ends los his x gy,
  has_shape (a_shape x) x -> slice_range (a_shape x) starts ends los his -> has_shape (map2 Nat.sub his los) gy ->
  exists gx, slice_gradient 0 starts ends x gy = Some gx /\ vjp (slice 0 starts ends) x gy gx.
Proof.
  intros starts ends los his x gy Hx SR Hg. apply has_shape_wf in Hx. apply has_shape_wf in Hg. destruct Hx as [_ Wx], Hg as [Sg Wg].
  destruct (slice_range_ok _ _ _ _ _ SR) as (sl & rs & E1 & E2 & E3 & E4). unfold slice_gradient, slice. rewrite E1. unfold bind.
  destruct (slice_vjp sl x gy rs E2 Wx Wg ltac:(congruence)) as (gx & Eg & V). exists gx. auto.
Qed.
Print Assumptions C30_slice_gradient.
Theorem C30_split : forall (A : Type) (zero : A) sizes axis k m x,
  names_axis (length (a_shape x)) axis k -> (m < length sizes)%nat -> list_sum sizes = axis_len k x ->
  exists y, split_part zero sizes axis m x = Some y /\
    block_of zero x (on_axis (length (a_shape x)) k (list_sum (firstn m sizes))) (set_at k (nth m sizes 0%nat) (a_shape x)) y.
Proof.
  intros A zero sizes axis k m x NA Hm Hs. unfold split_part.
  assert (Hle : forall l m, (m < length l)%nat -> (list_sum (firstn m l) + nth m l 0 <= list_sum l)%nat).
  { induction l as [|a l IH]; intros [|j] Hj; simpl in *; try lia. specialize (IH j ltac:(lia)). lia. }
  specialize (Hle sizes m Hm). unfold axis_len in Hs.
  destruct (split_ok zero axis k (list_sum (firstn m sizes)) (list_sum (firstn m sizes) + nth m sizes 0%nat) x NA) as (y & E & B); [lia|lia|].
  exists y. split; [exact E|]. replace (list_sum (firstn m sizes) + nth m sizes 0 - list_sum (firstn m sizes))%nat with (nth m sizes 0%nat) in B by lia. exact B.
Qed.
Print Assumptions C30_split.
Theorem C30_split_gradient : forall axis k lo hi x gy,
  names_axis (length (a_shape x)) axis k -> (lo <= hi)%nat -> (hi <= axis_len k x)%nat ->
  has_shape (a_shape x) x -> has_shape (set_at k (hi - lo)%nat (a_shape x)) gy ->
  exists gx, split_grad 0 axis (Z.of_nat lo) (Z.of_nat hi) x gy = Some gx /\
    vjp (split_forward 0 axis (Z.of_nat lo) (Z.of_nat hi)) x gy gx.
Proof.
  intros axis k lo hi x gy NA H1 H2 Hx Hg. apply has_shape_wf in Hx. apply has_shape_wf in Hg. unfold axis_len in H2. destruct Hx as [_ Wx], Hg as [Sg Wg]. apply (split_vjp axis k); auto.
Qed.
Print Assumptions C30_split_gradient.
Example C30_hypotheses_met :
  let x := Arr [2;4]%nat [1;2;3;4;5;6;7;8] in
  slice_range (a_shape x) [-1; 1]%Z [-1; -2]%Z [1;1]%nat [2;3]%nat /\
  slice 0 [-1; 1]%Z [-1; -2]%Z x = Some (Arr [1;2]%nat [6;7]) /\
  slice_gradient 0 [-1; 1]%Z [-1; -2]%Z x (Arr [1;2]%nat [10;20]) = Some (Arr [2;4]%nat [0;0;0;0;0;10;20;0]) /\
  split_part 0 [1;3]%nat (-1) 1 x = Some (Arr [2;3]%nat [2;3;4;6;7;8]).
Proof.
  cbv zeta. split.
  { repeat (constructor; [unfold axis_range; lia|]). constructor. }
  repeat split; reflexivity.
Qed.

(** ** C31: gather *)
Theorem C31_gather : forall (A : Type) (zero : A) norm axis k indices pos x,
  length (a_data x) = prod (a_shape x) -> length (a_data indices) = prod (a_shape indices) -> a_data indices <> [] ->
  names_axis (length (a_shape x)) axis k ->
  Forall2 (names_index norm (axis_len k x)) (a_data indices) pos ->
  exists y, gather zero norm axis indices x = Some y /\ gathered zero k (a_shape indices) pos x y.
Proof. intros. apply gathered_ok; auto. Qed.
Print Assumptions C31_gather.
Theorem C31_gradient : forall norm k indices pos x gy,
  has_shape (a_shape x) x -> length (a_data indices) = prod (a_shape indices) -> a_data indices <> [] ->
  (k < length (a_shape x))%nat ->
  Forall2 (names_index norm (axis_len k x)) (a_data indices) pos -> ~ In (-1)%Z (a_data indices) ->
  has_shape (firstn k (a_shape x) ++ a_shape indices ++ skipn (S k) (a_shape x)) gy ->
  exists gx, gather_grad 0 Rplus (Z.of_nat k) indices x gy = Some gx /\ vjp (gather 0 norm (Z.of_nat k) indices) x gy gx.
Proof.
  intros norm k indices pos x gy Hx Wi N Hk F N1 Hg. apply has_shape_wf in Hx. apply has_shape_wf in Hg. destruct Hx as [_ Wx], Hg as [Sg Wg]. apply (gather_vjp norm k indices x gy pos); auto.
Qed.
Print Assumptions C31_gradient.
(** The gradient panics for every negative axis, and for the index -1. *)
Theorem C31_negative_axis_gradient_panics : forall (A : Type) (zero : A) add axis indices x gy, (axis < 0)%Z ->
  gather_grad zero add axis indices x gy = None.
Proof. intros A zero add axis indices x gy H. unfold gather_grad. destruct (Z.ltb_spec axis 0); [reflexivity|lia]. Qed.
Print Assumptions C31_negative_axis_gradient_panics.
Theorem C31_index_minus_one_gradient_panics : forall (A : Type) (zero : A) add axis indices x gy, In (-1)%Z (a_data indices) ->
  gather_grad zero add axis indices x gy = None.
Proof.
  intros A zero add axis indices x gy H. unfold gather_grad. destruct (axis <? 0)%Z; [reflexivity|]. cbv zeta. destruct (nth_error _ _) as [n|]; [|reflexivity].
  unfold bind at 1. destruct (into_shape _ _) as [g|]; [|reflexivity]. unfold bind.
  generalize (full (a_shape x) zero), 0%nat. induction (a_data indices) as [|z l IH]; [contradiction|]. intros gx t. simpl.
  destruct H as [->|H].
  - change (resolve n (-1) (Some (-1 + 1)%Z)) with (bind (abs_index n (-1)) (fun lo => if (Nat.max lo 0 <=? n)%nat then Some (lo, Nat.max lo 0) else None)).
    destruct (abs_index n (-1)) as [lo|]; [|reflexivity]. unfold bind. rewrite Nat.max_0_r. destruct (_ <=? _)%nat; [|reflexivity]. simpl fst. simpl snd. rewrite Nat.ltb_irrefl. reflexivity.
  - destruct (resolve n z (Some (z + 1)%Z)) as [r|]; [|reflexivity]. unfold bind. destruct (fst r <? snd r)%nat; [apply IH; exact H|reflexivity].
Qed.
Print Assumptions C31_index_minus_one_gradient_panics.
Theorem C31_no_indices_panics : forall (A : Type) (zero : A) norm axis sh x, gather zero norm axis (Arr sh []) x = None.
Proof.
  intros A zero norm axis sh x. unfold gather. destruct (normalize_axis _ _); [|reflexivity]. unfold bind at 1. destruct (nth_error _ _); [|reflexivity].
  unfold bind at 1. destruct norm; reflexivity.
Qed.
Print Assumptions C31_no_indices_panics.
Example C31_hypotheses_met :
  let x := Arr [3;2]%nat [1;2;3;4;5;6] in let ind := Arr [2;2]%nat [0; -2; 2; 0]%Z in
  Forall2 (names_index true 3) (a_data ind) [0;1;2;0]%nat /\
  gather 0 true 0 ind x = Some (Arr [2;2;2]%nat [1;2;3;4;5;6;1;2]) /\
  gather_grad 0 Rplus 0 ind x (Arr [2;2;2]%nat [1;2;3;4;5;6;7;8]) = Some (Arr [3;2]%nat [8;10;3;4;5;6]).
Proof.
  cbv zeta. split; [repeat (apply Forall2_cons; [unfold names_index; lia|]); constructor|]. split; [reflexivity|]. reals.
Qed.

(** ** C32: tile *)
Theorem C32_tile : forall (A : Type) (zero : A) axis k num x,
  length (a_data x) = prod (a_shape x) -> names_axis (length (a_shape x)) axis k -> (0 < num)%nat ->
  exists y, tile zero axis num x = Some y /\ length (a_data y) = prod (a_shape y) /\
    a_shape y = set_at k (num * axis_len k x)%nat (a_shape x) /\
    forall i, in_bounds (a_shape y) i -> aget zero y i = aget zero x (set_at k (nth k i 0 mod axis_len k x)%nat i).
Proof. intros. apply tile_ok; auto. Qed.
Print Assumptions C32_tile.
Theorem C32_gradient_unit_axis : forall axis k num x gy,
  has_shape (a_shape x) x -> names_axis (length (a_shape x)) axis k -> (0 < num)%nat -> axis_len k x = 1%nat ->
  has_shape (set_at k num (a_shape x)) gy ->
  exists gx, tile_grad 0 Rplus axis gy = Some gx /\ vjp (tile 0 axis num) x gy gx.
Proof.
  intros axis k num x gy Hx NA Hn E1 Hg. apply has_shape_wf in Hx. apply has_shape_wf in Hg. destruct Hx as [_ Wx], Hg as [Sg Wg]. pose proof NA as [Hk _].
  assert (Nz : a_shape gy <> [0%nat]).
  { rewrite Sg. intros Q. assert (K : k = 0%nat) by (apply (f_equal (@length nat)) in Q; rewrite set_length in Q; simpl in Q; lia). subst k.
    apply (f_equal (fun l => nth 0 l 1%nat)) in Q. rewrite nth_set_eq in Q by exact Hk. simpl in Q. lia. }
  destruct (tile_grad_ok axis k gy Wg Nz) as (gx & Eg & Wgx & Sgx & A); [rewrite Sg, set_length; exact NA|].
  exists gx. split; [exact Eg|].
  assert (Sx : a_shape gx = a_shape x) by (rewrite Sgx, Sg, set_set, <- E1; apply set_nth_self).
  apply (vjp_reads _ _ _ _ (set_at k 0%nat)); auto.
  - rewrite Sg. intros i Hi. rewrite <- (set_nth_self k 0%nat (a_shape x)). apply (in_bounds_set_to k _ i 0 num); [exact Hi|]. unfold axis_len in E1. lia.
  - intros x' Hx'. apply has_shape_wf in Hx'. destruct Hx' as [Sx' Wx'].
    assert (L1 : axis_len k x' = 1%nat) by (unfold axis_len in *; congruence).
    destruct (tile_ok 0 axis k num x' Wx') as (y & Ey & Wy & Sy & G); [rewrite Sx'; exact NA|exact Hn|].
    rewrite L1, Nat.mul_1_r, Sx' in Sy. exists y. split; [exact Ey|]. split; [apply has_shape_wf; split; congruence|].
    intros i Hi. rewrite Sg in Hi. rewrite G by (rewrite Sy; exact Hi). rewrite L1, Nat.mod_1_r. reflexivity.
Qed.
Print Assumptions C32_gradient_unit_axis.
Theorem C32_gradient_refuted : forall axis k num x gy gx,
  names_axis (length (a_shape x)) axis k -> axis_len k x <> 1%nat ->
  has_shape (set_at k (num * axis_len k x)%nat (a_shape x)) gy -> a_shape gy <> [0%nat] ->
  tile_grad 0 Rplus axis gy = Some gx -> a_shape gx = set_at k 1%nat (a_shape x) /\ ~ vjp (tile 0 axis num) x gy gx.
Proof.
  intros axis k num x gy gx NA N1 Hg Nz E. apply has_shape_wf in Hg. destruct Hg as [Sg Wg]. pose proof NA as [Hk _].
  destruct (tile_grad_ok axis k gy Wg Nz) as (gx' & Eg & Wgx & Sgx & _); [rewrite Sg, set_length; exact NA|].
  rewrite E in Eg. injection Eg as <-. rewrite Sg, set_set in Sgx. split; [exact Sgx|]. intros [[S _] _].
  apply N1. unfold axis_len. rewrite <- S, Sgx. apply nth_set_eq. exact Hk.
Qed.
Print Assumptions C32_gradient_refuted.
Example C32_hypotheses_met :
  let x := Arr [2]%nat [1;2] in
  tile 0 0 3 x = Some (Arr [6]%nat [1;2;1;2;1;2]) /\
  tile_grad 0 Rplus 0 (Arr [6]%nat [1;2;3;4;5;6]) = Some (Arr [1]%nat [21]) /\
  tile 0 (-1) 3 (Arr [2;1]%nat [1;2]) = Some (Arr [2;3]%nat [1;1;1;2;2;2]) /\
  tile_grad 0 Rplus (-1) (Arr [2;3]%nat [1;2;3;4;5;6]) = Some (Arr [2;1]%nat [6;15]).
Proof. cbv zeta. split; [reflexivity|]. split; [reals|]. split; [reflexivity|]. reals. Qed.

(** ** C33: reshape, flatten, squeeze, expand_dims *)
Theorem C33_reshape : forall (A : Type) dims out (x : arr A),
  length (a_data x) = prod (a_shape x) -> describes dims out -> prod out = prod (a_shape x) ->
  reshape dims x = Some (Arr out (a_data x)).
Proof. intros. apply reshape_ok; auto. Qed.
Print Assumptions C33_reshape.
Theorem C33_reshape_only : forall (A : Type) dims (x y : arr A), reshape dims x = Some y ->
  a_data y = a_data x /\ prod (a_shape y) = prod (a_shape x) /\ length (a_shape y) = length dims.
Proof.
  intros A dims x y E. unfold reshape in E. destruct (reshape_dims _ dims dims) as [sh|] eqn:Q; [|discriminate]. unfold bind, into_shape in E.
  destruct (Nat.eqb_spec (prod (a_shape x)) (prod sh)); [|discriminate]. injection E as <-. split; [reflexivity|]. split; [symmetry; exact e|].
  simpl. revert Q. generalize dims at 1. clear. intros d. revert sh. induction dims as [|z l IH]; intros sh Q; simpl in Q.
  - injection Q as <-. reflexivity.
  - destruct (reshape_dim _ d z) as [n|]; [|discriminate]. unfold bind in Q. destruct (reshape_dims _ d l) as [r|] eqn:Q2; [|discriminate]. injection Q as <-. simpl. f_equal. apply IH. reflexivity.
Qed.
Print Assumptions C33_reshape_only.
Theorem C33_reshape_gradient : forall dims out x gy,
  has_shape (a_shape x) x -> describes dims out -> prod out = prod (a_shape x) -> has_shape out gy ->
  exists gx, reshape_grad x gy = Some gx /\ vjp (reshape dims) x gy gx.
Proof.
  intros dims out x gy Hx D P Hg. pose proof Hx as [_ W]. pose proof Hg as [Sg Lg]. exists (Arr (a_shape x) (a_data gy)). split.
  - unfold reshape_grad. apply reshape_ok; [apply plain_shape|unfold wf; congruence|congruence].
  - apply (vjp_into_shape _ _ _ out); auto. intros x' [Sx' Lx']. apply reshape_ok; auto; unfold wf; congruence.
Qed.
Print Assumptions C33_reshape_gradient.
Theorem C33_flatten : forall (A : Type) (x : arr A), length (a_data x) = prod (a_shape x) -> flatten x = Some (Arr [length (a_data x)] (a_data x)).
Proof.
  intros A x W. apply reshape_ok; auto.
  - split; [apply Forall2_cons; [right; reflexivity|constructor]|]. split; [apply le_n|]. intros _ [H|[]]. discriminate.
  - simpl. rewrite W. lia.
Qed.
Print Assumptions C33_flatten.
Theorem C33_expand_dims : forall (A : Type) ax (x : arr A) out,
  NoDup ax -> List.Forall (fun k => (k < length out)%nat) ax -> unit_axes ax (a_shape x) out ->
  expand (map Z.of_nat ax) x = Some (Arr out (a_data x)).
Proof. intros. apply expand_ok; auto. Qed.
Print Assumptions C33_expand_dims.
Theorem C33_squeeze : forall (A : Type) (zero : A) ax x sh,
  length (a_data x) = prod (a_shape x) -> NoDup ax -> List.Forall (fun k => (k < length (a_shape x))%nat) ax -> unit_axes ax sh (a_shape x) ->
  squeeze zero (map Z.of_nat ax) x = Some (Arr sh (a_data x)).
Proof. intros. apply squeeze_ok; auto. Qed.
Print Assumptions C33_squeeze.
Theorem C33_squeeze_after_expand : forall (A : Type) (zero : A) ax x out,
  length (a_data x) = prod (a_shape x) -> NoDup ax -> List.Forall (fun k => (k < length out)%nat) ax -> unit_axes ax (a_shape x) out ->
  exists y, expand (map Z.of_nat ax) x = Some y /\ squeeze zero (map Z.of_nat ax) y = Some x.
Proof.
  intros A zero ax x out W ND B U. destruct (expand_ok ax x out ND B U) as [E P]. eexists. split; [exact E|].
  destruct (squeeze_ok zero ax (Arr out (a_data x)) (a_shape x)) as [Q _]; auto; [unfold wf; simpl; congruence|]. rewrite Q. destruct x; reflexivity.
Qed.
Print Assumptions C33_squeeze_after_expand.
Theorem C33_expand_dims_gradient : forall ax x out gy,
  has_shape (a_shape x) x -> NoDup ax -> List.Forall (fun k => (k < length out)%nat) ax -> unit_axes ax (a_shape x) out -> has_shape out gy ->
  exists gx, expand_grad 0 (map Z.of_nat ax) gy = Some gx /\ vjp (expand (map Z.of_nat ax)) x gy gx.
Proof.
  intros ax x out gy Hx ND B U Hg. pose proof Hx as [_ W]. pose proof Hg as [Sg Lg]. destruct (expand_ok ax x out ND B U) as [_ P].
  exists (Arr (a_shape x) (a_data gy)). split.
  - unfold expand_grad. destruct (squeeze_ok 0 ax gy (a_shape x)) as [Q _]; auto; [unfold wf; congruence|rewrite Sg; exact B|rewrite Sg; exact U].
  - apply (vjp_into_shape _ _ _ out); auto. intros x' [Sx' _]. apply expand_ok; auto. rewrite Sx'. exact U.
Qed.
Print Assumptions C33_expand_dims_gradient.
Theorem C33_squeeze_gradient : forall ax x sh gy,
  has_shape (a_shape x) x -> NoDup ax -> List.Forall (fun k => (k < length (a_shape x))%nat) ax -> unit_axes ax sh (a_shape x) -> has_shape sh gy ->
  exists gx, squeeze_grad (map Z.of_nat ax) gy = Some gx /\ vjp (squeeze 0 (map Z.of_nat ax)) x gy gx.
Proof.
  intros ax x sh gy Hx ND B U Hg. pose proof Hx as [_ W]. pose proof Hg as [Sg Lg]. destruct (squeeze_ok 0 ax x sh W ND B U) as [_ P].
  exists (Arr (a_shape x) (a_data gy)). split.
  - unfold squeeze_grad. destruct (expand_ok ax gy (a_shape x)) as [Q _]; auto. rewrite Sg. exact U.
  - apply (vjp_into_shape _ _ _ sh); auto. intros x' [Sx' Lx']. destruct (squeeze_ok 0 ax x' sh) as [Q _]; auto; try (rewrite Sx'; assumption). unfold wf. congruence.
Qed.
Print Assumptions C33_squeeze_gradient.
(** Negative axes.  expand_dims counts from the operand's rank, so -1 puts the
    new axis before the last one, not after it; its gradient then panics. *)
Lemma insert_at_app {X} (a : X) l m : insert_at (length l) a (l ++ m) = l ++ a :: m.
Proof. induction l as [|x l IH]; simpl; [destruct m; reflexivity|]. rewrite IH. reflexivity. Qed.
Lemma expand_last {A} (x : arr A) sh n : a_shape x = sh ++ [n] -> expand [(-1)%Z] x = Some (Arr (sh ++ [1; n])%nat (a_data x)).
Proof.
  intros S. unfold expand. simpl sortZ. cbn [expand_shape]. rewrite S, app_length. cbn [length]. change (-1 <? 0)%Z with true. cbv iota.
  destruct (Z.ltb_spec (Z.of_nat (length sh + 1) + -1) 0); [lia|]. replace (Z.to_nat (Z.of_nat (length sh + 1) + -1)) with (length sh) by lia.
  destruct (Nat.leb_spec (length sh) (length sh + 1)); [|lia]. unfold bind. rewrite insert_at_app. apply into_shape_get. rewrite S, !prod_app. simpl. lia.
Qed.
Lemma nth_error_last {X} (l m : list X) x : nth_error (l ++ x :: m) (length l) = Some x.
Proof. rewrite nth_error_app2, Nat.sub_diag by lia. reflexivity. Qed.
Theorem C33_expand_negative_axis_refuted : forall (x gy : arr R) sh n,
  a_shape x = sh ++ [n] -> n <> 1%nat ->
  expand [(-1)%Z] x = Some (Arr (sh ++ [1; n])%nat (a_data x)) /\ a_shape x ++ [1%nat] <> sh ++ [1; n]%nat /\
  (a_shape gy = sh ++ [1; n]%nat -> expand_grad 0 [(-1)%Z] gy = None).
Proof.
  intros x gy sh n S N. split; [apply expand_last; exact S|]. split.
  - rewrite S, <- app_assoc. intros E. apply app_inv_head in E. simpl in E. congruence.
  - intros Sg. unfold expand_grad, squeeze. simpl sortZ. cbn [squeeze_loop]. rewrite Sg, app_length. change (-1 <? 0)%Z with true. cbv iota.
    destruct (Z.ltb_spec (Z.of_nat (length sh + length ([1; n]%nat : list nat)) + -1 - Z.of_nat 0) 0) as [|_]; [reflexivity|].
    replace (Z.to_nat (Z.of_nat (length sh + length ([1; n]%nat : list nat)) + -1 - Z.of_nat 0)) with (length (sh ++ [1%nat])) by (rewrite app_length; simpl; lia).
    unfold drop_unit. rewrite Sg. replace (sh ++ [1; n])%nat with ((sh ++ [1]) ++ n :: [])%nat by (rewrite <- app_assoc; reflexivity).
    rewrite nth_error_last. destruct n as [|[|n]]; [reflexivity|congruence|reflexivity].
Qed.
Print Assumptions C33_expand_negative_axis_refuted.
(** squeeze with axis -1 works, but its gradient has the wrong shape. *)
Theorem C33_squeeze_negative_axis : forall (x gy : arr R) sh n,
  has_shape (sh ++ [n; 1]%nat) x -> has_shape (sh ++ [n]) gy ->
  squeeze 0 [(-1)%Z] x = Some (Arr (sh ++ [n]) (a_data x)) /\
  squeeze_grad [(-1)%Z] gy = Some (Arr (sh ++ [1; n])%nat (a_data gy)) /\
  (n <> 1%nat -> forall gx, squeeze_grad [(-1)%Z] gy = Some gx -> ~ vjp (squeeze 0 [(-1)%Z]) x gy gx).
Proof.
  intros x gy sh n [Sx Lx] [Sg Lg].
  assert (E : squeeze_grad [(-1)%Z] gy = Some (Arr (sh ++ [1; n])%nat (a_data gy))) by (apply expand_last; exact Sg).
  split; [|split; [exact E|]].
  - unfold squeeze. simpl sortZ. cbn [squeeze_loop]. rewrite Sx, app_length. change (-1 <? 0)%Z with true. cbv iota.
    destruct (Z.ltb_spec (Z.of_nat (length sh + length ([n; 1]%nat : list nat)) + -1 - Z.of_nat 0) 0) as [Q|_]; [simpl in Q; lia|].
    replace (Z.to_nat (Z.of_nat (length sh + length ([n; 1]%nat : list nat)) + -1 - Z.of_nat 0)) with (length (sh ++ [n])) by (rewrite app_length; simpl; lia).
    assert (S' : a_shape x = (sh ++ [n]) ++ 1%nat :: []) by (rewrite <- app_assoc; exact Sx).
    rewrite drop_unit_ok.
    + unfold bind. f_equal. f_equal. rewrite S'. generalize (sh ++ [n]) as l. induction l as [|a l IH]; simpl; [reflexivity|]. rewrite IH. reflexivity.
    + unfold wf. congruence.
    + rewrite S', (app_length (sh ++ [n])). simpl. lia.
    + rewrite S', app_nth2, Nat.sub_diag by lia. reflexivity.
  - intros N gx Eg [[S _] _]. rewrite E in Eg. injection Eg as <-. simpl in S. rewrite Sx in S. apply app_inv_head in S. congruence.
Qed.
Print Assumptions C33_squeeze_negative_axis.
(** Two negative axes: the second one is computed from the already reduced rank
    and lowered once more, so squeezing the two last axes panics. *)
Theorem C33_squeeze_two_negative_axes_refuted : forall (A : Type) (zero : A) x sh n,
  a_shape x = sh ++ [n; 1; 1]%nat -> length (a_data x) = prod (a_shape x) -> n <> 1%nat -> squeeze zero [(-1)%Z; (-2)%Z] x = None.
Proof.
  intros A zero x sh n S W N. unfold squeeze. simpl sortZ. cbn [squeeze_loop]. rewrite S, app_length. change (-2 <? 0)%Z with true. change (-1 <? 0)%Z with true. cbv iota.
  destruct (Z.ltb_spec (Z.of_nat (length sh + length ([n; 1; 1]%nat : list nat)) + -2 - Z.of_nat 0) 0) as [Q|_]; [simpl in Q; lia|].
  replace (Z.to_nat (Z.of_nat (length sh + length ([n; 1; 1]%nat : list nat)) + -2 - Z.of_nat 0)) with (length (sh ++ [n])) by (rewrite app_length; simpl; lia).
  assert (S' : a_shape x = (sh ++ [n]) ++ [1; 1]%nat) by (rewrite <- app_assoc; exact S).
  rewrite drop_unit_ok.
  - unfold bind. cbn [a_shape]. assert (R : remove_at (length (sh ++ [n])) (a_shape x) = sh ++ [n; 1]%nat).
    { rewrite S'. replace (sh ++ [n; 1])%nat with ((sh ++ [n]) ++ [1%nat]) by (rewrite <- app_assoc; reflexivity). generalize (sh ++ [n]) as l. induction l as [|a l IH]; simpl; [reflexivity|]. rewrite IH. reflexivity. }
    rewrite R, app_length. destruct (Z.ltb_spec (Z.of_nat (length sh + length ([n; 1]%nat : list nat)) + -1 - Z.of_nat 1) 0) as [_|_]; [reflexivity|].
    replace (Z.to_nat (Z.of_nat (length sh + length ([n; 1]%nat : list nat)) + -1 - Z.of_nat 1)) with (length sh) by (simpl; lia).
    unfold drop_unit. cbn [a_shape]. rewrite nth_error_last. destruct n as [|[|n]]; [reflexivity|congruence|reflexivity].
  - exact W.
  - rewrite S', (app_length (sh ++ [n])). simpl. lia.
  - rewrite S', app_nth2, Nat.sub_diag by lia. reflexivity.
Qed.
Print Assumptions C33_squeeze_two_negative_axes_refuted.
Example C33_hypotheses_met :
  let x := Arr [2;3]%nat [1;2;3;4;5;6] in
  describes [3; -1; 1]%Z [3;2;1]%nat /\ reshape [3; -1; 1]%Z x = Some (Arr [3;2;1]%nat [1;2;3;4;5;6]) /\
  unit_axes [3;0]%nat [2;3]%nat [1;2;3;1]%nat /\
  expand [3; 0]%Z x = Some (Arr [1;2;3;1]%nat [1;2;3;4;5;6]) /\
  squeeze 0 [3; 0]%Z (Arr [1;2;3;1]%nat [1;2;3;4;5;6]) = Some x /\
  expand [-1]%Z x = Some (Arr [2;1;3]%nat [1;2;3;4;5;6]) /\ reshape [4; -1]%Z x = None.
Proof.
  cbv zeta. split.
  { split; [repeat (apply Forall2_cons; [lia|]); constructor|]. split; [vm_compute; lia|]. simpl. intuition discriminate. }
  split; [reflexivity|]. split; [split; [reflexivity|]; split; [reflexivity|repeat constructor]|]. repeat split; reflexivity.
Qed.

(** ** C34: transpose *)
Theorem C34_transpose : forall (A : Type) (zero : A) p x,
  length (a_data x) = prod (a_shape x) -> length (a_shape x) = length p -> Permutation p (seq 0 (length p)) ->
  exists y, transpose zero false (map Z.of_nat p) x = Some y /\ permuted zero p x y /\ transpose zero true (map Z.of_nat p) y = Some x.
Proof.
  intros A zero p x W L P. destruct (transpose_ok zero p x L P) as (r & I & E & _). exists (permute zero p x). split; [exact E|].
  split; [apply (permuted_ok zero (length p) p r); auto|].
  assert (Lq : length (a_shape (permute zero p x)) = length p) by (unfold permute; simpl; apply map_length).
  destruct (transpose_ok zero p (permute zero p x) Lq P) as (r' & I' & _ & E'). rewrite E'. f_equal. apply (permute_back zero (length p)); auto.
Qed.
Print Assumptions C34_transpose.
Theorem C34_gradient : forall invert p x gy,
  has_shape (a_shape x) x -> length (a_shape x) = length p -> Permutation p (seq 0 (length p)) ->
  (exists y, transpose 0 invert (map Z.of_nat p) x = Some y /\ has_shape (a_shape y) gy) ->
  exists gx, transpose_grad 0 invert (map Z.of_nat p) gy = Some gx /\ vjp (transpose 0 invert (map Z.of_nat p)) x gy gx.
Proof.
  intros invert p x gy Hx L P (y & Ey & Hg). apply has_shape_wf in Hx. apply has_shape_wf in Hg. destruct Hx as [_ Wx], Hg as [Sg Wg].
  destruct (transpose_ok 0 p x L P) as (r & I & E1 & E2).
  assert (U : forall r', inverses (length p) p r' -> r' = r).
  { intros r' I'. apply (nth_ext _ _ 0%nat 0%nat); [rewrite (iv_lr _ _ _ I), (iv_lr _ _ _ I'); reflexivity|]. rewrite (iv_lr _ _ _ I'). intros k Hk.
    destruct (iv_r _ _ _ I k Hk) as [Q1 Q2]. rewrite <- Q2 at 1. apply (iv_p _ _ _ I' _ Q1). }
  assert (T : forall x' : arr R, length (a_shape x') = length p -> transpose 0 false (map Z.of_nat p) x' = Some (permute 0 p x') /\ transpose 0 true (map Z.of_nat p) x' = Some (permute 0 r x')).
  { intros x' L'. destruct (transpose_ok 0 p x' L' P) as (r' & I' & Q1 & Q2). rewrite (U r' I') in Q2. auto. }
  destruct invert; unfold transpose_grad; simpl negb.
  - rewrite E2 in Ey. injection Ey as <-. assert (Sg' : a_shape gy = pull r (a_shape x)) by exact Sg.
    exists (permute 0 p gy). split; [apply T; rewrite Sg', pull_length; apply I|].
    apply (permute_vjp (length p) r p); auto; [apply inverses_sym; exact I|]. intros x' S'. apply T. congruence.
  - rewrite E1 in Ey. injection Ey as <-. assert (Sg' : a_shape gy = pull p (a_shape x)) by exact Sg.
    exists (permute 0 r gy). split; [apply T; rewrite Sg', pull_length; reflexivity|].
    apply (permute_vjp (length p) p r); auto. intros x' S'. apply T. congruence.
Qed.
Print Assumptions C34_gradient.
Theorem C34_not_a_permutation : forall (A : Type) (zero : A) p x k, (k < length p)%nat -> ~ In k p -> transpose zero false (map Z.of_nat p) x = None.
Proof.
  intros A zero p x k Hk N. unfold transpose. destruct (_ =? _)%nat; [|reflexivity]. rewrite plain_of_nat. unfold bind.
  assert (Q : is_perm p = false).
  { apply not_true_is_false. intros Q. unfold is_perm in Q. rewrite forallb_forall in Q. specialize (Q k ltac:(apply in_seq; lia)).
    apply existsb_exists in Q. destruct Q as (j & Hj & E). apply Nat.eqb_eq in E. subst j. contradiction. }
  rewrite Q. reflexivity.
Qed.
Print Assumptions C34_not_a_permutation.
Example C34_hypotheses_met :
  let x := Arr [2;3;1]%nat [1;2;3;4;5;6] in
  Permutation [1;2;0]%nat (seq 0 3) /\
  transpose 0 false [1;2;0]%Z x = Some (Arr [3;1;2]%nat [1;4;2;5;3;6]) /\
  transpose 0 true [1;2;0]%Z (Arr [3;1;2]%nat [1;4;2;5;3;6]) = Some x.
Proof.
  cbv zeta. split; [|split; reflexivity].
  change (seq 0 3) with ([0] ++ [1;2])%nat. change [1;2;0]%nat with ([1;2] ++ [0])%nat. apply Permutation_app_comm.
Qed.

(** ** C41: add_n *)
Theorem C41_sum : forall sh xs, xs <> [] -> List.Forall (has_shape sh) xs ->
  exists y, add_n 0 Rplus xs = Some y /\ has_shape sh y /\
    forall i, in_bounds sh i -> aget 0 y i = fold_right Rplus 0 (map (fun x => aget 0 x i) xs).
Proof.
  intros sh xs N F. assert (F' : List.Forall (fun x => wf x /\ a_shape x = sh) xs).
  { eapply Forall_impl; [|exact F]. intros a Ha. apply has_shape_wf in Ha. tauto. }
  rewrite (add_n_ok sh xs N F'). eexists. split; [reflexivity|]. split; [apply tab_has_shape|]. intros i Hi. rewrite aget_tab by exact Hi. reflexivity.
Qed.
Print Assumptions C41_sum.
Theorem C41_gradient : forall sh xs m x gy, List.Forall (has_shape sh) xs -> nth_error xs m = Some x -> has_shape sh gy ->
  nth_error (add_n_grad (length xs) gy) m = Some gy /\ vjp (fun x' => add_n 0 Rplus (set_at m x' xs)) x gy gy.
Proof.
  intros sh xs m x gy F E Hg. split.
  - assert (Hm : (m < length xs)%nat) by (apply nth_error_Some; congruence). unfold add_n_grad. revert Hm. generalize (length xs). revert m E. clear.
    intros m _ n. revert m. induction n as [|n IH]; intros [|m] H; simpl; try lia; [reflexivity|]. apply IH. lia.
  - assert (F' : List.Forall (fun x => wf x /\ a_shape x = sh) xs).
    { eapply Forall_impl; [|exact F]. intros a Ha. apply has_shape_wf in Ha. tauto. }
    apply has_shape_wf in Hg. apply (add_n_vjp sh); tauto.
Qed.
Print Assumptions C41_gradient.
Example C41_hypotheses_met :
  let xs := [Arr [2]%nat [1;2]; Arr [2]%nat [3;4]; Arr [2]%nat [5;6]] in
  List.Forall (has_shape [2]%nat) xs /\ add_n 0 Rplus xs = Some (Arr [2]%nat [9;12]).
Proof. cbv zeta. split; [repeat constructor|]. reals. Qed.

(** ** C42: setdiff1d *)
Lemma setdiff_in a b z : In z (setdiff1d a b) <-> In z a /\ ~ In z b.
Proof.
  unfold setdiff1d. assert (P := sortZ_perm (nodup Z.eq_dec (filter (fun x => negb (existsb (Z.eqb x) b)) a))).
  transitivity (In z (nodup Z.eq_dec (filter (fun x => negb (existsb (Z.eqb x) b)) a))).
  { split; intros H; [apply (Permutation_in z (Permutation_sym P)); exact H|apply (Permutation_in z P); exact H]. }
  rewrite nodup_In, filter_In. rewrite negb_true_iff. split; intros [H1 H2]; split; auto.
  - intros H. assert (existsb (Z.eqb z) b = true) by (apply existsb_exists; exists z; split; [exact H|apply Z.eqb_refl]). congruence.
  - apply not_true_is_false. intros Q. apply existsb_exists in Q. destruct Q as (y & Hy & E). apply Z.eqb_eq in E. subst y. contradiction.
Qed.
Lemma sorted_strict l : StronglySorted Z.le l -> NoDup l -> StronglySorted Z.lt l.
Proof.
  intros S. induction S as [|x l S IH F]; intros N; constructor; inversion N; subst; auto. rewrite Forall_forall in *. intros y Hy.
  assert (x <> y) by (intros ->; contradiction). specialize (F y Hy). lia.
Qed.
Theorem C42_setdiff1d : forall a b,
  (forall z, In z (setdiff1d a b) <-> In z a /\ ~ In z b) /\ StronglySorted Z.lt (setdiff1d a b).
Proof.
  intros a b. split; [intros z; apply setdiff_in|]. apply sorted_strict; [apply sortZ_sorted|].
  unfold setdiff1d. apply (Permutation_NoDup (sortZ_perm _)). apply NoDup_nodup.
Qed.
Print Assumptions C42_setdiff1d.
(** On tensors whose elements are integers this is the set difference; elements
    with a fraction are truncated first, so the claim fails for them. *)
Lemma truncate_IZR z : truncate (IZR z) = z.
Proof.
  assert (I : forall y, Int_part (IZR y) = y).
  { intros y. unfold Int_part. rewrite <- (tech_up (IZR y) (y + 1)); [lia| |]; rewrite plus_IZR; lra. }
  unfold truncate. destruct (Rle_dec 0 (IZR z)); [apply I|]. rewrite <- opp_IZR, I. lia.
Qed.
Theorem C42_integer_tensors : forall a b,
  (forall r, In r (setdiff1d_real (map IZR a) (map IZR b)) <-> In r (map IZR a) /\ ~ In r (map IZR b)) /\
  StronglySorted Rlt (setdiff1d_real (map IZR a) (map IZR b)).
Proof.
  intros a b. unfold setdiff1d_real.
  assert (M : forall l, map truncate (map IZR l) = l) by (induction l as [|z l IH]; simpl; rewrite ?truncate_IZR; congruence). rewrite !M.
  destruct (C42_setdiff1d a b) as [H S]. split.
  - intros r. rewrite !in_map_iff. split.
    + intros (z & <- & Hz). apply H in Hz. destruct Hz as [H1 H2]. split; [exists z; auto|]. intros (y & E & Hy). apply eq_IZR in E. subst y. contradiction.
    + intros [(z & <- & Hz) N]. exists z. split; [reflexivity|]. apply H. split; [exact Hz|]. intros Hb. apply N. exists z. auto.
  - clear H. induction S as [|x l S IH F]; simpl; constructor; auto. rewrite Forall_forall in *. intros r Hr. apply in_map_iff in Hr. destruct Hr as (y & <- & Hy). apply IZR_lt. auto.
Qed.
Print Assumptions C42_integer_tensors.
Theorem C42_fractions_refuted : setdiff1d_real [3/2; 1] [1] = [] /\ setdiff1d_real [3/2] [] = [1].
Proof.
  assert (T : truncate (3/2) = 1%Z).
  { unfold truncate. destruct (Rle_dec 0 (3/2)); [|lra]. unfold Int_part. rewrite <- (tech_up (3/2) 2) by lra. reflexivity. }
  unfold setdiff1d_real. simpl map. rewrite T. change 1 with (IZR 1). rewrite truncate_IZR. split; reflexivity.
Qed.
Print Assumptions C42_fractions_refuted.
Example C42_hypotheses_met : setdiff1d [5;3;3;-2;9]%Z [9;4]%Z = [-2;3;5]%Z.
Proof. reflexivity. Qed.

(** ** C44: clip *)
Theorem C44_clip : forall lo hi x i, lo <= hi -> has_shape (a_shape x) x -> in_bounds (a_shape x) i ->
  let y := clip lo hi x in has_shape (a_shape x) y /\ lo <= aget 0 y i <= hi /\
  (lo <= aget 0 x i <= hi -> aget 0 y i = aget 0 x i) /\ (aget 0 x i < lo -> aget 0 y i = lo) /\ (hi < aget 0 x i -> aget 0 y i = hi).
Proof.
  intros lo hi x i H Hx Hi. cbv zeta. apply has_shape_wf in Hx. destruct Hx as [_ W]. split.
  - split; [reflexivity|]. unfold clip. simpl. rewrite map_length. exact W.
  - unfold clip. rewrite (aget_map 0 0 _ x i W Hi). unfold Rmax, Rmin. destruct (Rle_dec (aget 0 x i) hi); destruct (Rle_dec _ lo); lra.
Qed.
Print Assumptions C44_clip.
Lemma amap_get (f : R -> R) x i : wf x -> in_bounds (a_shape x) i -> aget 0 (amap f x) i = f (aget 0 x i).
Proof. intros W H. apply (aget_map 0 0 f x i W H). Qed.
Lemma clip_derivative lo hi a : (lo < hi -> a <> lo /\ a <> hi) -> derivable_pt_lim (fun z => Rmax (Rmin z hi) lo) a (within lo hi a).
Proof.
  intros H. destruct (Rlt_dec lo hi) as [L|L].
  - destruct (H L) as [N1 N2]. unfold within.
    assert (Loc : forall (f : R -> R) c d, 0 < d -> derivable_pt_lim f a c -> (forall z, Rabs (z - a) < d -> Rmax (Rmin z hi) lo = f z) -> derivable_pt_lim (fun z => Rmax (Rmin z hi) lo) a c).
    { intros f c d Hd D E eps He. destruct (D eps He) as [[del Hdel] Q]. simpl in Q.
      assert (Hm : 0 < Rmin del d) by (apply Rmin_pos; auto). exists (mkposreal _ Hm). simpl. intros h Hh Hb.
      rewrite (E (a + h)) by (replace (a + h - a) with h by ring; eapply Rlt_le_trans; [exact Hb|apply Rmin_r]).
      rewrite (E a) by (rewrite Rminus_diag_eq by reflexivity; rewrite Rabs_R0; exact Hd).
      apply Q; [exact Hh|]. eapply Rlt_le_trans; [exact Hb|apply Rmin_l]. }
    destruct (Rlt_dec lo a) as [A|A]; destruct (Rlt_dec a hi) as [B|B].
    + rewrite Rmult_1_l. apply (Loc (fun z => z) 1 (Rmin (a - lo) (hi - a))); [apply Rmin_pos; lra|apply derivable_pt_lim_id|].
      intros z Hz. assert (Q1 := Rlt_le_trans _ _ _ Hz (Rmin_l _ _)). assert (Q2 := Rlt_le_trans _ _ _ Hz (Rmin_r _ _)).
      apply Rabs_def2 in Q1. apply Rabs_def2 in Q2. rewrite Rmin_left by lra. apply Rmax_left. lra.
    + rewrite Rmult_0_r. apply (Loc (fun _ => hi) 0 (a - hi)); [lra|apply derivable_pt_lim_const|].
      intros z Hz. apply Rabs_def2 in Hz. rewrite Rmin_right by lra. apply Rmax_left. lra.
    + rewrite Rmult_0_l. apply (Loc (fun _ => lo) 0 (lo - a)); [lra|apply derivable_pt_lim_const|].
      intros z Hz. apply Rabs_def2 in Hz. rewrite Rmin_left by lra. apply Rmax_right. lra.
    + lra.
  - assert (W0 : within lo hi a = 0) by (unfold within; destruct (Rlt_dec lo a), (Rlt_dec a hi); lra). rewrite W0.
    apply (derivable_ext (fun _ => lo)); [|apply derivable_pt_lim_const].
    intros z. unfold Rmax, Rmin. destruct (Rle_dec z hi); destruct (Rle_dec _ lo); lra.
Qed.
Theorem C44_gradient : forall lo hi x gy, has_shape (a_shape x) x -> has_shape (a_shape x) gy ->
  (lo < hi -> forall a, In a (a_data x) -> a <> lo /\ a <> hi) ->
  exists gx, clip_grad lo hi x gy = Some gx /\ vjp (fun x => Some (clip lo hi x)) x gy gx /\
    forall i, in_bounds (a_shape x) i -> aget 0 gx i = if Rlt_dec lo (aget 0 x i) then if Rlt_dec (aget 0 x i) hi then aget 0 gy i else 0 else 0.
Proof.
  intros lo hi x gy Hx Hg N. apply has_shape_wf in Hx. apply has_shape_wf in Hg. destruct Hx as [_ Wx], Hg as [Sg Wg].
  unfold clip_grad, zip_mut. simpl a_shape. rewrite Sg, can_broadcast_refl. eexists. split; [reflexivity|].
  assert (G : forall i, in_bounds (a_shape x) i -> aget 0 (tab (a_shape x) (fun i => rget (amap (within lo hi) x) i * rget gy (bc_idx (a_shape x) i))) i = rget gy i * within lo hi (rget x i)).
  { intros i Hi. rewrite aget_tab by exact Hi. rewrite bc_idx_self by exact Hi. rewrite amap_get by auto. ring. }
  split.
  - apply (vjp_elementwise _ _ _ _ (fun i => i) (fun _ z => Rmax (Rmin z hi) lo) (fun i => within lo hi (rget x i))); auto; rewrite ?Sg.
    + apply tab_wf.
    + intros i Hi. exact Hi.
    + intros x' Hx'. apply has_shape_wf in Hx'. destruct Hx' as [Sx' Wx']. eexists. split; [reflexivity|]. split.
      * apply has_shape_wf. split; [exact Sx'|]. apply amap_wf. exact Wx'.
      * intros i Hi. apply amap_get; [exact Wx'|]. rewrite Sx'. exact Hi.
    + intros i Hi. apply clip_derivative. intros L. apply (N L). apply nth_In. rewrite Wx. apply ravel_lt. exact Hi.
    + apply (sums_along_bijection 0 1 Rplus Rmult Rminus Ropp RT _ (fun i => i)); simpl; auto.
      * intros i Hi. exact Hi.
      * intros i Hi. unfold get. rewrite G by exact Hi. rewrite aget_tab by exact Hi. reflexivity.
  - intros i Hi. rewrite G by exact Hi. unfold within. destruct (Rlt_dec lo (rget x i)), (Rlt_dec (rget x i) hi); ring.
Qed.
Print Assumptions C44_gradient.
(** On the bounds themselves the gradient is 0. *)
Theorem C44_on_the_bound : forall lo hi g, clip_grad lo hi (Arr [] [lo]) (Arr [] [g]) = Some (Arr [] [0]) /\ clip_grad lo hi (Arr [] [hi]) (Arr [] [g]) = Some (Arr [] [0]).
Proof.
  intros lo hi g. unfold clip_grad, zip_mut. simpl. unfold tab, aget. simpl. split; f_equal; f_equal; f_equal; unfold within.
  - destruct (Rlt_dec lo lo); [lra|]. ring.
  - destruct (Rlt_dec hi hi); [lra|]. ring.
Qed.
Print Assumptions C44_on_the_bound.
Example C44_hypotheses_met :
  let x := Arr [3]%nat [2;4;6] in 3 < 5 /\ (forall a, In a (a_data x) -> a <> 3 /\ a <> 5) /\
  clip 3 5 x = Arr [3]%nat [3;4;5].
Proof.
  cbv zeta. split; [lra|]. split; [simpl; intros a [<-|[<-|[<-|[]]]]; lra|]. unfold clip, amap. simpl.
  rewrite (Rmin_left 2 5), (Rmin_left 4 5), (Rmin_right 6 5), (Rmax_right 2 3), (Rmax_left 4 3), (Rmax_left 5 3) by lra. reflexivity.
Qed.

(** ** C46: access_elem *)
Theorem C46_access_elem : forall (A : Type) (zero : A) i x, (- Z.of_nat (length (a_data x)) <= i < Z.of_nat (length (a_data x)))%Z ->
  access_elem zero i x = Some (Arr [] [nth (Z.to_nat (if (i <? 0)%Z then Z.of_nat (length (a_data x)) + i else i)%Z) (a_data x) zero]).
Proof.
  intros A zero i x H. unfold access_elem, elem_pos. cbv zeta.
  replace ((0 <=? (if (i <? 0) then Z.of_nat (length (a_data x)) + i else i)) && ((if (i <? 0) then Z.of_nat (length (a_data x)) + i else i) <? Z.of_nat (length (a_data x))))%Z with true; [reflexivity|].
  symmetry. apply andb_true_iff. rewrite Z.leb_le, Z.ltb_lt. destruct (Z.ltb_spec i 0); lia.
Qed.
Print Assumptions C46_access_elem.
Theorem C46_out_of_range : forall (A : Type) (zero : A) i x g, (i < - Z.of_nat (length (a_data x)) \/ Z.of_nat (length (a_data x)) <= i)%Z ->
  access_elem zero i x = None /\ access_elem_grad zero i x g = None.
Proof.
  intros A zero i x g H. assert (E : elem_pos (length (a_data x)) i = None).
  { unfold elem_pos. cbv zeta. destruct (Z.ltb_spec i 0).
    - destruct (Z.leb_spec 0 (Z.of_nat (length (a_data x)) + i)); [lia|reflexivity].
    - destruct (Z.ltb_spec i (Z.of_nat (length (a_data x)))); [lia|]. rewrite andb_false_r. reflexivity. }
  unfold access_elem, access_elem_grad. rewrite E. auto.
Qed.
Print Assumptions C46_out_of_range.
Theorem C46_gradient : forall i x g, has_shape (a_shape x) x -> (- Z.of_nat (length (a_data x)) <= i < Z.of_nat (length (a_data x)))%Z ->
  exists gx, access_elem_grad 0 i x g = Some gx /\ vjp (access_elem 0 i) x (Arr [] [g]) gx.
Proof.
  intros i x g [_ W] H. destruct (elem_pos (length (a_data x)) i) as [k|] eqn:E; [apply (access_vjp i x g k W E)|exfalso].
  unfold elem_pos in E. destruct (Z.ltb_spec i 0); destruct (_ && _)%bool eqn:B; try discriminate; apply andb_false_iff in B; rewrite Z.leb_gt, Z.ltb_ge in B; lia.
Qed.
Print Assumptions C46_gradient.
Example C46_hypotheses_met :
  let x := Arr [2;2]%nat [1;2;3;4] in
  access_elem 0 (-2) x = Some (Arr [] [3]) /\ access_elem_grad 0 (-2) x 7 = Some (Arr [2;2]%nat [0;0;7;0]).
Proof. split; reflexivity. Qed.
