(** Jacobians: rows, flattening and stacking. *)
From Coq Require Import String List Arith ZArith NArith Bool Lia Reals Lra Relations Operators_Properties.
From Coquelicot Require Import Coquelicot.
Import ListNotations.
From Verif Require Import Graph_Model Eval_Model Eval_Spec Eval_Proofs Graph_Proofs Grad_Model Grad_Spec
  Scalar_Model Scalar_Spec Scalar_Proofs.
From Verif Require Import Array_Model Array_Proofs Array_Sum Arith_Model Arith_Proofs Arith_Final Vjp_Spec Vjp_Proofs
  Reduce_Model Reduce_Spec Reduce_Proofs Shape_Model Shape_Spec Shape_Proofs
  Tens_Model Tens_Spec Tens_Fwd Tens_Fwd2 Tens_Fwd3 Tens_Build Tens_Rules Tens_Final Jac_Model.
Local Set Bullet Behavior "Strict Subproofs".
Local Open Scope R_scope.

(** ** The elements of the objective *)
Definition index_node (y : nat) (i : Z) (n : node top) : Prop :=
  n_op n = TIndex i /\ n_inputs n = [Incoming y false 0] /\ n_diff n = true.
Lemma a_access_node y i s t s' : a_access y i s = Some (t, s') -> t = length s /\ exists n, s' = s ++ [n] /\ index_node y i n.
Proof.
  unfold a_access, tmk. destruct (build s _ _) as [[s1 id]|] eqn:E; intros H; inv H. apply build_spec in E.
  destruct E as (-> & _ & ->). split; [reflexivity|]. eexists. split; [reflexivity|]. repeat split.
Qed.
Lemma depends_index (g' : tgraph) y i y' n k : nth_error g' y' = Some n -> index_node y i n -> depends g' y' k -> k = y' \/ depends g' y k.
Proof.
  intros Hn (_ & Si & _) Hd. apply clos_rt_rt1n in Hd. inv Hd; auto. right.
  destruct H as (n' & inc & Hn' & Hin & Hk). assert (n' = n) by congruence. subst n'. rewrite Si in Hin.
  destruct Hin as [<-|[]]. simpl in Hk. subst. apply clos_rt1n_rt. auto.
Qed.
Lemma smooth_index ls g g' rho x y i y' n : twf ls g -> grows g g' -> (y < length g)%nat ->
  nth_error g' y' = Some n -> index_node y i n -> t_smooth ls g rho x y -> t_smooth ls g' rho x y'.
Proof.
  intros W G Hy Hn Hsn Hs k m sh Hyi Hix Hne Hm Hty Hsz.
  pose proof (t_smooth_grows ls g g' rho x y W G Hy Hs) as Hs'.
  destruct (depends_index g' y i y' n k Hn Hsn Hyi) as [->|Hd].
  - assert (m = n) by congruence. subst m. destruct Hsn as (So & Si & Sd). split; auto. split; [left; rewrite So; unfold in_vals; rewrite Si; exact I|]. rewrite So. intros p inc _ Hz. discriminate Hz.
  - apply (Hs' k m sh); auto.
Qed.
Lemma fits_index ls g g' y i y' n : twf ls g -> grows g g' -> (y < length g)%nat ->
  nth_error g' y' = Some n -> index_node y i n -> fits ls g y -> fits ls g' y'.
Proof.
  intros W G Hy Hn Hsn Hf k m ts Hyi Hm HL.
  destruct (depends_index g' y i y' n k Hn Hsn Hyi) as [->|Hd].
  - assert (m = n) by congruence. subst m. destruct Hsn as (So & _). rewrite So. reflexivity.
  - apply (fits_grows ls g g' y W G Hy Hf k m ts); auto.
Qed.
Lemma elem_pos_nat n i : (i < n)%nat -> elem_pos n (Z.of_nat i) = Some i.
Proof.
  intros H. unfold elem_pos. destruct (Z.ltb_spec (Z.of_nat i) 0); [lia|].
  rewrite (proj2 (Z.leb_le 0 (Z.of_nat i))) by lia. rewrite (proj2 (Z.ltb_lt (Z.of_nat i) (Z.of_nat n))) by lia.
  cbn [andb]. rewrite Nat2Z.id. reflexivity.
Qed.
Lemma a_access_spec ls y sh i s t s' : twf ls s -> typed ls s y (TyA sh) -> (i < prod sh)%nat ->
  a_access y (Z.of_nat i) s = Some (t, s') ->
  twf ls s' /\ grows s s' /\ typed ls s' t (TyA []) /\
  forall rho, conform ls rho -> aval rho s' t = Arr [] [nth i (a_data (aval rho s y)) 0].
Proof.
  intros W Hy Hi H. pose proof (elem_pos_nat _ _ Hi) as E.
  destruct (tmk_spec ls [y] None true (TIndex (Z.of_nat i)) [TyA sh] (TyA []) s t s') as (W' & G & T & HV); auto.
  - discriminate.
  - repeat constructor. exact Hy.
  - cbn [op_ty]. rewrite E. reflexivity.
  - discriminate.
  - split; auto. split; auto. split; auto. intros rho C. apply holds_aval. apply HV. destruct (typed_aval ls rho s y sh C Hy) as [H1 H2].
    exists [TA (aval rho s y)]. split; [repeat constructor; exact H1|]. cbn [tcompute]. unfold access_elem.
    rewrite (hs_wf _ _ H2 : length _ = _), (hs_sh _ _ H2), E. reflexivity.
Qed.

(** Element [i] of [y] moves at the rate [dot (row) v]. *)
Definition row_of (ls : nat -> list nat) (y : nat) (g : tgraph) (i : nat) (g' : tgraph) (x t : nat) : Prop :=
  shaped ls g' t (ls x) /\
  forall rho v, conform ls rho -> has_shape (ls x) v -> t_smooth ls g rho x y ->
    derivable_pt_lim (fun s => nth i (a_data (aval (put rho x (step (rho x) v s)) g y)) 0) 0 (dot (aval rho g' t) v).
Lemma put_conform ls rho x v s : conform ls rho -> has_shape (ls x) v -> conform ls (put rho x (step (rho x) v s)).
Proof.
  intros C Hv i. unfold put. destruct (Nat.eqb_spec i x) as [->|]; [|apply C]. apply step_has_shape; auto.
Qed.
Lemma t_rows_spec pop debug fuel y xs sh ls : (forall g, heap_pop g (pop g)) -> NoDup xs -> forall n i g rows g',
  twf ls g -> fits ls g y -> shaped ls g y sh -> (i + n <= prod sh)%nat -> (forall x, In x xs -> t_input_leaf g x) ->
  t_rows pop debug fuel y xs n i g = Ok (rows, g') ->
  twf ls g' /\ grows g g' /\ length rows = n /\
  forall k r, nth_error rows k = Some r -> Forall2 (row_of ls y g (i + k) g') xs r.
Proof.
  intros Hpop Nx. induction n as [|n IH]; intros i g rows g' W Hf Hy Hb Hx H; simpl in H.
  { inv H. split; auto. split; [apply grows_refl|]. split; [reflexivity|]. intros [|k] r Hk; discriminate. }
  destruct (a_access y (Z.of_nat i) g) as [[e g1]|] eqn:EA; [|discriminate].
  destruct (t_grad pop debug fuel [e] xs g1) as [[[l g2] log]| |] eqn:EG; [|discriminate|discriminate].
  destruct (t_rows pop debug fuel y xs n (S i) g2) as [[rows2 g3]| |] eqn:ER; [|discriminate|discriminate]. inv H.
  assert (Ly : (y < length g)%nat) by (eapply typed_lt; exact Hy).
  destruct (a_access_node _ _ _ _ _ EA) as (Ee & nd & Eg & Hnd).
  destruct (a_access_spec ls y sh i g e g1 W Hy) as (W1 & G1 & T1 & V1); auto; [lia|].
  assert (Hnn : nth_error g1 e = Some nd) by (rewrite Ee, Eg, nth_error_app2, Nat.sub_diag by lia; reflexivity). clear Ee Eg.
  apply (tgrad_derivative pop debug fuel [e] xs ls) in EG; auto.
  2: { intros z [<-|[]]. split; [apply (fits_index ls g g1 y (Z.of_nat i) e nd); auto|]. exists []. exact T1. }
  2: { intros x Hin. destruct (Hx x Hin) as (m & A & B). exists m. split; auto. eapply grows_nth; eauto. }
  destruct EG as (W2 & G2 & HR). assert (G02 : grows g g2) by (eapply grows_trans; eauto).
  destruct (IH (S i) g2 rows2 g' W2) as (W3 & G3 & L3 & HR3); auto.
  - apply (fits_grows ls g g2); auto.
  - eapply grows_typed; eauto.
  - lia.
  - intros x Hin. destruct (Hx x Hin) as (m & A & B). exists m. split; auto. eapply grows_nth; eauto.
  - split; auto. split; [eapply grows_trans; eauto|]. split; [simpl; lia|]. intros [|k] r Hk.
    + simpl in Hk. inv Hk. rewrite Nat.add_0_r. clear -HR G3 V1 G1 G2 G02 Hnn Hnd Hf W Ly W2 Hy.
      induction HR as [|x r xs l [S1 D1] HR IH]; [constructor|]. simpl. constructor; [|exact IH]. split.
      * eapply grows_typed; eauto.
      * intros rho v C Hv Hs. rewrite (grows_aval rho g2 g') by (auto; eapply typed_lt; exact S1).
        assert (D := D1 rho v C Hv). apply is_derive_Reals. assert (D2 : derivable_pt_lim
          (fun t => fold_right Rplus 0 (map (fun y => elements_sum (aval (put rho x (step (rho x) v t)) g1 y)) [e])) 0 (dot (aval rho g2 (fst r)) v)).
        { apply D. intros z [<-|[]]. apply (smooth_index ls g g1 rho x y (Z.of_nat i) e nd); auto. }
        apply is_derive_Reals in D2. eapply is_derive_fext; [|exact D2]. intros s. cbv beta. cbn [map fold_right].
        rewrite V1 by (apply put_conform; auto). unfold elements_sum. simpl. ring.
    + simpl in Hk. specialize (HR3 k r Hk). replace (S i + k)%nat with (i + S k)%nat in HR3 by lia.
      eapply Forall2_imp; [|exact HR3]. intros x t [S1 D1]. split; auto. intros rho v C Hv Hs.
      specialize (D1 rho v C Hv (t_smooth_grows ls g g2 rho x y W G02 Ly Hs)). apply is_derive_Reals in D1. apply is_derive_Reals.
      eapply is_derive_fext; [|exact D1]. intros s. cbv beta. rewrite (grows_aval _ g g2) by auto. reflexivity.
Qed.

(** ** Building without regard to attached shape tensors *)
Ltac bindH H := unfold tbind in H;
  match type of H with match ?m with _ => _ end = _ =>
    let t := fresh "t" in let s := fresh "s" in let E := fresh "E" in
    destruct m as [[t s]|] eqn:E; [|discriminate] end.
Section Loosely.
Variable ls : nat -> list nat.
Lemma tmk_loose' ins sh diff o ts t0 s t s' : loose s -> o <> TLeaf -> tmk ins sh diff o s = Some (t, s') -> typedl ls s ins ts -> op_ty o ts = Some t0 ->
  loose s' /\ grows s s' /\ typed ls s' t t0 /\
  forall rho vs v, holdsl rho s ins vs -> tcompute o vs = Some v -> holds rho s' t v.
Proof.
  intros W Ho Hmk HF Hty. unfold tmk in Hmk.
  destruct (build s _ o) as [[s1 id]|] eqn:Hb; inv Hmk.
  apply build_spec in Hb. destruct Hb as (Hid & _ & Hs). subst t.
  set (n := Node o _ _ _ _ _ _ _ _) in Hs. subst s'.
  assert (Hln : lookups (ttypes ls s) (n_inputs n) = Some ts).
  { apply lookups_spec. simpl. clear -HF. induction HF; simpl; constructor; auto. }
  assert (Hnt : tnode_ty ls (length s) n (ttypes ls s) = Some t0).
  { rewrite tnode_ty_op by exact Ho. rewrite Hln. exact Hty. }
  assert (G : grows s (s ++ [n])) by (exists [n]; reflexivity).
  assert (Hin : forall inc, In inc (n_inputs n) -> (in_id inc < length s)%nat).
  { intros inc Hinc. apply lookups_spec in Hln. apply In_nth_error in Hinc. destruct Hinc as (k & Hk).
    destruct (Forall2_nth _ _ _ _ _ Hln Hk) as (bb & _ & _ & Hb2). eapply typed_lt. exact Hb2. }
  split; [|split; [exact G|split]].
  - destruct W as [W1 W2 W3 W4]. constructor.
    + intros i m inc Hi Hinc. apply nth_snoc_cases in Hi. destruct Hi as [[Hi _]|[-> ->]]; [eauto|auto].
    + intros i m Hi Hop. apply nth_snoc_cases in Hi. destruct Hi as [[Hi Hl]|[-> ->]]; [eauto|]. simpl in Hop. congruence.
    + intros i m Hi Hop. apply nth_snoc_cases in Hi. destruct Hi as [[Hi Hl]|[-> ->]]; [eauto|]. simpl. auto.
    + intros i m inc Hi Hinc. apply nth_snoc_cases in Hi. destruct Hi as [[Hi Hl]|[-> ->]]; [eauto|].
      simpl in Hinc. apply in_map_iff in Hinc. destruct Hinc as (a & <- & _). reflexivity.
  - unfold typed, ttypes. rewrite scan_snoc, nth_error_app2; rewrite scan_length; auto. rewrite Nat.sub_diag. simpl.
    fold (ttypes ls s). rewrite Hnt. reflexivity.
  - intros rho vs v HV HC. apply (node_holds rho (s ++ [n]) (length s) n vs v); auto.
    + rewrite nth_error_app2, Nat.sub_diag by lia. reflexivity.
    + simpl. clear -HV G. clearbody n. induction HV as [|a b ins vs Hab HV IH]; simpl; constructor; auto.
      split; [reflexivity|]. split; [eapply holds_lt; eauto|]. eapply grows_holds; eauto.
Qed.
Lemma a_shape_of_loose x sh s t s' : loose s -> typed ls s x (TyA sh) -> a_shape_of x s = Some (t, s') -> loose s' /\ grows s s'.
Proof.
  unfold a_shape_of. intros W Hx. destruct (nth_error s x) as [n|] eqn:E; [|discriminate].
  destruct (n_shape n) as [id|]; intros H.
  - inv H. split; [exact W|apply grows_refl].
  - apply (tmk_loose' [x] None false TShape [TyA sh] (TyI (shape_vec sh))) in H; auto; [|discriminate|repeat constructor; auto].
    destruct H as (A & B & _). auto.
Qed.
Lemma a_ints_loose l s t s' : loose s -> a_ints l s = Some (t, s') -> loose s' /\ grows s s' /\ typed ls s' t (TyI l) /\ forall rho, holds rho s' t (TI l).
Proof.
  intros W H. unfold a_ints in H. bindH H.
  apply (tmk_loose' [] None true _ [] (TyI [Z.of_nat (length l)])) in E; auto; try discriminate; [|constructor]. destruct E as (W1 & G1 & T1 & _).
  apply (tmk_loose' [] (Some t0) true _ [] (TyI l)) in H; auto; try discriminate; [|constructor]. destruct H as (W2 & G2 & T2 & H2).
  split; auto. split; [eapply grows_trans; eauto|]. split; auto. intros rho. apply (H2 rho []); [constructor|reflexivity].
Qed.
(** A gradient as a row. *)
Lemma flat_loose t sh s f s1 e s2 : loose s -> typed ls s t (TyA sh) -> a_flatten t s = Some (f, s1) -> a_expand_dims f [0%Z] s1 = Some (e, s2) ->
  loose s2 /\ grows s s2 /\ typed ls s2 e (TyA [1%nat; prod sh]) /\
  forall rho, conform ls rho -> aval rho s2 e = Arr [1%nat; prod sh] (a_data (aval rho s t)).
Proof.
  intros W Ht HF HE. unfold a_flatten in HF. bindH HF. apply a_ints_loose in E; auto. destruct E as (W0 & G0 & _).
  bindH HF. apply (tmk_loose' [] (Some t0) true _ [] (TyI [(-1)%Z])) in E; auto; try discriminate; [|constructor]. destruct E as (Wa & Ga & Ta & Ha).
  assert (Ga' : grows s s3) by (eapply grows_trans; eauto).
  bindH HF. apply (a_shape_of_loose t sh) in E; auto; [|eapply grows_typed; eauto]. destruct E as (Wb & Gb).
  assert (Gb' : grows s s4) by (eapply grows_trans; eauto).
  assert (RD : reshape_dims (prod sh) [(-1)%Z] [(-1)%Z] = Some [prod sh]).
  { cbn. rewrite Z.div_1_r, Nat2Z.id. reflexivity. }
  apply (tmk_loose' [t; t1] (Some t2) true TReshape [TyA sh; TyI [(-1)%Z]] (TyA [prod sh])) in HF; auto; try discriminate.
  2: { constructor; [apply (grows_typed ls s s4); auto|]. constructor; [apply (grows_typed ls s3 s4); auto|constructor]. }
  2: { cbn [op_ty]. rewrite RD. replace (prod [prod sh]) with (prod sh) by (simpl; lia). rewrite Nat.eqb_refl. reflexivity. }
  destruct HF as (Wc & Gc & Tc & Hc).
  unfold a_expand_dims in HE. bindH HE. apply a_ints_loose in E; auto. destruct E as (Wd & Gd & Td & Hd).
  apply (tmk_loose' [f; t3] None true TExpandDims [TyA [prod sh]; TyI [0%Z]] (TyA [1%nat; prod sh])) in HE; auto; try discriminate.
  2: { constructor; [apply (grows_typed ls s1 s5); auto|]. constructor; [exact Td|constructor]. }
  2: { cbn [op_ty]. cbn. replace (unit_axesb [0%nat] [prod sh] [1%nat; prod sh]) with true; [reflexivity|]. unfold unit_axesb. change (drop_axes [0%nat] [1%nat; prod sh]) with [prod sh]. rewrite shape_eqb_refl. reflexivity. }
  destruct HE as (We & Ge & Te & He).
  split; auto. split; [eapply grows_trans; [exact Gb'|]; eapply grows_trans; [exact Gc|]; eapply grows_trans; [exact Gd|exact Ge]|]. split; auto.
  intros rho C. destruct (typed_aval ls rho s t sh C Ht) as [H1 H2]. apply holds_aval.
  apply (He rho [TA (Arr [prod sh] (a_data (aval rho s t))); TI [0%Z]]).
  - constructor; [|constructor; [apply Hd|constructor]]. eapply grows_holds; [exact Gd|].
    apply (Hc rho [TA (aval rho s t); TI [(-1)%Z]]).
    + constructor; [eapply grows_holds; eauto|]. constructor; [|constructor]. eapply grows_holds; [exact Gb|]. apply (Ha rho []); [constructor|reflexivity].
    + cbn [tcompute]. unfold reshape. rewrite (hs_wf _ _ H2 : length _ = _), (hs_sh _ _ H2), RD. cbn. unfold into_shape. cbn [bind].
      rewrite (hs_sh _ _ H2). replace (prod [prod sh]) with (prod sh) by (simpl; lia). rewrite Nat.eqb_refl. reflexivity.
  - cbn. unfold into_shape. simpl. rewrite Nat.mul_1_r, Nat.add_0_r, Nat.eqb_refl. reflexivity.
Qed.
Lemma flats_loose sh : forall ts s l s', loose s -> List.Forall (fun t => typed ls s t (TyA sh)) ts -> t_flats ts s = Some (l, s') ->
  loose s' /\ grows s s' /\ Forall2 (fun t e => typed ls s' e (TyA [1%nat; prod sh]) /\
    forall rho, conform ls rho -> aval rho s' e = Arr [1%nat; prod sh] (a_data (aval rho s t))) ts l.
Proof.
  induction ts as [|t ts IH]; intros s l s' W F H; simpl in H.
  - inv H. split; auto. split; [apply grows_refl|constructor].
  - inversion F as [|? ? Ht F']; subst. bindH H. rename E into E1. bindH H. rename E into E2. bindH H. rename E into E3. inv H.
    destruct (flat_loose _ sh _ _ _ _ _ W Ht E1 E2) as (W1 & G1 & T1 & V1).
    destruct (IH s1 t2 s' W1) as (W2 & G2 & F2); auto.
    { eapply Forall_impl; [|exact F']. intros a Ha. eapply grows_typed; eauto. }
    split; auto. split; [eapply grows_trans; eauto|]. constructor.
    + split; [eapply grows_typed; eauto|]. intros rho C. rewrite (grows_aval rho s1 s') by (auto; eapply typed_lt; exact T1). apply V1; auto.
    + clear -F2 F' G1. revert F2 F'. generalize t2. clear t2. induction ts as [|a ts IH]; intros l F2 F'; inversion F2; subst; constructor.
      * destruct H1 as [A B]. split; auto. intros rho C. rewrite B by auto. f_equal. f_equal. inversion F'; subst.
        apply grows_aval; auto. eapply typed_lt; eauto.
      * apply IH; auto. inversion F'; auto.
Qed.
Lemma pick_rows m : forall (xs : list (arr R)) a b i0, List.Forall (fun x => a_shape x = [1%nat; m]) xs -> (a < length xs)%nat ->
  pick 0 0%nat xs a [i0; b] = nth b (a_data (nth a xs (Arr [] []))) 0.
Proof.
  induction xs as [|x xs IH]; intros a b i0 F Ha; [simpl in Ha; lia|]. inversion F as [|? ? E F']; subst. cbn [pick]. rewrite E. cbn [nth].
  destruct a as [|a].
  - cbn. unfold aget. rewrite E. cbn. f_equal. lia.
  - cbn [Nat.ltb Nat.leb]. replace (S a - 1)%nat with a by lia. rewrite IH by (auto; simpl in Ha; lia). reflexivity.
Qed.
Lemma concat_rows m (xs : list (arr R)) : xs <> [] -> List.Forall (has_shape [1%nat; m]) xs ->
  exists y, concat 0 0 xs = Some y /\ forall a b, (a < length xs)%nat -> (b < m)%nat -> aget 0 y [a; b] = nth b (a_data (nth a xs (Arr [] []))) 0.
Proof.
  intros N F. assert (FS : List.Forall (fun x : arr R => a_shape x = [1%nat; m]) xs).
  { eapply Forall_impl; [|exact F]. intros x Hx. apply (hs_sh _ _ Hx). }
  exists (cat 0 0 [1%nat; m] xs). split.
  - unfold concat. cbn [Z.ltb Z.compare]. apply (concatenate_cat 0 0 [1%nat; m]); [simpl; lia|exact N|].
    eapply Forall_impl; [|exact F]. intros x Hx. split; [eapply hs_wf; eauto|]. exists 1%nat. rewrite (hs_sh _ _ Hx). reflexivity.
  - intros a b Ha Hb. assert (LS : list_sum (map (axis_len 0) xs) = length xs).
    { clear -FS. induction FS as [|x xs E FS IH]; [reflexivity|]. simpl. rewrite IH. unfold axis_len. rewrite E. reflexivity. }
    unfold cat. rewrite LS. cbn [set_at]. rewrite aget_tab by (repeat constructor; auto). cbn [nth]. apply (pick_rows m); auto.
Qed.
Lemma all_rows_shape m (ts : list ty) : (forall t, In t ts -> t = TyA [1%nat; m]) -> all_shapes ts = Some (repeat [1%nat; m] (length ts)).
Proof.
  induction ts as [|t ts IH]; intros H; [reflexivity|]. unfold all_shapes in *. cbn [fold_right]. rewrite IH by (intros; apply H; simpl; auto).
  rewrite (H t) by (simpl; auto). reflexivity.
Qed.
Lemma joined_rows m n : joined 0 (repeat [1%nat; m] (S n)) = Some (TyA [S n; m]).
Proof.
  unfold joined. cbn [repeat]. change (0 <? length [1%nat; m])%nat with true. cbn [andb].
  replace (forallb _ ([1%nat; m] :: repeat [1%nat; m] n)) with true.
  - cbn [set_at]. do 4 f_equal. cbn [map list_sum fold_right nth]. f_equal. induction n as [|n IH]; [reflexivity|]. simpl. f_equal. exact IH.
  - symmetry. apply forallb_forall. intros s Hs. assert (s = [1%nat; m]).
    { destruct Hs as [<-|Hs]; [reflexivity|]. apply repeat_spec in Hs. exact Hs. } subst s. rewrite Nat.eqb_refl, shape_eqb_refl. reflexivity.
Qed.
Lemma stack_loose sh ts s l s1 j s2 : loose s -> ts <> [] -> List.Forall (fun t => typed ls s t (TyA sh)) ts ->
  t_flats ts s = Some (l, s1) -> a_concat l 0 s1 = Some (j, s2) ->
  loose s2 /\ grows s s2 /\ typed ls s2 j (TyA [length ts; prod sh]) /\
  forall rho, conform ls rho -> forall a b, (a < length ts)%nat -> (b < prod sh)%nat ->
    aget 0 (aval rho s2 j) [a; b] = nth b (a_data (aval rho s (nth a ts 0%nat))) 0.
Proof.
  intros W N F HF HC. destruct (flats_loose sh ts s l s1 W F HF) as (W1 & G1 & F1).
  assert (LL : length ts = length l) by (clear -F1; induction F1; simpl; congruence). unfold a_concat in HC.
  destruct l as [|l0 l']; [destruct ts; [congruence|discriminate]|]. set (l := l0 :: l') in *.
  assert (TL : typedl ls s1 l (repeat (TyA [1%nat; prod sh]) (length l))).
  { clear -F1. generalize dependent ts. induction l as [|e l IH]; intros ts F1; inversion F1; subst; simpl; constructor; [tauto|]. eapply IH; eauto. }
  apply (tmk_loose' l None true (TConcat 0) (repeat (TyA [1%nat; prod sh]) (length l)) (TyA [length l; prod sh])) in HC; auto; try discriminate.
  2: { unfold l. cbn [length repeat op_ty]. rewrite (all_rows_shape (prod sh)) by (intros t Ht; apply repeat_spec in Ht; exact Ht). rewrite repeat_length.
       change ([1%nat; prod sh] :: repeat [1%nat; prod sh] (length l')) with (repeat [1%nat; prod sh] (S (length l'))). apply joined_rows. }
  destruct HC as (W2 & G2 & T2 & H2). split; auto. split; [eapply grows_trans; eauto|]. rewrite LL. split; auto.
  intros rho C a b Ha Hb. set (vs := map (aval rho s1) l).
  assert (FV : List.Forall (has_shape [1%nat; prod sh]) vs).
  { unfold vs. apply Forall_forall. intros v Hv. apply in_map_iff in Hv. destruct Hv as (e & <- & He). apply In_nth_error in He. destruct He as (q & Hq).
    destruct (Forall2_nth2 _ _ _ _ _ F1 Hq) as (t & _ & T & _). apply (typed_aval ls rho s1 e _ C T). }
  destruct (concat_rows (prod sh) vs) as (y & EY & GY); [unfold vs, l; discriminate|exact FV|].
  assert (HY : holds rho s2 j (TA y)).
  { apply (H2 rho (map TA vs)).
    - unfold vs. clear -F1 C. generalize dependent ts. induction l as [|e l IH]; intros ts F1; inversion F1; subst; simpl; constructor.
      + apply (typed_aval ls rho s1 e [1%nat; prod sh] C). tauto.
      + eapply IH; eauto.
    - cbn [tcompute]. rewrite arrays_map, EY. reflexivity. }
  rewrite (holds_aval _ _ _ _ HY). assert (LV : length vs = length l) by (unfold vs; apply map_length).
  rewrite GY by (auto; lia). f_equal.
  destruct (nth_error l a) as [e|] eqn:Ee; [|apply nth_error_None in Ee; lia].
  destruct (Forall2_nth2 _ _ _ _ _ F1 Ee) as (t & Et & _ & Vt).
  rewrite (nth_error_nth ts a 0%nat Et). unfold vs. rewrite (nth_error_nth (map (aval rho s1) l) a (Arr [] []) (map_nth_error (aval rho s1) a l Ee)).
  rewrite Vt by auto. reflexivity.
Qed.
Lemma stacked_loose (shp : nat -> list nat) rows : rows <> [] -> forall n k s js s', loose s ->
  (forall j, (k <= j < k + n)%nat -> List.Forall (fun r => typed ls s (nth j r 0%nat) (TyA (shp j))) rows) ->
  t_stacked rows n k s = Some (js, s') ->
  loose s' /\ grows s s' /\ length js = n /\
  forall m J, nth_error js m = Some J -> typed ls s' J (TyA [length rows; prod (shp (k + m)%nat)]) /\
    forall rho, conform ls rho -> forall a b, (a < length rows)%nat -> (b < prod (shp (k + m)%nat))%nat ->
      aget 0 (aval rho s' J) [a; b] = nth b (a_data (aval rho s (nth (k + m) (nth a rows []) 0%nat))) 0.
Proof.
  intros N. induction n as [|n IH]; intros k s js s' W HR H; simpl in H.
  - inv H. split; auto. split; [apply grows_refl|]. split; [reflexivity|]. intros [|m] J Hm; discriminate.
  - bindH H. rename E into E1. bindH H. rename E into E2. bindH H. rename E into E3. inv H.
    assert (FR : List.Forall (fun t => typed ls s t (TyA (shp k))) (map (fun r => nth k r 0%nat) rows)).
    { apply Forall_map. apply HR. lia. }
    destruct (stack_loose (shp k) (map (fun r => nth k r 0%nat) rows) s t s0 t0 s1 W) as (W1 & G1 & T1 & V1); auto.
    { destruct rows; [congruence|discriminate]. }
    rewrite map_length in T1, V1.
    destruct (IH (S k) s1 t1 s' W1) as (W2 & G2 & L2 & R2); auto.
    { intros j Hj. eapply Forall_impl; [|apply (HR j); lia]. intros r Hr. eapply grows_typed; eauto. }
    split; auto. split; [eapply grows_trans; eauto|]. split; [simpl; lia|]. intros [|m] J Hm.
    + simpl in Hm. inv Hm. rewrite Nat.add_0_r. split; [eapply grows_typed; eauto|]. intros rho C a b Ha Hb.
      rewrite (grows_aval rho s1 s') by (auto; eapply typed_lt; exact T1). rewrite V1 by auto. do 3 f_equal.
      rewrite (nth_indep _ 0%nat (nth k [] 0%nat)) by (rewrite map_length; exact Ha). apply (map_nth (fun r => nth k r 0%nat)).
    + simpl in Hm. destruct (R2 m J Hm) as [T V]. replace (S k + m)%nat with (k + S m)%nat in T, V by lia. split; auto.
      intros rho C a b Ha Hb. rewrite V by auto. do 2 f_equal. apply grows_aval; auto.
      assert (Lm : (m < n)%nat) by (rewrite <- L2; apply nth_error_Some; congruence).
      specialize (HR (k + S m)%nat). rewrite Forall_forall in HR. eapply typed_lt. apply HR; [lia|]. apply nth_In. exact Ha.
Qed.
End Loosely.

(** ** Evaluation succeeds only where there is a value *)
Section Only.
  Variable g : tgraph.
  Hypothesis W : loose g.
  Hypothesis Hsel : forall i n inc, nth_error g i = Some n -> In inc (n_inputs n) -> in_sel inc = 0%nat.
  Variable debug : bool.
  Variable feeds : list (ph_key * tv).
  Variable env : list tv.
  Variable rho : nat -> arr R.
  Hypothesis HL : t_leaf_values g feeds env rho.

  Lemma leaf_arg i n inc x : nth_error g i = Some n -> n_op n = TLeaf -> in_id inc = i ->
    arg tv_shape tens_compute debug g feeds env inc x -> opin_val x = TA (rho i).
  Proof.
    intros Hn Ho Hi H. destruct (HL i n Hn Ho) as [(vid & Hv & Hp & He)|[Hv Hf]].
    - inv H.
      + assert (n0 = n) by congruence. subst n0. destruct H1 as (name & ? & ? & ? & ? & E & _). congruence.
      + assert (n0 = n) by congruence. subst n0. assert (v = TA (rho (in_id inc))) by congruence. subst v. destruct (in_mut inc); reflexivity.
      + destruct H0 as (E & E1 & E2). congruence.
    - inv H.
      + assert (n0 = n) by congruence. subst n0. simpl. eapply fed_fun; eauto.
      + congruence.
      + destruct H0 as (E & E1 & E2). destruct Hf as (name & ? & ? & ? & ? & E3 & _). congruence.
  Qed.
  Lemma loose_only_values : forall i r, value tv_shape tens_compute debug g feeds env i r ->
    exists v, holds rho g i v /\ r = inl [v].
  Proof.
    intros i. induction i as [i IH] using (well_founded_induction lt_wf). intros r H. inv H.
    - destruct H0 as (Hn & Hv & Hp).
      assert (Ho : n_op n <> TLeaf).
      { intros Eo. destruct (lo_leaf g W i n Hn Eo) as [_ E]. unfold is_variable, is_placeholder in E. rewrite Hv, Hp in E. discriminate. }
      assert (HV : exists vs, Forall2 (fun inc v => in_sel inc = 0%nat /\ (in_id inc < i)%nat /\ holds rho g (in_id inc) v) (n_inputs n) vs /\ map opin_val xs = vs).
      { pose proof (fun inc => lo_input g W i n inc Hn) as LI. pose proof (fun inc => Hsel i n inc Hn) as LS. clear -H1 LI LS IH HL W.
        induction H1 as [|inc x ins xs Hx HF IHF]; [exists []; split; [constructor|reflexivity]|].
        destruct IHF as (vs & A & B); [intros; apply LI; simpl; auto|intros; apply LS; simpl; auto|]. assert (L := LI inc (or_introl eq_refl)). assert (S0 := LS inc (or_introl eq_refl)).
        assert (Q : in_sel inc = 0%nat /\ holds rho g (in_id inc) (opin_val x)).
        { split; [exact S0|].
          assert (ND : exists m, nth_error g (in_id inc) = Some m) by (inv Hx; eauto; destruct H as (E & _); eauto).
          destruct ND as (m & Hm). assert (D : n_op m = TLeaf \/ n_op m <> TLeaf) by (destruct (n_op m); auto; right; discriminate).
          destruct D as [Eo|Ho].
          - rewrite (leaf_arg _ m inc x Hm Eo eq_refl Hx). eapply leaf_holds; eauto.
          - destruct (lo_op g W _ m Hm Ho) as [Ev Ep]. inv Hx.
            + assert (n0 = m) by congruence. subst n0. destruct H0 as (name & ? & ? & ? & ? & E & _). congruence.
            + congruence.
            + destruct (IH _ L _ H0) as (w & Hw & E). injection E as ->. rewrite S0 in H1. simpl in H1. injection H1 as ->. exact Hw. }
        exists (opin_val x :: vs). split; [constructor; tauto|]. simpl. congruence. }
      destruct HV as (vs & HF & HM). unfold tens_compute in H2. rewrite HM in H2. destruct (tcompute (n_op n) vs) as [v|] eqn:E; [|discriminate].
      inv H2. exists v. split; [|reflexivity]. eapply node_holds; eauto.
    - destruct H0 as (Hn & _). assert (L : (in_id inc < i)%nat) by (apply (lo_input g W i n inc Hn); rewrite H1; apply in_or_app; right; left; reflexivity).
      destruct (IH _ L _ H4) as (v & _ & E). discriminate.
  Qed.
End Only.
