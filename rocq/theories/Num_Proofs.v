(** Float-carried shapes compute the same as integer shapes while they are exact. *)
From Coq Require Import String List Arith ZArith NArith Bool Reals Lra Lia.
Import ListNotations.
From Verif Require Import Array_Model Arith_Model Array_Proofs Reduce_Model Shape_Model Graph_Model Eval_Model Eval_Spec Eval_Proofs
  Scalar_Model Scalar_Proofs Tens_Model Tens_Spec Tens_Build Tens_Lax Tens_Grad Tens_Final Opt_Model Num_Model Num_Spec.
Local Open Scope R_scope.
Local Set Bullet Behavior "Strict Subproofs".

Lemma int_part_IZR z : Int_part (IZR z) = z.
Proof.
  unfold Int_part. rewrite <- (tech_up (IZR z) (z + 1)); [lia| |]; rewrite plus_IZR; lra.
Qed.
Lemma trunc_IZR z : trunc (IZR z) = z.
Proof.
  unfold trunc. destruct (Rle_dec 0 (IZR z)); [apply int_part_IZR|]. rewrite <- opp_IZR, int_part_IZR. lia.
Qed.
Lemma map_trunc l : map trunc (map IZR l) = l.
Proof. rewrite map_map, (map_ext _ (fun z => z)); [apply map_id|apply trunc_IZR]. Qed.

Lemma ints_vec l : as_ints (vecR l) = Some (TI l).
Proof. unfold as_ints, vecR. cbn [a_shape a_data]. rewrite map_trunc. reflexivity. Qed.

Section Exact.
  Variable rnd : Z -> Z.
  Definition exact (l : list Z) : Prop := List.Forall (fun z => rnd z = z) l.
  Definition exact_tv (v : tv) : Prop := match v with TI l => exact l | TA _ => True end.
  Lemma exact_map l : exact l -> map rnd l = l.
  Proof. induction 1 as [|z l Hz _ IH]; simpl; congruence. Qed.
  Lemma encode_exact l : exact l -> encode rnd (TI l) = vecR l.
  Proof. intros H. simpl. rewrite exact_map by exact H. reflexivity. Qed.

  (** Operands of the expected kinds. *)
  Fixpoint kinds (ks : list bool) (vs : list tv) : bool :=
    match vs with
    | [] => true
    | v :: vs => Bool.eqb (hd false ks) (match v with TI _ => true | TA _ => false end) && kinds (tl ks) vs
    end.
  Lemma operands_kinds vs : forall ks, kinds ks vs = true -> List.Forall exact_tv vs ->
    operands ks (map (encode rnd) vs) = Some vs.
  Proof.
    induction vs as [|v vs IH]; intros ks K F; [reflexivity|]. inversion F as [|? ? Fv Fs]; subst. simpl in K.
    apply andb_true_iff in K. destruct K as [Kv Ks]. apply eqb_prop in Kv. cbn [map operands]. rewrite (IH _ Ks Fs), Kv.
    destruct v as [a|l]; [reflexivity|]. rewrite encode_exact by exact Fv. unfold as_ints, vecR. cbn [a_shape a_data].
    rewrite map_trunc. reflexivity.
  Qed.
  Lemma arrays_kinds vs : forall l, arrays vs = Some l -> kinds [] vs = true.
  Proof.
    induction vs as [|[a|z] vs IH]; intros l H; [reflexivity| |discriminate]. cbn in *.
    destruct (arrays vs) as [l'|] eqn:E; [|unfold arrays in E; rewrite E in H; discriminate]. apply (IH l'). reflexivity.
  Qed.
  Definition two_versions (o : top) : bool := match o with TConstI _ | TGatherI | TProdI => true | _ => false end.
  Lemma tcompute_kinds o vs v : two_versions o = false -> tcompute o vs = Some v -> kinds (int_operands o) vs = true.
  Proof.
    intros Ho H. destruct o; try discriminate Ho; try (cbn [tcompute] in H);
      try (destruct (arrays vs) as [l|] eqn:E; [|discriminate]; exact (arrays_kinds _ _ E));
      try (destruct vs as [|[?|?] [|[?|?] [|[?|?] [|? ?]]]]; try discriminate H; reflexivity).
    (* TConcatGrad *)
    destruct vs as [|[a|?] vs]; try discriminate. destruct (arrays vs) as [l|] eqn:E; [|discriminate].
    exact (arrays_kinds _ _ E).
  Qed.
End Exact.

(** ** Elementwise homomorphisms *)
Section Hom.
  Context {A B : Type}.
  Variable h : A -> B.
  Variable d : A.
  Lemma aget_hom a i : aget (h d) (amap h a) i = h (aget d a i).
  Proof. unfold aget, amap. cbn. apply map_nth. Qed.
  Lemma amap_tab sh f : amap h (tab sh f) = tab sh (fun i => h (f i)).
  Proof. unfold amap, tab. cbn. rewrite map_map. reflexivity. Qed.
  Lemma tab_fext {C} sh (f f' : list nat -> C) : (forall i, f i = f' i) -> tab sh f = tab sh f'.
  Proof. intros H. unfold tab. f_equal. apply map_ext. exact H. Qed.

  Lemma pick_hom k xs : forall c i, pick (h d) k (map (amap h) xs) c i = h (pick d k xs c i).
  Proof.
    induction xs as [|x xs IH]; intros c i; [reflexivity|]. cbn [map pick]. cbn [amap a_shape].
    destruct (c <? nth k (a_shape x) 0)%nat; [apply (aget_hom x)|apply IH].
  Qed.
  Lemma concatenate_hom k xs : concatenate (h d) k (map (amap h) xs) = option_map (amap h) (concatenate d k xs).
  Proof.
    destruct xs as [|x xs]; [reflexivity|]. unfold concatenate. cbn [map]. cbn [amap a_shape].
    destruct (k <? length (a_shape x))%nat; [|reflexivity].
    change (amap h x :: map (amap h) xs) with (map (amap h) (x :: xs)).
    replace (forallb _ (map (amap h) (x :: xs))) with
      (forallb (fun x0 => (length (a_shape x0) =? length (a_shape x))%nat && shape_eqb (remove_at k (a_shape x0)) (remove_at k (a_shape x))) (x :: xs)).
    - destruct (forallb _ (x :: xs)); [|reflexivity]. cbn [option_map]. f_equal. rewrite amap_tab, map_map. apply tab_fext.
      intros i. apply pick_hom.
    - generalize (x :: xs). intros l. induction l as [|z l IH]; [reflexivity|]. cbn [map forallb]. rewrite <- IH. reflexivity.
  Qed.
  Lemma collapse_hom k i x : collapse_axis (h d) k i (amap h x) = option_map (amap h) (collapse_axis d k i x).
  Proof.
    unfold collapse_axis. cbn [amap a_shape]. destruct (nth_error (a_shape x) k) as [n|]; [|reflexivity].
    destruct (i <? n)%nat; [|reflexivity]. cbn [option_map]. rewrite amap_tab. f_equal. apply tab_fext. intros j. apply (aget_hom x).
  Qed.
  Lemma collapses_hom k idx x : collapses (h d) k idx (amap h x) = option_map (map (amap h)) (collapses d k idx x).
  Proof.
    induction idx as [|i idx IH]; [reflexivity|]. cbn [collapses]. rewrite collapse_hom, IH.
    destruct (collapse_axis d k i x); [|reflexivity]. cbn. destruct (collapses d k idx x); reflexivity.
  Qed.
  Lemma gather_hom norm axis ix x : gather (h d) norm axis ix (amap h x) = option_map (amap h) (gather d norm axis ix x).
  Proof.
    unfold gather. cbn [amap a_shape]. destruct (normalize_axis axis (length (a_shape x))) as [k|]; [|reflexivity]. cbn.
    destruct (nth_error (a_shape x) k) as [n|]; [|reflexivity]. cbn.
    destruct (if norm then normalize_axes n (a_data ix) else plain_indices (a_data ix)) as [idx|]; [|reflexivity]. cbn.
    unfold select. destruct idx as [|i idx]; [reflexivity|]. rewrite (collapses_hom k (i :: idx) x).
    destruct (collapses d k (i :: idx) x) as [l|]; [|reflexivity]. cbn. rewrite concatenate_hom.
    destruct (concatenate d k l) as [c|]; [|reflexivity]. cbn. unfold into_shape. cbn [amap a_shape a_data].
    destruct (prod (a_shape c) =? _)%nat; reflexivity.
  Qed.

  Lemma expand_hom a k : expand_dims (amap h a) k = option_map (amap h) (expand_dims a k).
  Proof. unfold expand_dims, into_shape. cbn [amap a_shape a_data]. repeat match goal with |- context [if ?c then _ else _] => destruct c end; reflexivity. Qed.
  Variables (opA : A -> A -> A) (opB : B -> B -> B) (init : A).
  Hypothesis Hop : forall a b, opB (h a) (h b) = h (opA a b).
  Lemma fold_hom {I} (f : I -> A) l : forall a, fold_left opB (map (fun i => h (f i)) l) (h a) = h (fold_left opA (map f l) a).
  Proof. induction l as [|i l IH]; intros a; [reflexivity|]. cbn. rewrite Hop. apply IH. Qed.
  Lemma reduce_axes_hom keep axes : forall x,
    reduce_axes (h d) opB (h init) keep (amap h x) axes = option_map (amap h) (reduce_axes d opA init keep x axes).
  Proof.
    induction axes as [|k axes IH]; intros x; [reflexivity|]. cbn [reduce_axes]. unfold fold_axis. cbn [amap a_shape].
    destruct (nth_error (a_shape x) k) as [n|]; [|reflexivity].
    replace (tab _ _) with (amap h (tab (remove_at k (a_shape x)) (fun j => fold_left opA (map (fun i => aget d x (insert_at k i j)) (seq 0 n)) init))).
    - destruct keep; [|apply IH]. rewrite expand_hom. match goal with |- context [expand_dims ?r k] => destruct (expand_dims r k) end; [apply IH|reflexivity].
    - rewrite amap_tab. apply tab_fext. intros j. rewrite <- fold_hom. f_equal. apply map_ext. intros i. symmetry. apply (aget_hom x).
  Qed.
  Lemma reduce_hom axes keep sparse x :
    reduce (h d) opB (h init) axes keep sparse (amap h x) = option_map (amap h) (reduce d opA init axes keep sparse x).
  Proof.
    unfold reduce. cbn [amap a_shape]. destruct (preprocess_axes (length (a_shape x)) axes sparse) as [ax|]; [|reflexivity]. cbn.
    unfold compute_reduce. cbn [amap a_shape]. destruct (is_scalar_shape (a_shape x)); [reflexivity|].
    destruct ax as [|k ax]; [reflexivity|]. apply reduce_axes_hom.
  Qed.
End Hom.

Lemma gather_out {A} (d : A) norm axis (l : list Z) x a : gather d norm axis (vecZ l) x = Some a ->
  forall k, normalize_axis axis (length (a_shape x)) = Some k ->
  a_shape a = firstn k (a_shape x) ++ [length l] ++ skipn (S k) (a_shape x) /\ length (a_data a) = prod (a_shape a).
Proof.
  unfold gather. intros H k Hk. rewrite Hk in H. cbn [vecZ a_shape a_data] in H. unfold Arith_Model.bind in H.
  destruct (nth_error (a_shape x) k) as [n|]; [|discriminate H].
  destruct (if norm then normalize_axes n l else plain_indices l) as [idx|]; [|discriminate H].
  destruct (select d k idx x) as [s|] eqn:Es; [|discriminate H]. unfold into_shape in H.
  destruct (Nat.eqb_spec (prod (a_shape s)) (prod (firstn k (a_shape x) ++ [length l] ++ skipn (S k) (a_shape x)))) as [Ep|]; [|discriminate H].
  injection H as <-. cbn [a_shape a_data]. split; [reflexivity|]. etransitivity; [|exact Ep].
  unfold select in Es. destruct idx as [|i idx]; [discriminate|]. destruct (collapses d k (i :: idx) x) as [ps|]; [|discriminate].
  unfold Arith_Model.bind, concatenate in Es. destruct ps as [|p0 ps]; [discriminate|].
  destruct (k <? length (a_shape p0))%nat; [|discriminate]. destruct (forallb _ _); [|discriminate]. injection Es as <-. apply tab_wf.
Qed.

(** ** One operation *)
Section One.
  Variable rnd : Z -> Z.
  Lemma num_value_plain o vs v : two_versions o = false -> o <> TSize -> tcompute o vs = Some v ->
    List.Forall (exact_tv rnd) vs -> num_value rnd o (map (encode rnd) vs) = Some (encode rnd v).
  Proof.
    intros Ho Hs H F.
    assert (E : num_value rnd o (map (encode rnd) vs) =
      match operands (int_operands (num_op o)) (map (encode rnd) vs) with
      | Some l => option_map (encode rnd) (tcompute (num_op o) l) | None => None end).
    { destruct o; try discriminate Ho; try congruence; try reflexivity. }
    assert (Q : num_op o = o) by (destruct o; try discriminate Ho; reflexivity).
    rewrite E, Q, (operands_kinds rnd) by (auto; eapply tcompute_kinds; eauto). rewrite H. reflexivity.
  Qed.
  Theorem num_value_spec o vs v : tcompute o vs = Some v -> List.Forall (exact_tv rnd) vs -> exact_tv rnd v ->
    (o = TSize -> forall a, vs = [TA a] -> rnd (Z.of_nat (prod (a_shape a))) = Z.of_nat (prod (a_shape a))) ->
    num_value rnd o (map (encode rnd) vs) = Some (encode rnd v).
  Proof.
    intros H F Fv Hz. assert (D : {o = TSize} + {o <> TSize}) by (destruct o; try (right; discriminate); left; reflexivity).
    destruct D as [->|Hs].
    - destruct vs as [|[a|?] [|? ?]]; try discriminate H. cbn in H. injection H as <-. cbn.
      rewrite (Hz eq_refl a eq_refl), <- INR_IZR_INZ. reflexivity.
    - destruct (two_versions o) eqn:Ho; [|apply num_value_plain; auto].
      destruct o; try discriminate Ho.
      + destruct vs; try discriminate H. cbn in H. injection H as <-. reflexivity.
      + destruct vs as [|[?|idx] [|[?|l] [|? ?]]]; try discriminate H. cbn [tcompute] in H.
        inversion F as [|? ? Fi F']; subst. inversion F' as [|? ? Fl _]; subst.
        cbn [map]. rewrite !encode_exact by assumption.
        change (num_value rnd TGatherI [vecR idx; vecR l]) with
          (match operands [true] [vecR idx; vecR l] with Some l => option_map (encode rnd) (tcompute (TGather true 0) l) | None => None end).
        cbn [operands hd tl]. rewrite ints_vec. cbn [tcompute]. replace (vecR l) with (amap IZR (vecZ l)) by reflexivity.
        rewrite (gather_hom IZR 0%Z). destruct (gather 0%Z true 0 (vecZ idx) (vecZ l)) as [a|] eqn:Eg; [|discriminate].
        cbn in H. injection H as <-. rewrite encode_exact by exact Fv. cbn. f_equal. unfold amap, vecR. f_equal.
        destruct (gather_out _ _ _ _ _ _ Eg 0%nat eq_refl) as [Sa La]. rewrite La, Sa. cbn. rewrite Nat.mul_1_r. reflexivity.
      + destruct vs as [|[?|l] [|[?|axes] [|? ?]]]; try discriminate H. cbn [tcompute] in H.
        inversion F as [|? ? Fl F']; subst. inversion F' as [|? ? Fi _]; subst.
        cbn [map]. rewrite !encode_exact by assumption.
        change (num_value rnd TProdI [vecR l; vecR axes]) with
          (match operands [false; true] [vecR l; vecR axes] with Some l => option_map (encode rnd) (tcompute (TReduceProd false) l) | None => None end).
        cbn [operands hd tl]. rewrite ints_vec. cbn [tcompute]. replace (vecR l) with (amap IZR (vecZ l)) by reflexivity.
        rewrite (reduce_hom IZR 0%Z Z.mul Rmult 1%Z (fun a b => eq_sym (mult_IZR a b))).
        destruct (reduce 0%Z Z.mul 1%Z axes false false (vecZ l)) as [a|]; [|discriminate]. cbn in H. injection H as <-. reflexivity.
  Qed.
End One.

(** ** Whole graphs *)
Section Graph.
  Variable lax : bool.
  Variable rnd : Z -> Z.
  Variable powf : R -> R -> R.
  Variable ls : nat -> list nat.
  Variable g : tgraph.
  Hypothesis W : loose g.
  Hypothesis X : exact_inx lax rnd ls g.
  Variable debug : bool.
  Variable feeds : list (ph_key * arr R).
  Variable env : list (arr R).
  Variable rho : nat -> arr R.
  Hypothesis C : conform ls rho.
  Hypothesis HL : leaf_arrays g feeds env rho.

  Lemma num_nth i n : nth_error g i = Some n -> nth_error (num_graph g) i = Some (num_node n).
  Proof. intros H. unfold num_graph. rewrite nth_error_map, H. reflexivity. Qed.
  Lemma num_fed i n a : fed a_shape feeds i n a -> fed a_shape feeds i (num_node n) a.
  Proof. exact (fun H => H). Qed.
  Lemma exact_val_x i t : wtyped ls lax g i t -> exact_tv rnd (tval rho g i).
  Proof.
    intros Ht. destruct t as [sh|l].
    - rewrite (wtval_aval ls lax rho g i sh C Ht). exact I.
    - destruct (wtval_typed ls lax rho g i _ C Ht) as [_ Hv]. destruct (tval rho g i) as [a|l']; [contradiction|]. cbn in Hv. subst l'.
      apply Forall_forall. apply (proj1 X i l Ht).
  Qed.

  Lemma num_graph_value_x i n t : nth_error g i = Some n -> n_op n <> TLeaf -> wtyped ls lax g i t ->
    value a_shape (num_compute rnd powf) debug (num_graph g) feeds env i (inl [encode rnd (tval rho g i)]).
  Proof.
    revert n t. induction i as [i IH] using (well_founded_induction lt_wf). intros n t Hn Ho Ht.
    destruct (wtyped_inputs ls lax g i n t Hn Ht) as [[Eo _]|(_ & ts & HT & Hop)]; [congruence|].
    assert (HA : exists xs, Forall2 (arg a_shape (num_compute rnd powf) debug (num_graph g) feeds env) (n_inputs n) xs /\
                   map opin_val xs = map (encode rnd) (in_vals rho g n)).
    { rewrite in_vals_tval. clear -HT IH W HL C. induction HT as [|inc ty ins ts (Hs & Hlt & Hty) _ IH2].
      - exists []. split; [constructor|reflexivity].
      - destruct IH2 as (xs & HX & HM).
        assert (HB : exists b, arg a_shape (num_compute rnd powf) debug (num_graph g) feeds env inc b /\ opin_val b = encode rnd (tval rho g (in_id inc))).
        { pose proof (wtyped_lt ls lax g _ _ Hty) as Hlt2.
          apply nth_error_Some in Hlt2. destruct (nth_error g (in_id inc)) as [m|] eqn:Hm; [clear Hlt2|congruence].
          destruct (wtyped_inputs ls lax g _ m ty Hm Hty) as [[Eo ->]|(Ho & _)].
          - assert (Hsv : tval rho g (in_id inc) = TA (rho (in_id inc))).
            { unfold tval. rewrite (leaf_holds rho g _ m Hm Eo). reflexivity. }
            destruct (HL _ m Hm Eo) as [(vid & Hv & Hp & He)|[Hv Hf]].
            + eexists. split; [eapply (arg_var _ _ _ _ _ _ inc (num_node m) vid (rho (in_id inc))); eauto; apply num_nth; exact Hm|].
              rewrite Hsv. destruct (in_mut inc); reflexivity.
            + eexists. split; [eapply (arg_ph _ _ _ _ _ _ inc (num_node m) (rho (in_id inc))); [apply num_nth; exact Hm|apply num_fed; exact Hf]|].
              rewrite Hsv. reflexivity.
          - eexists. split; [eapply (arg_op _ _ _ _ _ _ inc (num_node m))|].
            + destruct (lo_op g W _ m Hm Ho). split; [apply num_nth; exact Hm|]. split; auto.
            + apply (IH _ Hlt m ty); auto.
            + rewrite Hs. reflexivity.
            + reflexivity. }
        destruct HB as (b & Hb & Hv). exists (b :: xs). split; [constructor; auto|]. simpl. congruence. }
    destruct HA as (xs & HX & HM).
    apply (value_run _ _ _ _ _ _ i (num_node n) xs [] [encode rnd (tval rho g i)] None); auto.
    - destruct (lo_op g W i n Hn Ho). split; [apply num_nth; exact Hn|]. split; auto.
    - cbn [num_node n_op num_compute]. rewrite HM.
      destruct (wtval_eq ls lax rho g i n ts t C Hn Ho HT Hop Ht) as [HV HE].
      rewrite (num_value_spec rnd (n_op n) (in_vals rho g n) (tval rho g i) HE); [reflexivity| | |].
      + rewrite in_vals_tval. apply Forall_forall. intros v Hv. apply in_map_iff in Hv. destruct Hv as (inc & <- & Hin).
        apply In_nth_error in Hin. destruct Hin as (k & Hk). destruct (Forall2_nth _ _ _ _ _ HT Hk) as (ty & _ & _ & _ & Hty).
        eapply exact_val_x; exact Hty.
      + eapply exact_val_x; exact Ht.
      + intros Hz a Ha. rewrite Ha in HV. inversion HV as [|? ty ? ts' Hv Hn']; subst. inversion Hn'; subst.
        destruct ty as [sh|l]; [|contradiction]. destruct Hv as [Hv _]. cbn in Hv.
        inversion HT as [|inc ? ins ? (_ & _ & Hty) Hr]; subst. inversion Hr; subst.
        assert (Q : n_inputs n = [inc]) by congruence. apply (proj2 X i n inc (a_shape a) Hn Hz); [rewrite Q; left; reflexivity|exact Hty].
    - intros _. discriminate.
  Qed.

  Lemma num_tensor_value_x i t : wtyped ls lax g i t ->
    tensor_value a_shape (num_compute rnd powf) debug (num_graph g) feeds env i (inl (encode rnd (tval rho g i))).
  Proof.
    intros H. pose proof (wtyped_lt ls lax g i _ H) as Hl. apply nth_error_Some in Hl.
    destruct (nth_error g i) as [n|] eqn:Hn; [clear Hl|congruence].
    destruct (wtyped_inputs ls lax g i n _ Hn H) as [[Eo ->]|(Ho & _)].
    - assert (Hsv : tval rho g i = TA (rho i)) by (unfold tval; rewrite (leaf_holds rho g i n Hn Eo); reflexivity). rewrite Hsv.
      destruct (HL i n Hn Eo) as [(vid & Hv & Hp & He)|[Hv Hf]].
      + apply (tv_var _ _ _ _ _ _ i (num_node n) vid (rho i)); auto. apply num_nth; exact Hn.
      + apply (tv_ph _ _ _ _ _ _ i (num_node n) (rho i)); auto. apply num_nth; exact Hn.
    - apply (tv_ok _ _ _ _ _ _ i _ []). eapply num_graph_value_x; eauto.
  Qed.
End Graph.

Lemma exact_in_x rnd ls g : exact_in rnd ls g <-> exact_inx false rnd ls g.
Proof.
  split; intros [A B]; split.
  - intros i l H. apply (A i l). apply (proj1 (wtyped_typed ls g i _)). exact H.
  - intros i n inc sh Hn Hz Hi H. apply (B i n inc sh Hn Hz Hi). apply (proj1 (wtyped_typed ls g (in_id inc) (TyA sh))). exact H.
  - intros i l H. apply (A i l). apply (proj2 (wtyped_typed ls g i (TyI l))). exact H.
  - intros i n inc sh Hn Hz Hi H. apply (B i n inc sh Hn Hz Hi). apply (proj2 (wtyped_typed ls g (in_id inc) (TyA sh))). exact H.
Qed.
Lemma exact_val rnd ls g : exact_in rnd ls g -> forall rho, conform ls rho -> forall i t, typed ls g i t -> exact_tv rnd (tval rho g i).
Proof.
  intros X rho C i t H. apply (exact_val_x false rnd ls g (proj1 (exact_in_x rnd ls g) X) rho C i t).
  apply (proj2 (wtyped_typed ls g i t)). exact H.
Qed.
Lemma num_tensor_value rnd powf ls g : loose g -> exact_in rnd ls g -> forall debug feeds env rho, conform ls rho ->
  leaf_arrays g feeds env rho -> forall i t, typed ls g i t ->
  tensor_value a_shape (num_compute rnd powf) debug (num_graph g) feeds env i (inl (encode rnd (tval rho g i))).
Proof.
  intros W X debug feeds env rho C HL i t H.
  apply (num_tensor_value_x false rnd powf ls g W (proj1 (exact_in_x rnd ls g) X) debug feeds env rho C HL i t).
  apply (proj2 (wtyped_typed ls g i t)). exact H.
Qed.
