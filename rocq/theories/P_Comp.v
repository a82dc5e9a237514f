(** Property C55: composite operations. *)
From Coq Require Import String List Arith ZArith NArith Bool Reals Lra Lia Relations.
Import ListNotations.
From Verif Require Import Graph_Model Eval_Model Eval_Spec Eval_Proofs Eval_Proofs2 Graph_Proofs Grad_Model Grad_Spec
  Grad_Examples Scalar_Model Scalar_Spec Scalar_Proofs P_Eval.
From Verif Require Import Array_Model Array_Proofs Array_Sum Arith_Model Arith_Final Vjp_Spec Vjp_Proofs Reduce_Model Reduce_Spec Reduce_Proofs Mean_Model
  Tens_Model Tens_Spec Tens_Fwd Tens_Fwd2 Tens_Build Tens_Final Tens_Rules Tens_Rules5 Tens_Examples Tens_Comp Comp_Model Comp_Spec Comp_Proofs.
Local Open Scope R_scope.
Local Set Bullet Behavior "Strict Subproofs".

Lemma typedl_shapes ls s ins shs : Forall2 (shaped ls s) ins shs -> typedl ls s ins (map TyA shs).
Proof. intros H. induction H; simpl; constructor; auto. Qed.
Lemma holdsl_avals ls s rho ins shs : conform ls rho -> Forall2 (shaped ls s) ins shs ->
  holdsl rho s ins (map TA (map (aval rho s) ins)) /\ Forall2 has_shape shs (map (aval rho s) ins).
Proof.
  intros C H. induction H as [|i sh ins shs Hi _ [IH1 IH2]]; simpl; split; constructor; auto;
    destruct (typed_aval ls rho s i sh C Hi); auto.
Qed.
Lemma comp_shape_inputs c shs out : comp_shape c shs = Some out -> exists sh shs', shs = sh :: shs'.
Proof. destruct shs; [destruct c; discriminate|eauto]. Qed.

(** ** C55: means, variances, mean squared error, leaky ReLU, normalization *)

(** The tensor made by the composite has the expected shape, and its value is
    given element by element by the definition in [Comp_Spec]. *)
Theorem C55_values :
  forall (ls : nat -> list nat) (c : comp) (ins : list nat) (shs : list (list nat)) (out : list nat) (s s' : tgraph) (t : nat),
  twf ls s -> Forall2 (shaped ls s) ins shs -> comp_shape c shs = Some out ->
  build_comp c ins s = Some (t, s') ->
  twf ls s' /\ (exists new, s' = s ++ new) /\ shaped ls s' t out /\
  forall rho, conform ls rho ->
    has_shape out (aval rho s' t) /\
    forall i, in_bounds out i -> aget 0 (aval rho s' t) i = comp_at c (map (aval rho s) ins) i.
Proof.
  intros ls c ins shs out s s' t W HI HC HB. destruct (comp_shape_inputs _ _ _ HC) as (sh & shs' & ->).
  inversion HI as [|i0 ? ins' ? Hi0 HI']; subst. unfold build_comp in HB. cbn [hd] in HB.
  pose proof (typedl_shapes _ _ _ _ HI) as HT.
  assert (HC0 : conform ls (fun i => full (ls i) 0)) by (intros i; apply full_shape).
  assert (HG : forall rho, conform ls rho ->
    good (map TyA (sh :: shs')) (TyA sh) (TyA sh) (map TA (map (aval rho s) (i0 :: ins'))) (TA (aval rho s i0)) (TA (aval rho s i0))
      (comp_dom c (map (aval rho s) (i0 :: ins'))) [] [] (comp_expr c) out (tab out (comp_at c (map (aval rho s) (i0 :: ins'))))).
  { intros rho C. apply comp_good; auto. apply (holdsl_avals ls s rho (i0 :: ins') (sh :: shs') C HI). }
  destruct (build_expr_spec ls (i0 :: ins') (map TyA (sh :: shs')) i0 i0 (TyA sh) (TyA sh) (comp_expr c) [] [] s t s' (TyA out) W HT Hi0 Hi0) as (W' & G' & T' & V'); auto.
  { constructor. }
  { apply (g_ty _ _ _ _ _ _ _ _ _ _ _ _ (HG _ HC0)). }
  split; auto. split; auto. split; auto. intros rho C. split; [apply (typed_aval ls rho s' t out C T')|]. intros i Hi.
  specialize (V' rho (TA (tab out (comp_at c (map (aval rho s) (i0 :: ins')))))). rewrite (holds_aval rho s' t (tab out (comp_at c (map (aval rho s) (i0 :: ins'))))).
  - rewrite aget_tab by exact Hi. reflexivity.
  - apply V'. split; auto. eexists _, _, _, _. split; [apply (holdsl_avals ls s rho (i0 :: ins') (sh :: shs') C HI)|].
    split; [apply (typed_aval ls rho s i0 sh C Hi0)|]. split; [apply (typed_aval ls rho s i0 sh C Hi0)|]. split; [constructor|]. apply (g_ev _ _ _ _ _ _ _ _ _ _ _ _ (HG rho C)).
Qed.
Print Assumptions C55_values.

Lemma elements_tab out a f : has_shape out a -> (forall i, in_bounds out i -> aget 0 a i = f i) -> elements_sum a = fold_right Rplus 0 (map f (indices out)).
Proof. intros H HF. rewrite (tab_eq out a f H HF). reflexivity. Qed.
Lemma put_conform ls rho x v t : conform ls rho -> has_shape (ls x) v -> conform ls (put rho x (step (rho x) v t)).
Proof.
  intros C Hv i. unfold put. destruct (Nat.eqb_spec i x) as [->|]; [apply step_has_shape; auto|apply C].
Qed.

Lemma lim_ext f g a l : (forall h, f h = g h) -> derivable_pt_lim f a l -> derivable_pt_lim g a l.
Proof. intros E H eps He. destruct (H eps He) as (d & Hd). exists d. intros h. rewrite <- !E. apply Hd. Qed.

(** Gradients of the composite: moving the leaf [x] in the direction [v] changes
    the sum of the elements that [Comp_Spec] defines at the rate
    [dot (gradient of x) v]. *)
Theorem C55_gradient :
  forall (pop : tgraph -> list nat -> option (nat * list nat)) (debug : bool) (fuel : nat)
    (ls : nat -> list nat) (c : comp) (ins : list nat) (shs : list (list nat)) (out : list nat) (s s' g' : tgraph) (t x r : nat) (b : bool) (log : list nat)
    (rho : nat -> arr R) (v : arr R),
  twf ls s -> (forall g, heap_pop g (pop g)) ->
  Forall2 (shaped ls s) ins shs -> comp_shape c shs = Some out ->
  build_comp c ins s = Some (t, s') ->
  t_input_leaf s x -> conform ls rho -> has_shape (ls x) v ->
  (forall a, In a ins -> fits ls s a /\ t_smooth ls s rho x a) -> comp_dom c (map (aval rho s) ins) ->
  t_grad pop debug fuel [t] [x] s' = Ok ([(r, b)], g', log) ->
  has_shape (ls x) (aval rho g' r) /\
  derivable_pt_lim
    (fun h => fold_right Rplus 0 (map (comp_at c (map (aval (put rho x (step (rho x) v h)) s) ins)) (indices out)))
    0 (dot (aval rho g' r) v).
Proof.
  intros pop debug fuel ls c ins shs out s s' g' t x r b log rho v W Hp HI HC HB Hx C Hv HN HD HG.
  destruct (C55_values ls c ins shs out s s' t W HI HC HB) as (W' & G' & T' & HV).
  assert (Lx : (x < length s)%nat) by (destruct Hx as (n & Hn & _); apply nth_error_Some; congruence).
  assert (HX' : t_input_leaf s' x).
  { destruct Hx as (n & Hn & A). destruct G' as (new & ->). exists n. split; [rewrite nth_error_app1; auto|exact A]. }
  assert (NI : nice false ls rho x s' t).
  { destruct (comp_shape_inputs _ _ _ HC) as (sh & shs' & ->). inversion HI as [|i0 ? ins' ? Hi0 HI']; subst. unfold build_comp in HB. cbn [hd] in HB.
    destruct (holdsl_avals ls s rho (i0 :: ins') (sh :: shs') C HI) as [HH HS]. destruct (typed_aval ls rho s i0 sh C Hi0) as [HA _].
    pose proof (comp_good (TyA sh) (TyA sh) (TA (aval rho s i0)) (TA (aval rho s i0)) c _ _ _ HC HS) as [A1 _ A3 A4 A5].
    apply (build_expr_nice false ls rho x (i0 :: ins') (map TyA (sh :: shs')) (map TA (map (aval rho s) (i0 :: ins'))) i0 i0 (TyA sh) (TyA sh) (TA (aval rho s i0)) (TA (aval rho s i0)) C
             (comp_expr c) [] [] [] s t s' (TyA out)); auto.
    - apply typedl_shapes. exact HI.
    - constructor.
    - constructor.
    - intros a [Ha|[->|[->|[]]]]; apply HN; simpl; auto. }
  destruct NI as [NF NS].
  assert (Q1 : forall y, In y [t] -> fits ls s' y /\ exists sh, shaped ls s' y sh) by (intros y [<-|[]]; split; eauto).
  assert (Q2 : NoDup [x]) by (repeat constructor; auto). assert (Q3 : forall y, In y [x] -> t_input_leaf s' y) by (intros y [<-|[]]; exact HX').
  destruct (tgrad_derivative pop debug fuel [t] [x] ls s' _ g' log W' Hp Q1 Q2 Q3 HG) as (_ & G2 & F2).
  inversion F2 as [|? ? ? ? [S2 D2] _]; subst. cbn [fst] in *. split; [apply (typed_aval ls rho g' r (ls x) C S2)|].
  specialize (D2 rho v C Hv). eapply lim_ext; [|apply D2; intros y [<-|[]]; exact NS].
  intros h. cbn [map fold_right]. rewrite Rplus_0_r. destruct (HV _ (put_conform ls rho x v h C Hv)) as [P1 P2]. apply elements_tab; auto.
Qed.
Print Assumptions C55_gradient.

(** Normalization: in every group, the result has average 0 and variance
    v / (v + 1e-5), where v is the variance of the group in the operand. *)
Lemma sum_affine m k l : fold_right Rplus 0 (map (fun a => (a - m) / k) l) = (fold_right Rplus 0 l - INR (length l) * m) / k.
Proof.
  induction l as [|a l IH]; [simpl; unfold Rdiv; ring|]. cbn [length]. rewrite S_INR. cbn [map fold_right]. rewrite IH. unfold Rdiv. ring.
Qed.
Lemma avg_affine m k l : l <> [] -> avg (map (fun a => (a - m) / k) l) = (avg l - m) / k.
Proof.
  intros H. unfold avg. rewrite map_length, sum_affine. assert (INR (length l) <> 0) by (apply not_0_INR; destruct l; [congruence|discriminate]).
  unfold Rdiv. generalize (/ k). intros p. field. auto.
Qed.
Lemma variance_affine m k l : l <> [] -> variance (map (fun a => (a - m) / k) l) = variance l / (k * k).
Proof.
  intros H. unfold variance at 1. rewrite avg_affine by exact H. rewrite map_map.
  rewrite (map_ext _ (fun a => ((a - avg l) * (a - avg l) - 0) / (k * k))).
  - rewrite <- (map_map (fun a => (a - avg l) * (a - avg l)) (fun a => (a - 0) / (k * k))). rewrite avg_affine; [|destruct l; [congruence|discriminate]].
    unfold variance. rewrite Rminus_0_r. reflexivity.
  - intros a. unfold Rdiv. rewrite Rinv_mult. generalize (/ k). intros p. ring.
Qed.
Theorem C55_normalized_moments :
  forall (ls : nat -> list nat) (axes : list Z) (ax : list nat) (x : nat) (sh : list nat) (s s' : tgraph) (t : nat) (rho : nat -> arr R) (i : list nat),
  twf ls s -> shaped ls s x sh -> mean_axes axes sh = Some ax ->
  build_comp (CNormalize axes) [x] s = Some (t, s') -> conform ls rho -> in_bounds (reduced_shape true ax sh) i ->
  let before := group true ax (aval rho s x) i in
  let after := group true ax (aval rho s' t) i in
  length after = group_size ax sh /\ avg after = 0 /\ variance after = variance before / (variance before + 1 / 100000).
Proof.
  intros ls axes ax x sh s s' t rho i W Hx HM HB C Hi. cbv zeta.
  assert (HS : comp_shape (CNormalize axes) [sh] = Some sh) by (simpl; rewrite HM; reflexivity).
  assert (HI : Forall2 (shaped ls s) [x] [sh]) by (repeat constructor; auto).
  destruct (C55_values ls _ _ _ _ s s' t W HI HS HB) as (_ & _ & T & HV). destruct (HV rho C) as [P1 P2]. clear HV.
  destruct (typed_aval ls rho s x sh C Hx) as [_ Sx]. pose proof HM as HM'. apply mean_axes_spec in HM'. destruct HM' as (HA & NE & _).
  set (a := aval rho s x) in *. set (y := aval rho s' t) in *. unfold group. rewrite (hs_sh _ _ P1), (hs_sh _ _ Sx). set (l := map (aget 0 a) (group_at true ax sh i)).
  pose proof (group_count true axes ax sh i HA NE Hi) as GC.
  assert (LN : l <> []).
  { intros E. apply (f_equal (@length R)) in E. unfold l in E. rewrite map_length, GC in E. simpl in E.
    destruct (reduced_onto true axes ax sh i HA NE Hi) as (j & Hj & Ej).
    assert (In j (group_at true ax sh i)) by (apply filter_In; split; [apply indices_in; exact Hj|apply shape_eqb_ok; exact Ej]).
    destruct (group_at true ax sh i); [contradiction|simpl in GC; lia]. }
  assert (EQ : map (aget 0 y) (group_at true ax sh i) = map (fun b => (b - avg l) / sqrt (variance l + 1 / 100000)) l).
  { unfold l at 3. rewrite map_map. apply map_ext_in. intros j Hj. apply group_mem in Hj. destruct Hj as [Hj Ej].
    rewrite (P2 j Hj). cbn [comp_at map]. fold a. rewrite (hs_sh _ _ Sx), HA. unfold normalized, group. rewrite (hs_sh _ _ Sx), Ej. reflexivity. }
  split; [rewrite map_length; exact GC|]. rewrite EQ. rewrite avg_affine, variance_affine by exact LN. split; [unfold Rdiv; ring|].
  rewrite sqrt_sqrt; [reflexivity|]. pose proof (variance_nonneg l). lra.
Qed.
Print Assumptions C55_normalized_moments.

(** The number of averaged elements is computed in single precision, so that in
    double precision the mean of 2^24 + 1 ones is not 1. *)
Lemma mean_of_many n : N.of_nat n = 16777217%N ->
  exists r, reduce_mean [0%Z] false false (full [n] 1) = Some (Arr [] [r]) /\ avg (repeat 1 n) = 1 /\ r <> 1.
Proof.
  intros N2. assert (N1 : n <> 0%nat) by (intros ->; discriminate).
  assert (N3 : INR n = 16777217).
  { rewrite INR_IZR_INZ, <- nat_N_Z, N2. reflexivity. }
  assert (HS : has_shape [n] (full [n] 1)) by apply full_shape. assert (HN : [n] <> [0%nat]) by congruence.
  assert (S1 : forall m, fold_right Rplus 0 (repeat 1 m) = INR m) by (intros m; induction m as [|m IH]; [reflexivity|]; rewrite S_INR; simpl; rewrite IH; ring).
  exists (INR n * (1 / 16777216)). split; [|split].
  - pose proof (reduce_push false [0%Z] [0%nat] [n] (full [n] 1) HS HN eq_refl) as RP. unfold reduce in RP. change (a_shape (full [n] 1)) with [n] in RP. cbn [length] in RP.
    change (preprocess_axes 1 [0%Z] false) with (Some [0%nat]) in RP. cbn [bind] in RP.
    unfold reduce_mean. change (a_shape (full [n] 1)) with [n]. cbn [length]. change (preprocess_axes 1 [0%Z] false) with (Some [0%nat]). cbn [bind].
    unfold mean_len. cbn [mean_len_from nth_error bind]. rewrite N2. change (f32_of (1 * f32_of 16777217)) with 16777216%N. cbn [bind]. rewrite RP. cbn [bind].
    unfold is_scalar_shape. change (shape_eqb [n] []) with false. destruct (shape_eqb [n] [0%nat]) eqn:E; [apply shape_eqb_ok in E; congruence|]. cbn [orb].
    f_equal. unfold push, tab, amap. cbn [a_shape a_data]. change (reduced_shape false [0%nat] [n]) with (@nil nat). cbn [indices map]. f_equal. f_equal. f_equal.
    rewrite (rsum_idx_ext [n] _ (fun _ => 1)).
    + rewrite rsum_ones. f_equal. rewrite indices_length. apply Nat.mul_1_r.
    + intros i Hi. unfold full. rewrite aget_tab by exact Hi. inversion Hi as [|? ? ? ? ? H2]; subst. inversion H2; subst. change (delta [] [] * 1 = 1). unfold delta. simpl. ring.
  - unfold avg. rewrite S1, repeat_length. apply Rinv_r. rewrite N3. lra.
  - rewrite N3. lra.
Qed.
Theorem C55_mean_of_many_elements_refuted :
  exists n r, reduce_mean [0%Z] false false (full [n] 1) = Some (Arr [] [r]) /\ avg (repeat 1 n) = 1 /\ r <> 1.
Proof. exists (N.to_nat 16777217). apply mean_of_many. apply N2Nat.id. Qed.
Print Assumptions C55_mean_of_many_elements_refuted.

(** Batch normalization of a 2 x 3 batch with a scale and a shift per column. *)
Definition bn_ls (i : nat) : list nat := match i with 0%nat => [2%nat; 3%nat] | 1%nat | 2%nat => [1%nat; 3%nat] | _ => [] end.
Definition bn_built := build_comp CBatchNorm [0%nat; 1%nat; 2%nat] [t_var 0; t_var 1; t_var 2].
Definition bn_graph : tgraph := match bn_built with Some (_, g) => g | None => [] end.
Definition bn_out : nat := match bn_built with Some (t, _) => t | None => 0%nat end.
Definition bn_result := t_grad (@max_pop top) true 400 [bn_out] [0%nat] bn_graph.
Lemma bn_ok : build_comp CBatchNorm [0%nat; 1%nat; 2%nat] [t_var 0; t_var 1; t_var 2] = Some (bn_out, bn_graph).
Proof.
  assert (B : match bn_built with Some _ => true | None => false end = true) by (vm_compute; reflexivity).
  unfold bn_out, bn_graph. unfold bn_built in *.
  destruct (build_comp CBatchNorm [0%nat; 1%nat; 2%nat] [t_var 0; t_var 1; t_var 2]) as [[]|]; [reflexivity|discriminate].
Qed.
Example C55_hypotheses_met :
  twf bn_ls [t_var 0; t_var 1; t_var 2] /\
  Forall2 (shaped bn_ls [t_var 0; t_var 1; t_var 2]) [0%nat; 1%nat; 2%nat] [[2%nat; 3%nat]; [1%nat; 3%nat]; [1%nat; 3%nat]] /\
  comp_shape CBatchNorm [[2%nat; 3%nat]; [1%nat; 3%nat]; [1%nat; 3%nat]] = Some [2%nat; 3%nat] /\
  build_comp CBatchNorm [0%nat; 1%nat; 2%nat] [t_var 0; t_var 1; t_var 2] = Some (bn_out, bn_graph) /\
  t_input_leaf [t_var 0; t_var 1; t_var 2] 0 /\
  (forall rho a, In a [0%nat; 1%nat; 2%nat] -> fits bn_ls [t_var 0; t_var 1; t_var 2] a /\ t_smooth bn_ls [t_var 0; t_var 1; t_var 2] rho 0 a) /\
  (exists r b log, t_grad (@max_pop top) true 400 [bn_out] [0%nat] bn_graph = Ok ([(r, b)], res_graph bn_result, log)) /\
  mean_axes [0%Z] [2%nat; 3%nat] = Some [0%nat] /\
  (** means 2 and 5 along axis 0, variances 1 and 4, mean squared error *)
  map (comp_at (CMean false [0%Z]) [Arr [2%nat; 2%nat] [1; 3; 3; 7]]) (indices [2%nat]) = [2; 5] /\
  map (comp_at (CVariance false [0%Z]) [Arr [2%nat; 2%nat] [1; 3; 3; 7]]) (indices [2%nat]) = [1; 4] /\
  map (comp_at CMse [Arr [2%nat; 2%nat] [1; 3; 3; 7]; Arr [2%nat; 2%nat] [0; 0; 1; 7]]) (indices [2%nat]) = [5; 2].
Proof.
  split; [apply twf_b_sound; vm_compute; reflexivity|]. split; [repeat constructor|]. split; [vm_compute; reflexivity|].
  split; [exact bn_ok|]. split; [eexists; repeat split; reflexivity|].
  split.
  { intros rho a Ha. simpl in Ha. destruct Ha as [<-|[<-|[<-|[]]]]; (split; [apply fits_b_sound; vm_compute; reflexivity|apply t_smooth_b_sound; vm_compute; reflexivity]). }
  split.
  { assert (B : is_ok bn_result = true) by (vm_compute; reflexivity). destruct (is_ok_sound _ B) as (log & E).
    assert (L : exists r b, res_tensors bn_result = [(r, b)]) by (eexists _, _; vm_compute; reflexivity). destruct L as (r & b & L).
    exists r, b, log. rewrite <- L, <- E. unfold bn_result. reflexivity. }
  split; [vm_compute; reflexivity|].
  split; [|split]; cbv -[Rplus Rmult Rminus Rdiv Rinv Ropp IZR]; (f_equal; [lra|apply f_equal2; [lra|reflexivity]]).
Qed.
