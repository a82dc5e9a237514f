(** The convolutional classifier: shapes, values and smoothness of what it builds. *)
From Coq Require Import String List Arith ZArith NArith Bool Lia Reals Lra Relations.
From Coquelicot Require Import Coquelicot.
Import ListNotations.
From Verif Require Import Graph_Model Eval_Model Eval_Spec Eval_Proofs Graph_Proofs Grad_Model Grad_Spec
  Scalar_Model Scalar_Spec Scalar_Rules Scalar_Proofs.
From Verif Require Import Array_Model Array_Proofs Array_Sum Arith_Model Arith_Proofs Arith_Final Shape_Model Vjp_Spec Vjp_Proofs
  Dot_Model Dot_Spec Dot_Proofs Conv_Model Conv_Spec Conv_Filter Softmax_Model Softmax_Spec Softmax_Proofs2 Softmax_Xent Reduce_Model Reduce_Spec Reduce_Proofs
  Tens_Model Tens_Spec Tens_Fwd Tens_Fwd2 Tens_Fwd4 Tens_Build Tens_Rules Tens_Rules2 Tens_Rules5 Tens_Rules8 Tens_Ops Tens_Grad Tens_Final Tens_Comp
  Comp_Model Comp_Spec Comp_Proofs Net_Model Net_Spec.
From Verif Require Pool_Spec Pool_Final.
Local Set Bullet Behavior "Strict Subproofs".
Local Open Scope R_scope.

Lemma tmk_nice_at ls rho x ins sh o ts s t s' : twf ls s -> tmk ins sh true o s = Some (t, s') ->
  typedl ls s ins ts -> op_fit o ts = true ->
  (forall a, In a ins -> nice false ls rho x s a) -> thawed o = true ->
  (forall n, nth_error s' t = Some n -> n_op n = o -> n_inputs n = map (fun i => Incoming i false 0) ins -> t_dom_at rho s' n) ->
  nice false ls rho x s' t.
Proof.
  intros W Hm HT HF HN HZ HD. destruct (tmk_node _ _ _ _ _ _ _ Hm) as (-> & n & -> & Ho & Hd & Hi).
  assert (G : grows s (s ++ [n])) by (exists [n]; reflexivity).
  assert (Hn : nth_error (s ++ [n]) (length s) = Some n) by (rewrite nth_error_app2, Nat.sub_diag; auto).
  assert (Hlt : forall a, In a ins -> (a < length s)%nat).
  { intros a Ha. apply In_nth_error in Ha. destruct Ha as (k & Hk). destruct (Forall2_nth _ _ _ _ _ HT Hk) as (b & _ & Hb). eapply typed_lt; exact Hb. }
  assert (Hdep : forall i, depends (s ++ [n]) (length s) i -> i = length s \/ exists a, In a ins /\ depends (s ++ [n]) a i).
  { intros i D. apply clos_rt_rt1n in D. inv D; auto. right. destruct H as (n' & inc & Hn' & Hin & Hk).
    assert (n' = n) by congruence. subst n'. rewrite Hi in Hin. apply in_map_iff in Hin. destruct Hin as (a & <- & Ha).
    simpl in Hk. subst y. exists a. split; auto. apply clos_rt1n_rt. auto. }
  assert (HN' : forall a, In a ins -> nice false ls rho x (s ++ [n]) a) by (intros a Ha; apply (nice_grows false ls rho x s); auto).
  split.
  - intros i m ts' D Hm' HL. destruct (Hdep i D) as [->|(a & Ha & Da)].
    + assert (m = n) by congruence. subst m. rewrite Ho.
      assert (ts' = ts) as ->; [|exact HF].
      assert (HL2 : lookups (ttypes ls (s ++ [n])) (n_inputs n) = Some ts); [|congruence].
      apply lookups_spec. rewrite Hi. clear -HT G. induction HT; simpl; constructor; auto. split; auto. eapply grows_typed; eauto.
    + destruct (HN' a Ha) as [A _]. eapply A; eauto.
  - intros i m sh' D Dx Hne Hm' Hty Hsz. destruct (Hdep i D) as [->|(a & Ha & Da)].
    + assert (m = n) by congruence. subst m. split; [congruence|]. split; [apply HD; auto|].
      intros p inc _ Hz. exfalso. rewrite Ho in Hz. destruct o; try discriminate.
    + destruct (HN' a Ha) as [_ A]. eapply A; eauto.
Qed.

Lemma largest_is l v : In v l -> (forall a, In a l -> a <= v) -> largest l = v.
Proof.
  intros Hv Hl. unfold largest.
  assert (Q : forall l b, b <= v -> (forall a, In a l -> a <= v) -> b = v \/ In v l -> fold_right Rmax b l = v).
  { clear. induction l as [|a l IH]; intros b Hb Hl Hi; cbn [fold_right].
    - destruct Hi as [Hi|[]]; exact Hi.
    - destruct (Req_dec b v) as [E|E].
      + rewrite IH; [|exact Hb|intros c Hc; apply Hl; right; exact Hc|left; exact E]. apply Rmax_right. apply Hl. left. reflexivity.
      + destruct Hi as [Hi|[->|Hi]]; [congruence| |].
        * assert (F : fold_right Rmax b l <= v); [|rewrite Rmax_left; auto].
          clear -Hb Hl. induction l as [|c l IH]; cbn [fold_right]; [exact Hb|]. apply Rmax_lub; [apply Hl; right; left; reflexivity|].
          apply IH. intros d [<-|Hd]; apply Hl; [left; reflexivity|right; right; exact Hd].
        * rewrite IH; [|exact Hb|intros c Hc; apply Hl; right; exact Hc|right; exact Hi]. apply Rmax_right. apply Hl. left. reflexivity. }
  apply Q; auto. destruct l as [|a l]; [destruct Hv|]. apply Hl. left. reflexivity.
Qed.

Lemma window_in size step h v r q a b : (0 < step)%nat -> (size <= h)%nat -> (size <= v)%nat ->
  (r < places h 0 step size)%nat -> (q < places v 0 step size)%nat ->
  In (a, b) (window size step r q) <-> Pool_Spec.in_window h v 0 step size r q a b.
Proof.
  intros Hs Hh Hv Hr Hq. unfold places in Hr, Hq. rewrite Nat.mul_0_r, Nat.add_0_r in Hr, Hq.
  apply div_places in Hr; auto. apply div_places in Hq; auto.
  unfold window. rewrite in_prod_iff, !in_seq. unfold Pool_Spec.in_window. lia.
Qed.

Lemma loss_value n f c labels z w b sb : has_shape [n; f] z -> has_shape [f; c] w -> has_shape sb b -> labels_ok n c labels = true ->
  mean_axes [0%Z] [n; 1%nat] = Some [0%nat] ->
  mean_of false [0%nat] [n; 1%nat] (xent_pick n (tab [n; c] (fun i => rget (mat false false n f c z w) i + rget b (bc_idx sb i))) (lab_of labels)) = Arr [1%nat] [nll labels z w b].
Proof.
  intros Sz Cw Cb HL MA. destruct (labels_ok_spec n c labels HL) as [_ LN].
  set (lg := tab [n; c] (fun i => rget (mat false false n f c z w) i + rget b (bc_idx sb i))).
  assert (LG : forall i k, (i < n)%nat -> (k < c)%nat -> rget lg [i; k] = logit z w b i k).
  { intros i k Hi Hk. unfold lg. rewrite aget_tab by (apply in_bounds_pair; auto). rewrite mat_get by auto. unfold logit. rewrite (hs_sh _ _ Sz), (hs_sh _ _ Cb). reflexivity. }
  transitivity (tab [1%nat] (fun _ : list nat => nll labels z w b)); [|reflexivity].
  apply tab_eq; [apply mean_shape|]. intros i Hi.
  rewrite (mean_at false [0%Z] [0%nat] [n; 1%nat] (xent_pick n lg (lab_of labels)) i MA (tab_has_shape _ _) Hi).
  unfold nll. rewrite (hs_sh _ _ Sz), (hs_sh _ _ Cw). cbn [hd nth]. f_equal.
  assert (GA : group_at false [0%nat] [n; 1%nat] i = map (fun k => [k; 0%nat]) (seq 0 n)).
  { unfold group_at. assert (IX : indices [n; 1%nat] = map (fun k => [k; 0%nat]) (seq 0 n)).
    { cbn [indices seq flat_map map app]. induction (seq 0 n) as [|a l IH]; [reflexivity|]. cbn. rewrite <- IH. reflexivity. }
    rewrite IX. inversion Hi as [|? ? ? ? H1 H2]; subst. inversion H2; subst. assert (x = 0%nat) by lia. subst x.
    clear. induction (seq 0 n) as [|a l IH]; [reflexivity|]. cbn [map filter]. rewrite IH. reflexivity. }
  rewrite GA, map_map. apply map_ext_in. intros k Hk. apply in_seq in Hk. destruct (LN k) as [_ Lk]; [lia|].
  unfold xent_pick. rewrite aget_tab by (apply in_bounds_pair; lia). cbn [nth]. unfold lsmax. change (a_shape lg) with [n; c].
  rewrite aget_tab by (apply in_bounds_pair; auto; lia). rewrite LG by (auto; lia). unfold lse, line_sum. change (a_shape lg) with [n; c]. cbn [nth at_pos].
  rewrite (sum_below_ext c _ (fun j => exp (logit z w b k j))).
  - unfold lab_of. ring.
  - intros j Hj. rewrite LG by (auto; lia). reflexivity.
Qed.

Section Net.
  Variables (checked : bool) (lowest : R) (bits : N).
  Variable ls : nat -> list nat.
  Variable base : nat.

  (** Tensor [t] has the shape [sh], the values [V], and is smooth in every leaf
      below [base] where [P] holds. *)
  Definition at_ (s : tgraph) (t : nat) (sh : list nat) (V : (nat -> arr R) -> arr R) (P : (nat -> arr R) -> Prop) : Prop :=
    typed ls s t (TyA sh) /\ (forall rho, conform ls rho -> aval rho s t = V rho) /\
    forall rho x, conform ls rho -> P rho -> (x < base)%nat -> nice false ls rho x s t.
  Lemma at_grows s s' t sh V P : twf ls s -> grows s s' -> at_ s t sh V P -> at_ s' t sh V P.
  Proof.
    intros W G (A & B & D). pose proof (typed_lt _ _ _ _ A). split; [eapply grows_typed; eauto|]. split.
    - intros rho C. rewrite (grows_aval rho s s' t G) by assumption. auto.
    - intros rho x C HP Hx. apply (nice_grows false ls rho x s s'); auto.
  Qed.
  Lemma at_shape s t sh V P rho : at_ s t sh V P -> conform ls rho -> holds rho s t (TA (V rho)) /\ has_shape sh (V rho).
  Proof. intros (A & B & _) C. rewrite <- (B rho C). apply typed_aval with (ls := ls); auto. Qed.
  Lemma at_values s t sh V V' P : at_ s t sh V P -> (forall rho, conform ls rho -> V rho = V' rho) -> at_ s t sh V' P.
  Proof. intros (A & B & D) E. split; [exact A|]. split; [|exact D]. intros rho C. rewrite B, E by exact C. reflexivity. Qed.
  Lemma at_where s t sh V (P P' : (nat -> arr R) -> Prop) : at_ s t sh V P -> (forall rho, conform ls rho -> P' rho -> P rho) -> at_ s t sh V P'.
  Proof. intros (A & B & D) E. split; [exact A|]. split; [exact B|]. intros rho x C HP Hx. apply D; auto. Qed.

  Lemma at_leaf s i : twf ls s -> t_input_leaf s i -> at_ s i (ls i) (fun rho => rho i) (fun _ => True).
  Proof.
    intros W H. destruct (t_leaf_facts ls s i W H) as (_ & T & _ & F). destruct H as (n & Hn & Ho & Hd). split; [exact T|]. split.
    - intros rho C. apply holds_aval. apply (leaf_holds rho s i n); auto.
    - intros rho x C _ Hx. split; [exact F|]. intros j m sh Dj Dx Hne Hm. exfalso.
      assert (N : n_inputs n = []) by (apply (twf_leaf _ _ W i n Hn Ho)).
      assert (j = i).
      { apply clos_rt_rt1n in Dj. inversion Dj as [|y z (n' & inc & Hn' & Hin & _)]; [reflexivity|]. assert (n' = n) by congruence. subst n'. rewrite N in Hin. destruct Hin. }
      subst j. apply clos_rt_rt1n in Dx. inversion Dx as [Q|y z (n' & inc & Hn' & Hin & _)]; [congruence|]. assert (n' = n) by congruence. subst n'. rewrite N in Hin. destruct Hin.
  Qed.

  (** Operations on one array, on two, and on an array with integers. *)
  Lemma step2 o s a b sa sb Va Vb Pa Pb out (F : arr R -> arr R -> arr R) t s' : twf ls s -> (base <= length s)%nat ->
    at_ s a sa Va Pa -> at_ s b sb Vb Pb -> o <> TLeaf -> thawed o = true ->
    op_ty o [TyA sa; TyA sb] = Some (TyA out) -> op_fit o [TyA sa; TyA sb] = true -> (forall vs, t_dom o vs) ->
    (forall x y, has_shape sa x -> has_shape sb y -> tcompute o [TA x; TA y] = Some (TA (F x y))) ->
    tmk [a; b] None true o s = Some (t, s') ->
    twf ls s' /\ grows s s' /\ at_ s' t out (fun rho => F (Va rho) (Vb rho)) (fun rho => Pa rho /\ Pb rho).
  Proof.
    intros W Hb Ha Hb' Ho Th HT HF HD HV Hm.
    assert (T : typedl ls s [a; b] [TyA sa; TyA sb]) by (constructor; [apply Ha|constructor; [apply Hb'|constructor]]).
    destruct (tmk_spec ls [a; b] None true o _ _ s t s' W Ho Hm T HT) as (W' & G & T' & V'); [intros; discriminate|].
    split; [exact W'|]. split; [exact G|]. split; [exact T'|].
    assert (HH : forall rho, conform ls rho -> holdsl rho s [a; b] [TA (Va rho); TA (Vb rho)]).
    { intros rho C. constructor; [apply (at_shape s a sa Va Pa rho Ha C)|constructor; [apply (at_shape s b sb Vb Pb rho Hb' C)|constructor]]. }
    split.
    - intros rho C. apply holds_aval. apply V'. exists [TA (Va rho); TA (Vb rho)]. split; [apply HH; exact C|].
      apply HV; [apply (at_shape s a sa Va Pa rho Ha C)|apply (at_shape s b sb Vb Pb rho Hb' C)].
    - intros rho x C [HA HB] Hx. apply (tmk_nice false ls rho x [a; b] None true o _ [TA (Va rho); TA (Vb rho)] s t s' W Hm T HF (HH rho C)).
      + intros c [<-|[<-|[]]]; [apply Ha|apply Hb']; auto.
      + right. auto.
  Qed.
  Lemma stepI o s a l i sa Va Pa out (F : arr R -> arr R) t s' : twf ls s -> (base <= length s)%nat ->
    at_ s a sa Va Pa -> typed ls s i (TyI l) -> (forall rho x, (x < base)%nat -> nice false ls rho x s i) -> o <> TLeaf -> thawed o = true ->
    op_ty o [TyA sa; TyI l] = Some (TyA out) -> op_fit o [TyA sa; TyI l] = true -> (forall vs, t_dom o vs) ->
    (forall x, has_shape sa x -> tcompute o [TA x; TI l] = Some (TA (F x))) ->
    tmk [a; i] None true o s = Some (t, s') ->
    twf ls s' /\ grows s s' /\ at_ s' t out (fun rho => F (Va rho)) Pa.
  Proof.
    intros W Hb Ha Hi Ni Ho Th HT HF HD HV Hm.
    assert (T : typedl ls s [a; i] [TyA sa; TyI l]) by (constructor; [apply Ha|constructor; [exact Hi|constructor]]).
    destruct (tmk_spec ls [a; i] None true o _ _ s t s' W Ho Hm T HT) as (W' & G & T' & V'); [intros; discriminate|].
    split; [exact W'|]. split; [exact G|]. split; [exact T'|].
    assert (HH : forall rho, conform ls rho -> holdsl rho s [a; i] [TA (Va rho); TI l]).
    { intros rho C. constructor; [apply (at_shape s a sa Va Pa rho Ha C)|constructor; [apply (typed_ints ls); auto|constructor]]. }
    split.
    - intros rho C. apply holds_aval. apply V'. exists [TA (Va rho); TI l]. split; [apply HH; exact C|].
      apply HV. apply (at_shape s a sa Va Pa rho Ha C).
    - intros rho x C HA Hx. apply (tmk_nice false ls rho x [a; i] None true o _ [TA (Va rho); TI l] s t s' W Hm T HF (HH rho C)).
      + intros c [<-|[<-|[]]]; [apply Ha|apply Ni]; auto.
      + right. auto.
  Qed.
  Lemma step_ints s l t s' : twf ls s -> (base <= length s)%nat -> a_ints l s = Some (t, s') ->
    twf ls s' /\ grows s s' /\ typed ls s' t (TyI l) /\ forall rho x, (x < base)%nat -> nice false ls rho x s' t.
  Proof.
    intros W Hb Hm. destruct (a_ints_spec ls l s t s' W Hm) as (W' & G & T & _). split; [exact W'|]. split; [exact G|]. split; [exact T|].
    intros rho x Hx. apply (a_ints_nice false ls rho x l s t s'); auto. lia.
  Qed.

  (** [widens]: adding the bias keeps the shape. *)
  Lemma step_add s a b sa sb Va Vb Pa Pb t s' : twf ls s -> at_ s a sa Va Pa -> at_ s b sb Vb Pb -> widens sa sb = true ->
    a_bin Add a b s = Some (t, s') ->
    twf ls s' /\ grows s s' /\ nonempty sa = true /\
    at_ s' t sa (fun rho => tab sa (fun i => rget (Va rho) i + rget (Vb rho) (bc_idx sb i))) (fun rho => Pa rho /\ Pb rho).
  Proof.
    intros W Ha Hb Hw Hm. unfold widens in Hw. destruct (arith_ty sa sb) as [r|] eqn:ET; [|discriminate]. apply shape_eqb_ok in Hw. subst r.
    assert (BT : bin_ty Add sa sb = Some sa) by exact ET.
    destruct (a_bin_spec ls Add a b sa sb sa s t s' W (proj1 Ha) (proj1 Hb) BT Hm) as (W' & G & T & V).
    split; [exact W'|]. split; [exact G|]. split.
    { unfold arith_ty in ET. destruct (co_broadcast sa sb) as [r|]; [|discriminate]. destruct (infer_shape sa sb) as [r'|]; [|discriminate].
      destruct (shape_eqb r r' && nonempty r) eqn:E; [|discriminate]. injection ET as <-. apply andb_true_iff in E. apply E. }
    split; [exact T|]. split.
    - intros rho C. apply holds_aval. apply V. exists (TA (Va rho)), (TA (Vb rho)).
      destruct (at_shape s a sa Va Pa rho Ha C) as [A1 A2]. destruct (at_shape s b sb Vb Pb rho Hb C) as [B1 B2].
      split; [exact A1|]. split; [exact B1|]. cbn [tcompute]. rewrite (bin_arr_ok Add _ _ sa sb sa A2 B2 BT). cbn [otA option_map].
      unfold zip_tab. do 2 f_equal. apply tab_ext. intros i Hi. rewrite (bc_idx_self sa i Hi). reflexivity.
    - intros rho x C [HA HB] Hx. destruct (at_shape s a sa Va Pa rho Ha C) as [A1 A2]. destruct (at_shape s b sb Vb Pb rho Hb C) as [B1 B2].
      apply (a_bin_nice false ls rho x Add a b sa sb sa (TA (Va rho)) (TA (Vb rho)) s t s' W (proj1 Ha) (proj1 Hb) BT A1 B1 C); auto.
      + right. split; [reflexivity|]. exact (fun i _ => I) || (cbn; auto).
      + apply Ha; auto.
      + apply Hb; auto.
  Qed.
  Lemma positive_shape a : has_shape (a_shape a) (positive a).
  Proof. apply tab_has_shape. Qed.
  Lemma pool_is size step sh out x : pool_ty 0 step size sh = Some out -> has_shape sh x -> (forall i, in_bounds sh i -> lowest < rget x i) ->
    tcompute (TPool lowest bits checked 0 step size) [TA x] = Some (TA (pooled size step x)).
  Proof.
    intros HP Hx Hl. destruct (pool_ty_ok _ _ _ _ _ HP) as (b & ch & xh & xw & yh & yw & _ & -> & -> & S & Eh & Ew).
    rewrite (pool_value lowest bits checked step size b ch xh xw yh yw x S Hx). do 2 f_equal. unfold pooled. rewrite (hs_sh _ _ Hx).
    unfold places. rewrite !Nat.mul_0_r, !Nat.add_0_r, <- Eh, <- Ew. apply tab_ext. intros i Hi.
    apply in_bounds4 in Hi. destruct Hi as (i0 & c & r & q & -> & A0 & A1 & A2 & A3).
    pose proof S as (S1 & S2 & S3 & S4 & S5 & S6 & _).
    assert (R1 : (r * step + size <= xh)%nat) by (apply S5 in A2; lia). assert (R2 : (q * step + size <= xw)%nat) by (apply S6 in A3; lia).
    destruct (Pool_Final.window_first lowest checked b ch xh xw 0 step size yh yw S x i0 c r q) as (h & w & [IW FM] & E); auto; try lia.
    { apply (all_above lowest b ch xh xw); auto. }
    { exists (r * step)%nat, (q * step)%nat. unfold Pool_Spec.in_window. lia. }
    unfold win. rewrite E. cbn [fst]. symmetry.
    assert (WI : forall a b', In (a, b') (window size step r q) <-> Pool_Spec.in_window xh xw 0 step size r q a b').
    { intros a b'. unfold window. rewrite in_prod_iff, !in_seq. unfold Pool_Spec.in_window. lia. }
    apply largest_is.
    - apply in_map_iff. exists (h, w). split; [reflexivity|]. apply WI. exact IW.
    - intros v Hv. apply in_map_iff in Hv. destruct Hv as ([a b'] & <- & Hm). cbn [fst snd]. apply (FM a b'). apply WI. exact Hm.
  Qed.

  Lemma step_relu_pool k s y1 sh V P y2 s1 t s2 out : twf ls s -> lowest < 0 -> at_ s y1 sh V P -> nonempty sh = true ->
    pool_ty 0 (k_step k) (k_size k) sh = Some out -> pool_exact bits (k_step k) (k_size k) sh = true ->
    a_un ReLU y1 s = Some (y2, s1) -> tmk [y2] None true (TPool lowest bits checked 0 (k_step k) (k_size k)) s1 = Some (t, s2) ->
    twf ls s2 /\ grows s s2 /\
    at_ s2 t out (fun rho => pooled (k_size k) (k_step k) (positive (V rho))) (fun rho => P rho /\ regular_block k (V rho)).
  Proof.
    intros W HL H1 NE HP HE Hu Hm.
    destruct (a_un_spec ls ReLU y1 sh s y2 s1 W (proj1 H1) Hu) as (W1 & G1 & T1 & V1).
    assert (T : typedl ls s1 [y2] [TyA sh]) by (constructor; [exact T1|constructor]).
    assert (OT : op_ty (TPool lowest bits checked 0 (k_step k) (k_size k)) [TyA sh] = Some (TyA out)) by (cbn [op_ty]; rewrite HP; reflexivity).
    destruct (tmk_spec ls [y2] None true (TPool lowest bits checked 0 (k_step k) (k_size k)) _ _ s1 t s2 W1 ltac:(discriminate) Hm T OT) as (W2 & G2 & T2 & V2); [intros; discriminate|].
    assert (G : grows s s2) by (eapply grows_trans; eauto).
    assert (HV2 : forall rho, conform ls rho -> holds rho s1 y2 (TA (positive (V rho)))).
    { intros rho C. destruct (at_shape s y1 sh V P rho H1 C) as [A1 A2]. apply V1. exists (TA (V rho)). split; [exact A1|].
      cbn [tcompute]. rewrite (amap_tab _ sh) by exact A2. do 2 f_equal. unfold positive. rewrite (hs_sh _ _ A2). reflexivity. }
    assert (HS : forall rho, conform ls rho -> has_shape sh (V rho) /\ has_shape sh (positive (V rho))).
    { intros rho C. destruct (at_shape s y1 sh V P rho H1 C) as [A1 A2]. split; [exact A2|]. rewrite <- (hs_sh _ _ A2). apply positive_shape. }
    split; [exact W2|]. split; [exact G|]. split; [exact T2|]. split.
    - intros rho C. apply holds_aval. apply V2. exists [TA (positive (V rho))]. split; [constructor; [apply HV2; exact C|constructor]|].
      destruct (HS rho C) as [A2 A3].
      apply (pool_is (k_size k) (k_step k) sh out); auto. intros i Hi. unfold positive. rewrite (hs_sh _ _ A2), aget_tab by exact Hi.
      pose proof (Rmax_r (rget (V rho) i) 0). lra.
    - intros rho x C [HA HR] Hx. destruct (HS rho C) as [A2 A3]. destruct (pool_ty_ok _ _ _ _ _ HP) as (b & ch & xh & xw & yh & yw & _ & Esh & Eo & S & Eh & Ew).
      unfold regular_block in HR. rewrite (hs_sh _ _ A2), Esh in HR. destruct HR as [HR0 HRW].
      assert (N1 : nice false ls rho x s1 y2).
      { destruct (at_shape s y1 sh V P rho H1 C) as [A1 _].
        apply (a_un_nice false ls rho x ReLU y1 sh (TA (V rho)) s y2 s1 W (proj1 H1) A1 C); auto.
        - cbn [op_fit]. rewrite NE. reflexivity.
        - right. split; [reflexivity|]. cbn [t_dom]. apply Forall_forall. intros v Hv. rewrite (hs_tab _ _ A2) in Hv. cbn [tab a_data] in Hv.
          apply in_map_iff in Hv. destruct Hv as (i & <- & Hi). apply indices_in in Hi. apply HR0. rewrite <- Esh. exact Hi.
        - apply H1; auto. }
      apply (tmk_nice_at ls rho x [y2] None (TPool lowest bits checked 0 (k_step k) (k_size k)) [TyA sh] s1 t s2 W1 Hm T); auto.
      + intros a [<-|[]]. exact N1.
      + intros n Hn Hno Hni. right.
        assert (NR : exists m, nth_error s1 y2 = Some m /\ n_op m = TUn ReLU /\ n_inputs m = [Incoming y1 false 0]).
        { clear -Hu. unfold a_un in Hu. cbn [un_sets_shape] in Hu. bindH Hu. destruct (tmk_node _ _ _ _ _ _ _ Hu) as (-> & m & -> & Ho & _ & Hi).
          exists m. rewrite nth_error_app2, Nat.sub_diag by lia. auto. }
        destruct NR as (m & Nm & Om & Im).
        exists lowest, bits, checked, 0%nat, (k_step k), (k_size k), (Incoming y2 false 0), m, (Incoming y1 false 0).
        split; [exact Hno|]. split; [exact Hni|]. split; [apply (grows_nth s1 s2); auto|]. split; [exact Om|]. split; [exact Im|]. split; [exact HL|].
        cbn [in_id]. cbv zeta.
        assert (EA : aval rho s2 y1 = V rho).
        { rewrite (grows_aval rho s s2 y1 G) by (eapply typed_lt; apply H1). apply H1. exact C. }
        rewrite EA. intros b' ch' xh' xw' yh' yw' Es Ep kk c i j K1 K2 K3 K4. rewrite (hs_sh _ _ A2) in Es, Ep. rewrite HP in Ep. rewrite Esh in Es. rewrite Eo in Ep.
        injection Es as <- <- <- <-. injection Ep as <- <-.
        pose proof S as (S1 & S2 & S3 & S4 & S5 & S6 & _).
        assert (R1 : (i * k_step k + k_size k <= xh)%nat) by (apply S5 in K3; lia). assert (R2 : (j * k_step k + k_size k <= xw)%nat) by (apply S6 in K4; lia).
        assert (WI : forall a b', In (a, b') (window (k_size k) (k_step k) i j) <-> Pool_Spec.in_window xh xw 0 (k_step k) (k_size k) i j a b').
        { intros a b'. unfold window. rewrite in_prod_iff, !in_seq. unfold Pool_Spec.in_window. lia. }
        destruct (HRW kk c i j) as [([h w] & M1 & M2 & M3)|NG].
        * unfold places. rewrite !Nat.mul_0_r, !Nat.add_0_r, <- Eh, <- Ew. repeat constructor; auto.
        * left. exists h, w. split; [apply WI; exact M1|]. split; [exact M2|]. intros h' w' IW Hne. apply (M3 (h', w')); [apply WI; exact IW|exact Hne].
        * right. intros h w IW. apply (NG (h, w)). apply WI. exact IW.
  Qed.
  (** The leaves of the network are in the graph before [base]. *)
  Variable g0 : tgraph.
  Hypothesis W0 : twf ls g0.
  Hypothesis Hbase : (base <= length g0)%nat.
  Hypothesis Hlow : lowest < 0.
  Lemma leaf_later s i : grows g0 s -> t_input_leaf g0 i -> at_ s i (ls i) (fun rho => rho i) (fun _ => True).
  Proof. intros G H. apply (at_grows g0 s); auto. apply at_leaf; auto. Qed.
  Lemma base_later s : grows g0 s -> (base <= length s)%nat.
  Proof. intros G. apply grows_length in G. lia. Qed.

  Lemma conv_out_places x p st k y : conv_out x p st 1 k = Some y -> y = places x p st k.
  Proof.
    unfold conv_out, places. destruct ((0 <? st)%nat && (0 <? k)%nat && (1 * (k - 1) <? x + 2 * p)%nat) eqn:E; [|discriminate]. intros H. assert (Q : y = ((x + 2 * p - (1 * (k - 1) + 1)) / st + 1)%nat) by congruence. rewrite Q. clear H Q.
    apply andb_true_iff in E. destruct E as [E _]. apply andb_true_iff in E. destruct E as [_ E]. apply Nat.ltb_lt in E.
    replace (1 * (k - 1) + 1)%nat with k by lia. reflexivity.
  Qed.

  Lemma conv_pool_made k s x sx V P out t s' : grows g0 s -> twf ls s -> t_input_leaf g0 (k_w k) -> t_input_leaf g0 (k_b k) ->
    at_ s x sx V P -> block_shape checked bits k sx (ls (k_w k)) (ls (k_b k)) = Some out ->
    conv_pool checked lowest bits k x s = Some (t, s') ->
    twf ls s' /\ grows s s' /\
    at_ s' t out (fun rho => block_value k rho (V rho)) (fun rho => P rho /\ regular_block k (filtered k (V rho) (rho (k_w k)) (rho (k_b k)))).
  Proof.
    intros G0 W Lw Lb Hx HB H. unfold block_shape in HB.
    destruct (conv_ty (k_pad k) (k_stride k) 1 sx (ls (k_w k))) as [y|] eqn:EC; [|discriminate].
    destruct (op_fit (TConv checked (k_pad k) (k_stride k) 1) [TyA sx; TyA (ls (k_w k))] && widens y (ls (k_b k)) && pool_exact bits (k_step k) (k_size k) y) eqn:EB; [|discriminate].
    apply andb_true_iff in EB. destruct EB as [EB EX]. apply andb_true_iff in EB. destruct EB as [EF EW].
    unfold conv_pool in H. bindH H. rename a into y0, s0 into s1.
    pose proof (leaf_later s (k_w k) G0 Lw) as Hw.
    destruct (conv_ty_ok _ _ _ _ _ _ EC) as (b & xch & ych & xh & xw & kh & kw & yh & yw & Esx & Esw & Ey & S).
    assert (PL : yh = places xh (k_pad k) (k_stride k) kh /\ yw = places xw (k_pad k) (k_stride k) kw).
    { unfold conv_ty in EC. rewrite Esx, Esw in EC. destruct (conv_out xh (k_pad k) (k_stride k) 1 kh) as [yh'|] eqn:E1; [|discriminate].
      destruct (conv_out xw (k_pad k) (k_stride k) 1 kw) as [yw'|] eqn:E2; [|discriminate].
      destruct ((xch =? xch)%nat && _ && _); [|discriminate]. injection EC as EC. rewrite Ey in EC. injection EC as <- <-. split; apply conv_out_places; assumption. }
    destruct (step2 (TConv checked (k_pad k) (k_stride k) 1) s x (k_w k) sx (ls (k_w k)) V (fun rho => rho (k_w k)) P (fun _ => True) y
                (conv_array b xch ych kh kw yh yw (k_pad k) (k_stride k) 1) y0 s1 W (base_later s G0) Hx Hw) as (W1 & G1 & H1); auto; try discriminate.
    { cbn [op_ty]. rewrite EC. reflexivity. }
    { intros vs. exact I. }
    { intros a w Ha Hw'. rewrite Esx in Ha. rewrite Esw in Hw'. apply (conv_value checked (k_pad k) (k_stride k) 1 b xch ych xh xw kh kw yh yw a w S Ha Hw'). }
    assert (G01 : grows g0 s1) by (eapply grows_trans; eauto).
    bindH H. rename a into y1, s0 into s2. pose proof (leaf_later s1 (k_b k) G01 Lb) as Hb.
    destruct (step_add s1 y0 (k_b k) y (ls (k_b k)) _ _ _ _ y1 s2 W1 H1 Hb EW E0) as (W2 & G2 & NE & H2).
    bindH H. rename a into y2, s0 into s3.
    assert (H2' : at_ s2 y1 y (fun rho => filtered k (V rho) (rho (k_w k)) (rho (k_b k))) P).
    { apply (at_where _ _ _ _ (fun rho => (P rho /\ True) /\ True)); [|tauto].
      apply (at_values _ _ _ _ _ _ H2). intros rho C. destruct (at_shape s x sx V P rho Hx C) as [_ Sx].
      pose proof (C (k_w k)) as Cw. pose proof (C (k_b k)) as Cb. unfold filtered. rewrite (hs_sh _ _ Sx), (hs_sh _ _ Cw), (hs_sh _ _ Cb), Esx, Esw.
      destruct PL as [<- <-]. rewrite Ey. apply tab_ext. intros i Hi. unfold conv_array. rewrite aget_tab by exact Hi.
      apply in_bounds4 in Hi. destruct Hi as (i0 & o & r & q & -> & _). reflexivity. }
    destruct (step_relu_pool k s2 y1 y _ P y2 s3 t s' out W2 Hlow H2' NE HB EX E1 H) as (W4 & G4 & H4).
    split; [exact W4|]. split; [eapply grows_trans; [exact G1|]; eapply grows_trans; eauto|]. exact H4.
  Qed.

  Lemma conv_pools_made ks : forall s x sx V P out t s', grows g0 s -> twf ls s ->
    (forall k, In k ks -> t_input_leaf g0 (k_w k) /\ t_input_leaf g0 (k_b k)) ->
    at_ s x sx V P -> blocks_shape checked bits ls ks sx = Some out ->
    conv_pools checked lowest bits ks x s = Some (t, s') ->
    twf ls s' /\ grows s s' /\ at_ s' t out (fun rho => features ks rho (V rho)) (fun rho => P rho /\ regular ks rho (V rho)).
  Proof.
    induction ks as [|k ks IH]; intros s x sx V P out t s' G W HL Hx HB H; cbn [conv_pools blocks_shape] in *.
    - injection H as <- <-. injection HB as <-. split; [exact W|]. split; [apply grows_refl|]. apply (at_where _ _ _ _ P); [exact Hx|]. tauto.
    - bindH H. destruct (block_shape checked bits k sx (ls (k_w k)) (ls (k_b k))) as [y|] eqn:EB; [|discriminate].
      destruct (HL k (or_introl eq_refl)) as [Lw Lb].
      destruct (conv_pool_made k s x sx V P y a s0 G W Lw Lb Hx EB E) as (W1 & G1 & H1).
      destruct (IH s0 a y _ _ out t s' (grows_trans _ _ _ G G1) W1 (fun k' Hk => HL k' (or_intror Hk)) H1 HB H) as (W2 & G2 & H2).
      split; [exact W2|]. split; [eapply grows_trans; eauto|]. apply (at_where _ _ _ _ _ _ H2). intros rho C. cbn [regular]. tauto.
  Qed.

  Lemma reshape_made l s x sx V P out t s' : grows g0 s -> twf ls s -> at_ s x sx V P -> other_shape l sx = Some out ->
    a_reshape x l s = Some (t, s') ->
    twf ls s' /\ grows s s' /\ at_ s' t out (fun rho => arranged l (V rho)) P.
  Proof.
    intros G W Hx HO H. unfold a_reshape in H. bindH H. rename a into i, s0 into s1.
    destruct (step_ints s l i s1 W (base_later s G) E) as (W1 & G1 & T1 & N1).
    pose proof HO as HO'. unfold other_shape in HO'. destruct (reshape_dims (prod sx) l l) as [o|] eqn:ER; [|discriminate].
    destruct (prod sx =? prod o)%nat eqn:EP; [|discriminate]. injection HO' as ->.
    assert (G01 : grows g0 s1) by (eapply grows_trans; eauto).
    destruct (stepI TReshape s1 x l i sx V P out (arranged l) t s' W1 (base_later s1 G01) (at_grows s s1 x sx V P W G1 Hx) T1 N1) as (W2 & G2 & H2); auto; try discriminate.
    { cbn [op_ty]. rewrite ER, EP. reflexivity. }
    { intros vs. exact I. }
    { intros a Ha. cbn [tcompute]. unfold reshape. rewrite (proj2 Ha). rewrite ER. simpl. unfold arranged. rewrite (hs_sh _ _ Ha), HO.
      unfold into_shape. rewrite (hs_sh _ _ Ha), EP. reflexivity. }
    split; [exact W2|]. split; [eapply grows_trans; eauto|]. exact H2.
  Qed.
  Lemma net_made ks img flat labels x w b t s' :
    t_input_leaf g0 x -> t_input_leaf g0 w -> t_input_leaf g0 b ->
    (forall k, In k ks -> t_input_leaf g0 (k_w k) /\ t_input_leaf g0 (k_b k)) ->
    net_sizes checked bits ls ks img flat labels x w b = true ->
    mean_loss checked lowest bits ks img flat labels x w b g0 = Some (t, s') ->
    twf ls s' /\ grows g0 s' /\
    at_ s' t [1%nat] (fun rho => Arr [1%nat] [net_loss ks img flat labels x w b rho]) (fun rho => regular ks rho (arranged img (rho x))).
  Proof.
    intros Lx Lw Lb Lk HS H. unfold net_sizes in HS.
    destruct (other_shape img (ls x)) as [s0|] eqn:E0; [|discriminate]. destruct (blocks_shape checked bits ls ks s0) as [s1|] eqn:E1; [|discriminate].
    destruct (other_shape flat s1) as [[|n [|f [|? ?]]]|] eqn:E2; try discriminate. destruct (ls w) as [|f' [|c [|? ?]]] eqn:Ew; try discriminate.
    apply andb_true_iff in HS. destruct HS as [HS Hn]. apply N.leb_le in Hn. apply andb_true_iff in HS. destruct HS as [HS NE]. apply andb_true_iff in HS. destruct HS as [HS HL].
    apply andb_true_iff in HS. destruct HS as [HF HW]. apply Nat.eqb_eq in HF. subst f'.
    unfold mean_loss in H. bindH H. unfold compute_logits in E. bindH E. rename a0 into x4, s2 into g1.
    destruct (reshape_made img g0 x (ls x) _ _ s0 x4 g1 (grows_refl g0) W0 (leaf_later g0 x (grows_refl g0) Lx) E0 E3) as (W1 & G1 & H1).
    bindH E. rename a0 into z2, s2 into g2.
    destruct (conv_pools_made ks g1 x4 s0 _ _ s1 z2 g2 G1 W1 Lk H1 E1 E4) as (W2 & G2 & H2). pose proof (grows_trans _ _ _ G1 G2) as G02.
    bindH E. rename a0 into z3, s2 into g3.
    destruct (reshape_made flat g2 z2 s1 _ _ [n; f] z3 g3 G02 W2 H2 E2 E5) as (W3 & G3 & H3). pose proof (grows_trans _ _ _ G02 G3) as G03.
    bindH E. rename a0 into z4, s2 into g4. pose proof (leaf_later g3 w G03 Lw) as Hw. rewrite Ew in Hw.
    destruct (step2 (TMatMul false false) g3 z3 w [n; f] [f; c] _ _ _ _ [n; c] (mat false false n f c) z4 g4 W3 (base_later g3 G03) H3 Hw) as (W4 & G4 & H4); auto; try discriminate.
    { cbn [op_ty]. rewrite Nat.eqb_refl. reflexivity. }
    { intros vs. exact I. }
    { intros m1 m2 Hm1 Hm2. cbn [tcompute]. rewrite (matmul_mat false false n f c m1 m2 (hs_sh _ _ Hm1) (hs_sh _ _ Hm2)). reflexivity. }
    pose proof (grows_trans _ _ _ G03 G4) as G04. pose proof (leaf_later g4 b G04 Lb) as Hb.
    destruct (step_add g4 z4 b [n; c] (ls b) _ _ _ _ a s W4 H4 Hb HW E) as (W5 & G5 & _ & H5). pose proof (grows_trans _ _ _ G04 G5) as G05.
    bindH H. rename a0 into ti, s2 into g6. destruct (step_ints s labels ti g6 W5 (base_later s G05) E7) as (W6 & G6 & T6 & N6). pose proof (grows_trans _ _ _ G05 G6) as G06.
    bindH H. rename a0 into ce, s2 into g7.
    destruct (labels_ok_spec n c labels HL) as [LS LN]. assert (NP : prod [n; c] <> 0%nat) by (apply nonempty_prod; exact NE).
    destruct (stepI (TSparseXent lowest) g6 a labels ti [n; c] _ _ [n; 1%nat] (fun z => xent_pick n z (lab_of labels)) ce g7 W6 (base_later g6 G06) (at_grows s g6 a _ _ _ W5 G6 H5) T6 N6) as (W7 & G7 & H7); auto; try discriminate.
    { cbn [op_ty]. rewrite NE, HL. reflexivity. }
    { intros vs. exact I. }
    { intros z Hz. cbn [tcompute]. rewrite (sparse_xent_run lowest n c z (vecR labels) (lab_of labels) Hz LS NP LN). reflexivity. }
    pose proof (grows_trans _ _ _ G06 G7) as G07.
    bindH H. rename a0 into ax, s2 into g8. destruct (step_ints g7 [0%Z] ax g8 W7 (base_later g7 G07) E9) as (W8 & G8 & T8 & N8). pose proof (grows_trans _ _ _ G07 G8) as G08.
    assert (MA : mean_axes [0%Z] [n; 1%nat] = Some [0%nat]).
    { unfold mean_axes. change (axes_of (length [n; 1%nat]) [0%Z]) with (Some [0%nat]). cbv iota.
      assert (GS : group_size [0%nat] [n; 1%nat] = n) by (unfold group_size; cbn; lia). rewrite GS.
      apply N.leb_le in Hn. rewrite Hn. assert (NN : nonempty [n; 1%nat] = true); [|rewrite NN; reflexivity].
      apply nonempty_prod. intros Q. apply NP. cbn in Q |- *. lia. }
    destruct (mean_axes_spec _ _ _ MA) as (M1 & M2 & M3 & M4).
    destruct (stepI (TReduceMean false) g8 ce [0%Z] ax [n; 1%nat] _ _ [1%nat] (fun v => mean_of false [0%nat] [n; 1%nat] v) t s' W8 (base_later g8 G08) (at_grows g7 g8 ce _ _ _ W7 G8 H7) T8 N8) as (W9 & G9 & H9); auto; try discriminate.
    { cbn [op_ty]. rewrite M1, M2. apply N.leb_le in M4. rewrite M4. reflexivity. }
    { intros vs. exact I. }
    { intros v Hv. cbn [tcompute]. rewrite (reduce_mean_ok false [0%Z] [0%nat] [n; 1%nat] v Hv M2 M1 M4 M3). reflexivity. }
    split; [exact W9|]. split; [eapply grows_trans; eauto|].
    assert (HF : at_ s' t [1%nat] (fun rho => Arr [1%nat] [net_loss ks img flat labels x w b rho]) (fun rho => (((True /\ regular ks rho (arranged img (rho x))) /\ True) /\ True))).
    { apply (at_values _ _ _ _ _ _ H9). intros rho C. pose proof (at_shape _ _ _ _ _ rho H3 C) as [_ Sz]. pose proof (C w) as Cw. rewrite Ew in Cw.
      unfold net_loss. apply loss_value; auto. }
    apply (at_where _ _ _ _ _ _ HF). intros rho C. tauto.
  Qed.
End Net.
