(** The graph that examples/lstm_lm.rs builds: its value, and where it can be
    differentiated (everywhere). *)
From Coq Require Import String List Arith ZArith Bool Reals Lra Lia Relations.
From Coquelicot Require Import Coquelicot.
Import ListNotations.
From Verif Require Import Graph_Model Eval_Model Eval_Spec Eval_Proofs Graph_Proofs Grad_Model Grad_Spec
  Scalar_Model Scalar_Spec Scalar_Rules Scalar_Proofs.
From Verif Require Import Array_Model Array_Proofs Array_Sum Arith_Model Arith_Proofs Arith_Final Shape_Model Shape_Proofs Vjp_Spec Vjp_Proofs
  Dot_Model Dot_Spec Dot_Proofs Softmax_Model Softmax_Spec Softmax_Proofs2 Softmax_Xent Reduce_Model Reduce_Spec Reduce_Proofs
  Tens_Model Tens_Spec Tens_Fwd Tens_Fwd2 Tens_Fwd3 Tens_Fwd4 Tens_Fwd5 Tens_Build Tens_Lax Tens_Rules Tens_Rules2 Tens_Rules4 Tens_Rules5 Tens_Rules8 Tens_Ops Tens_Grad Tens_Final Tens_Comp
  Lstm_Model Lstm_Spec.
From Verif Require P_Scalar.
Local Set Bullet Behavior "Strict Subproofs".
Local Open Scope R_scope.

Ltac bindH H := unfold tbind in H at 1; match type of H with match ?e with _ => _ end = _ => destruct e as [[? ?]|] eqn:?; [|discriminate] end.

(** ** Kernels on matrices given by a function *)

Definition grid (n d : nat) (f : nat -> nat -> R) : arr R := tab [n; d] (fun i => f (nth 0 i 0%nat) (nth 1 i 0%nat)).
Lemma grid_shape n d f : has_shape [n; d] (grid n d f).
Proof. apply tab_has_shape. Qed.
Lemma grid_get n d f i j : (i < n)%nat -> (j < d)%nat -> rget (grid n d f) [i; j] = f i j.
Proof. intros Hi Hj. unfold grid. rewrite aget_tab by (apply in_bounds_pair; auto). reflexivity. Qed.
Lemma grid_ext n d f g : (forall i j, (i < n)%nat -> (j < d)%nat -> f i j = g i j) -> grid n d f = grid n d g.
Proof. intros H. apply tab_ext. intros i Hi. destruct (pair_bounds _ _ _ Hi) as (r & c & -> & Hr & Hc). cbn. auto. Qed.
Lemma grid_is n d f a : has_shape [n; d] a -> (forall i j, (i < n)%nat -> (j < d)%nat -> rget a [i; j] = f i j) -> a = grid n d f.
Proof. intros Ha H. apply tab_eq; auto. intros i Hi. destruct (pair_bounds _ _ _ Hi) as (r & c & -> & Hr & Hc). cbn. auto. Qed.

Lemma grid_mat n k m f w : has_shape [k; m] w ->
  tcompute (TMatMul false false) [TA (grid n k f); TA w] = Some (TA (grid n m (fun i j => sum_below k (fun l => f i l * rget w [l; j])))).
Proof.
  intros Hw. cbn [tcompute]. rewrite (matmul_mat false false n k m) by (unfold mshape; apply hs_sh; auto using grid_shape). cbn [ok otA option_map]. do 2 f_equal.
  apply grid_is; [apply mat_shape|]. intros i j Hi Hj. rewrite mat_get by auto. apply sum_below_ext. intros l Hl. unfold mget. rewrite grid_get by auto. reflexivity.
Qed.
Lemma grid_un n d u f : tcompute (TUn u) [TA (grid n d f)] = Some (TA (grid n d (fun i j => un u (f i j)))).
Proof.
  cbn [tcompute]. rewrite (amap_tab _ [n; d]) by apply grid_shape. do 2 f_equal. apply grid_is; [apply tab_has_shape|].
  intros i j Hi Hj. rewrite aget_tab by (apply in_bounds_pair; auto). rewrite grid_get by auto. reflexivity.
Qed.
Lemma row_arith n d a : (0 < n)%nat -> (0 < d)%nat -> (a = n \/ a = 1)%nat -> arith_ty [n; d] [a; d] = Some [n; d].
Proof.
  intros Hn Hd Ha. unfold arith_ty.
  assert (C : co_broadcast [n; d] [a; d] = Some [n; d]).
  { unfold co_broadcast. cbn [length Nat.sub skipn firstn app co_dims]. rewrite (Nat.eqb_refl d). destruct Ha as [-> | ->]; [rewrite Nat.eqb_refl; reflexivity|].
    destruct (Nat.eqb_spec n 1) as [-> |H]; [reflexivity|]. destruct (Nat.eqb_spec 1 n); reflexivity || lia. }
  rewrite C. assert (I : infer_shape [n; d] [a; d] = Some [n; d]).
  { unfold infer_shape. assert (S1 : forall k, (0 < k)%nat -> is_scalar_shape [k; d] = false) by (intros [|k] Hk; [lia|reflexivity]).
    rewrite !S1 by lia. cbn [negb andb length Nat.eqb map2]. rewrite Nat.max_id. replace (Nat.max n a) with n by lia. reflexivity. }
  rewrite I. assert (E : shape_eqb [n; d] [n; d] = true) by (apply shape_eqb_ok; reflexivity). rewrite E.
  replace (nonempty [n; d]) with true; [reflexivity|]. symmetry. apply nonempty_prod. cbn. nia.
Qed.
Lemma grid_bin n d b f g : (0 < n)%nat -> (0 < d)%nat -> (b = Add \/ b = Mul) ->
  tcompute (TBin b) [TA (grid n d f); TA (grid n d g)] = Some (TA (grid n d (fun i j => bin b (f i j) (g i j)))).
Proof.
  intros Hn Hd Hb. cbn [tcompute]. rewrite (bin_arr_ok b _ _ [n; d] [n; d] [n; d]); [|apply grid_shape|apply grid_shape|destruct Hb as [-> | ->]; apply row_arith; auto].
  cbn [otA option_map]. do 2 f_equal. apply grid_is; [apply tab_has_shape|]. intros i j Hi Hj.
  assert (B : in_bounds [n; d] [i; j]) by (apply in_bounds_pair; auto).
  unfold zip_tab. rewrite aget_tab by exact B. rewrite !(bc_idx_self _ _ B), !grid_get by auto. reflexivity.
Qed.
Lemma grid_bias n d f b : (0 < n)%nat -> (0 < d)%nat -> has_shape [1%nat; d] b ->
  tcompute (TBin Add) [TA (grid n d f); TA b] = Some (TA (grid n d (fun i j => f i j + rget b [0%nat; j]))).
Proof.
  intros Hn Hd Hb. cbn [tcompute]. rewrite (bin_arr_ok Add _ _ [n; d] [1%nat; d] [n; d]); [|apply grid_shape|exact Hb|apply row_arith; auto].
  cbn [otA option_map]. do 2 f_equal. apply grid_is; [apply tab_has_shape|]. intros i j Hi Hj.
  assert (B : in_bounds [n; d] [i; j]) by (apply in_bounds_pair; auto).
  unfold zip_tab. rewrite aget_tab by exact B. rewrite (bc_idx_self _ _ B), grid_get by auto. cbn [bin]. do 2 f_equal.
  unfold bc_idx. cbn. destruct (Nat.eqb_spec d 1); [f_equal; f_equal; lia|reflexivity].
Qed.
Definition gate_slice (d q : nat) : list (Z * option Z) := [(0%Z, None); (Z.of_nat (q * d), Some (Z.of_nat (S q * d)))].
Lemma gate_ranges n d q : (q < 4)%nat -> ranges [n; 4 * d]%nat (gate_slice d q) = Some [(0, n); (q * d, S q * d)]%nat.
Proof.
  intros Hq. unfold gate_slice, ranges, resolve, abs_index, bind.
  replace (0 <? 0)%Z with false by reflexivity. change (Z.to_nat 0) with 0%nat. rewrite Nat.max_0_l, Nat.leb_refl.
  destruct (Z.ltb_spec (Z.of_nat (q * d)) 0); [lia|]. destruct (Z.ltb_spec (Z.of_nat (S q * d)) 0); [lia|]. rewrite !Nat2Z.id.
  rewrite Nat.max_r by lia. assert (L : (S q * d <=? 4 * d)%nat = true) by (apply Nat.leb_le; nia). rewrite L. reflexivity.
Qed.
Lemma grid_slice n d q f : (q < 4)%nat ->
  tcompute (TSlice (gate_slice d q)) [TA (grid n (4 * d)%nat f)] = Some (TA (grid n d (fun i j => f i (q * d + j)%nat))).
Proof.
  intros Hq. cbn [tcompute]. rewrite (slice_pull _ _ _ _ (grid_shape n (4 * d) f) (gate_ranges n d q Hq)). cbn [otA option_map]. do 2 f_equal.
  unfold range_lens. cbn [map fst snd]. rewrite Nat.sub_0_r. replace (S q * d - q * d)%nat with d by lia.
  apply grid_is; [apply tab_has_shape|]. intros i j Hi Hj. unfold pullr. rewrite aget_tab by (apply in_bounds_pair; auto).
  unfold enter. cbn [map2 fst]. rewrite grid_get by nia. reflexivity.
Qed.
Lemma grid_gather n d vocab w table : (0 < n)%nat -> length w = n -> (forall z, In z w -> (0 <= z < Z.of_nat vocab)%Z) -> has_shape [vocab; d] table ->
  gather_ty false 0 w [vocab; d] = Some [n; d] /\
  tcompute (TGather false 0) [TI w; TA table] = Some (TA (grid n d (fun i k => rget table [word w i; k]))).
Proof.
  intros Hn Hw Hz Ht.
  assert (T : gather_ty false 0 w [vocab; d] = Some [n; d]).
  { unfold gather_ty. change (Softmax_Model.axis_of (length [vocab; d]) 0) with (Some 0%nat). cbn [nth].
    replace (negb (length w =? 0)%nat) with true by (destruct w; cbn in *; [lia|reflexivity]).
    replace (forallb (named false vocab) w) with true; [cbn; rewrite Hw; reflexivity|]. symmetry. apply forallb_forall. intros z H.
    specialize (Hz z H). unfold named. lia. }
  split; [exact T|]. cbn [tcompute]. rewrite (gather_pull false 0 w [vocab; d] [n; d] 0 table Ht T eq_refl). cbn [otA option_map]. do 2 f_equal.
  apply grid_is; [apply tab_has_shape|]. intros i j Hi Hj. unfold pullr. rewrite aget_tab by (apply in_bounds_pair; auto).
  unfold gpick. cbn [nth set_at]. do 2 f_equal. unfold word. rewrite nth_indep with (d' := position vocab 0) by (rewrite map_length; lia).
  rewrite map_nth. unfold position. destruct (Z.ltb_spec (nth i w 0%Z) 0) as [L|L]; [|reflexivity].
  assert (In (nth i w 0%Z) w) by (apply nth_In; lia). specialize (Hz _ H). lia.
Qed.
Lemma grid_xent lowest n c f w : (0 < n)%nat -> (0 < c)%nat -> labels_ok n c w = true ->
  tcompute (TSparseXent lowest) [TA (grid n c f); TI w] =
  Some (TA (grid n 1 (fun i _ => ln (sum_below c (fun v => exp (f i v))) - f i (word w i)))).
Proof.
  intros Hn Hc HL. destruct (labels_ok_spec n c w HL) as [LS LN]. cbn [tcompute].
  rewrite (sparse_xent_run lowest n c _ (vecR w) (lab_of w) (grid_shape n c f) LS ltac:(cbn; nia) LN). cbn [otA option_map fst]. do 2 f_equal.
  apply grid_is; [apply tab_has_shape|]. intros i j Hi Hj. destruct (LN i Hi) as [_ Lk].
  unfold xent_pick. rewrite aget_tab by (apply in_bounds_pair; lia). cbn [nth]. unfold lsmax. change (a_shape (grid n c f)) with [n; c].
  rewrite aget_tab by (apply in_bounds_pair; auto). rewrite grid_get by auto. unfold lse, line_sum. change (a_shape (grid n c f)) with [n; c]. cbn [nth at_pos].
  rewrite (sum_below_ext c _ (fun v => exp (f i v))); [unfold word, lab_of; ring|]. intros v Hv. rewrite grid_get by auto. reflexivity.
Qed.
Lemma labels_of n vocab w : length w = n -> (forall z, In z w -> (0 <= z < Z.of_nat vocab)%Z) -> labels_ok n vocab w = true.
Proof.
  intros Hl Hz. unfold labels_ok. apply andb_true_iff. split; [apply Nat.eqb_eq; exact Hl|]. apply forallb_forall. intros z H. specialize (Hz z H). lia.
Qed.

(** ** Graphs *)

Section Lstm.
  Variable lowest : R.
  Variable ls : nat -> list nat.
  Variable base : nat.

  Definition fine (s : tgraph) : Prop := twf ls s /\ attached s /\ (base <= length s)%nat.
  (** Tensor [t] has the type [ty], the value [V], and can be differentiated with
      respect to every leaf below [base]. *)
  Definition known (s : tgraph) (t : nat) (ty : ty) (V : (nat -> arr R) -> tv) : Prop :=
    typed ls s t ty /\ (forall rho, conform ls rho -> holds rho s t (V rho)) /\
    forall rho x, conform ls rho -> (x < base)%nat -> nice true ls rho x s t.
  Definition gridt (s : tgraph) (t n d : nat) (f : (nat -> arr R) -> nat -> nat -> R) : Prop :=
    known s t (TyA [n; d]) (fun rho => TA (grid n d (f rho))).
  Lemma known_grows s s' t ty V : fine s -> grows s s' -> known s t ty V -> known s' t ty V.
  Proof.
    intros (W & _) G (A & B & D). pose proof (typed_lt _ _ _ _ A). split; [eapply grows_typed; eauto|]. split.
    - intros rho C. apply (grows_holds rho s s'); auto.
    - intros rho x C Hx. apply (nice_grows true ls rho x s s'); auto.
  Qed.
  Lemma known_values s t ty V V' : known s t ty V -> (forall rho, conform ls rho -> V rho = V' rho) -> known s t ty V'.
  Proof. intros (A & B & D) E. split; [exact A|]. split; [|exact D]. intros rho C. rewrite <- E by exact C. auto. Qed.
  Lemma gridt_values s t n d f f' : gridt s t n d f ->
    (forall rho i j, conform ls rho -> (i < n)%nat -> (j < d)%nat -> f rho i j = f' rho i j) -> gridt s t n d f'.
  Proof. intros H E. eapply known_values; [exact H|]. intros rho C. cbn beta. f_equal. apply grid_ext. intros. apply E; auto. Qed.

  Inductive knowns (s : tgraph) : list nat -> list ty -> list ((nat -> arr R) -> tv) -> Prop :=
  | knowns_nil : knowns s [] [] []
  | knowns_cons t ty V ts tys Vs : known s t ty V -> knowns s ts tys Vs -> knowns s (t :: ts) (ty :: tys) (V :: Vs).
  Lemma knowns_facts s ts tys Vs : knowns s ts tys Vs ->
    typedl ls s ts tys /\ (forall rho, conform ls rho -> holdsl rho s ts (map (fun V => V rho) Vs)) /\
    (forall rho x a, conform ls rho -> (x < base)%nat -> In a ts -> nice true ls rho x s a).
  Proof.
    induction 1 as [|t ty V ts tys Vs (A & B & D) _ (IA & IB & ID)].
    - split; [constructor|]. split; [constructor|]. intros ? ? ? _ _ [].
    - split; [constructor; auto|]. split; [intros rho C; constructor; [auto|exact (IB rho C)]|]. intros rho x a C Hx [<-|Ha]; auto.
  Qed.

  Lemma op_made o s ins sh tys Vs out F t s' : fine s -> knowns s ins tys Vs -> o <> TLeaf -> thawed o = true ->
    op_ty o tys = Some (TyA out) -> op_use true o tys = true -> (forall vs, t_dom o vs) ->
    (forall x, sh = Some x -> typed ls s x (TyI (shape_vec out))) ->
    (forall rho, conform ls rho -> tcompute o (map (fun V => V rho) Vs) = Some (F rho)) ->
    tmk ins sh true o s = Some (t, s') ->
    fine s' /\ grows s s' /\ known s' t (TyA out) F.
  Proof.
    intros (W & A & B) K Ho Th HT HU HD HS HV Hm. destruct (knowns_facts _ _ _ _ K) as (KT & KV & KN).
    destruct (tmk_spec ls ins sh true o tys (TyA out) s t s' W Ho Hm KT HT) as (W' & G & T' & V').
    { intros sh' Q x Hx. injection Q as <-. auto. }
    destruct (tmk_attached ins sh true o s t s' A) as (A' & _ & L'); [|exact Hm|].
    { intros x Hx. eapply typed_lt. apply HS. exact Hx. }
    split; [split; [exact W'|split; [exact A'|lia]]|]. split; [exact G|]. split; [exact T'|]. split.
    - intros rho C. apply V'. eexists. split; [apply KV; exact C|apply HV; exact C].
    - intros rho x C Hx. apply (tmk_nice_x true ls rho x ins sh true o tys _ s t s' W Hm KT HU (KV rho C)).
      + intros a Ha. apply KN; auto.
      + right. auto.
  Qed.

  Lemma ints_made s l t s' : fine s -> a_ints l s = Some (t, s') -> fine s' /\ grows s s' /\ known s' t (TyI l) (fun _ => TI l).
  Proof.
    intros (W & A & B) Hm. destruct (a_ints_spec ls l s t s' W Hm) as (W' & G & T & _). destruct (a_ints_attached l s t s' A Hm) as (A' & _ & L').
    split; [split; [exact W'|split; [exact A'|lia]]|]. split; [exact G|]. split; [exact T|]. split.
    - intros rho C. apply (typed_ints ls); auto.
    - intros rho x C Hx. apply (a_ints_nice true ls rho x l s t s'); auto. lia.
  Qed.
  Lemma leaf_known s i : fine s -> t_input_leaf s i -> known s i (TyA (ls i)) (fun rho => TA (rho i)).
  Proof.
    intros (W & A & B) H. destruct (t_leaf_facts ls s i W H) as (_ & T & _ & F). destruct H as (n & Hn & Ho & Hd). split; [exact T|]. split.
    - intros rho C. apply (leaf_holds rho s i n); auto.
    - intros rho x C Hx. assert (N : n_inputs n = []) by (apply (twf_leaf _ _ W i n Hn Ho)).
      assert (Dp : forall j, depends s i j -> j = i).
      { intros j Dj. apply clos_rt_rt1n in Dj. inversion Dj as [|y z (n' & inc & Hn' & Hin & _)]; [reflexivity|]. assert (n' = n) by congruence. subst n'. rewrite N in Hin. destruct Hin. }
      split.
      + intros j m ts Dj Hm HL. rewrite (Dp j Dj) in Hm. assert (m = n) by congruence. subst m. rewrite Ho. reflexivity.
      + intros j m sh Dj Dx Hne Hm. exfalso. rewrite (Dp j Dj) in Dx, Hne. rewrite (Dp x Dx) in Hne. congruence.
  Qed.

  Lemma un_made u s a n d f t s' : fine s -> gridt s a n d f -> (u = Sigmoid \/ u = Tanh) -> (0 < n)%nat -> (0 < d)%nat ->
    a_un u a s = Some (t, s') -> fine s' /\ grows s s' /\ gridt s' t n d (fun rho i j => un u (f rho i j)).
  Proof.
    intros (W & A & B) (T & V & N) Hu Hn Hd Hm.
    destruct (a_un_spec ls u a [n; d] s t s' W T Hm) as (W' & G & T' & V'). destruct (a_un_attached u a s t s' A Hm) as (A' & _ & L').
    split; [split; [exact W'|split; [exact A'|lia]]|]. split; [exact G|]. split; [exact T'|]. split.
    - intros rho C. apply V'. eexists. split; [apply V; exact C|]. apply grid_un.
    - intros rho x C Hx. apply (a_un_nice true ls rho x u a [n; d] (TA (grid n d (f rho))) s t s'); auto.
      + assert (NE : nonempty [n; d] = true) by (apply nonempty_prod; cbn; nia). cbn [op_fit]. rewrite NE. destruct Hu as [-> | ->]; reflexivity.
      + right. split; [destruct Hu as [-> | ->]; reflexivity|]. cbn [t_dom]. apply Forall_forall. intros v _. destruct Hu as [-> | ->]; exact I.
  Qed.
  Lemma bin_made b s p q sa sb Va Vb F r t s' : fine s -> known s p (TyA sa) Va -> known s q (TyA sb) Vb -> (b = Add \/ b = Mul) ->
    arith_ty sa sb = Some r -> (forall rho, conform ls rho -> tcompute (TBin b) [Va rho; Vb rho] = Some (F rho)) ->
    a_bin b p q s = Some (t, s') -> fine s' /\ grows s s' /\ known s' t (TyA r) F.
  Proof.
    intros (W & A & B) (T & V & N) (T2 & V2 & N2) Hb HT HF Hm.
    assert (BT : bin_ty b sa sb = Some r) by (destruct Hb as [-> | ->]; exact HT).
    destruct (a_bin_spec ls b p q sa sb r s t s' W T T2 BT Hm) as (W' & G & T' & V'). destruct (a_bin_attached b p q s t s' A Hm) as (A' & _ & L').
    split; [split; [exact W'|split; [exact A'|lia]]|]. split; [exact G|]. split; [exact T'|]. split.
    - intros rho C. apply V'. exists (Va rho), (Vb rho). auto.
    - intros rho x C Hx. apply (a_bin_nice true ls rho x b p q sa sb r (Va rho) (Vb rho) s t s'); auto.
      + destruct Hb as [-> | ->]; reflexivity.
      + right. split; [destruct Hb as [-> | ->]; reflexivity|]. cbn [t_dom].
        destruct (Va rho) as [x0|]; [|exact I]. destruct (Vb rho) as [y0|]; [|exact I]. intros. destruct Hb as [-> | ->]; exact I.
  Qed.
  Lemma bins_made b s p q n d f g t s' : fine s -> gridt s p n d f -> gridt s q n d g -> (b = Add \/ b = Mul) -> (0 < n)%nat -> (0 < d)%nat ->
    a_bin b p q s = Some (t, s') -> fine s' /\ grows s s' /\ gridt s' t n d (fun rho i j => bin b (f rho i j) (g rho i j)).
  Proof.
    intros Fi Kp Kq Hb Hn Hd Hm. refine (bin_made b s p q [n; d] [n; d] _ _ _ [n; d] t s' Fi Kp Kq Hb _ _ Hm).
    - apply row_arith; auto.
    - intros rho C. apply grid_bin; auto.
  Qed.

  (** [zeros(shape(x))] of a tensor without attached shape. *)
  Lemma zeros_made s x n d f nd t s' : fine s -> gridt s x n d f -> nth_error s x = Some nd -> n_shape nd = None ->
    a_zeros_like x s = Some (t, s') -> fine s' /\ grows s s' /\ gridt s' t n d (fun _ _ _ => 0).
  Proof.
    intros (W & A & B) (T & V & N) Hx Hs Hm.
    destruct (a_zeros_like_spec ls x [n; d] s t s' W T Hm) as (W' & G & T' & V'). destruct (a_zeros_like_attached x s t s' A Hm) as (A' & _ & L').
    split; [split; [exact W'|split; [exact A'|lia]]|]. split; [exact G|]. split; [exact T'|]. split.
    - intros rho C. apply V'. split; [|exact C]. f_equal.
    - intros rho y C Hy. unfold a_zeros_like in Hm. bindH Hm. rename n0 into st, t0 into s1. unfold a_shape_of in Heqo. rewrite Hx, Hs in Heqo.
      destruct (tmk_spec ls [x] None false TShape [TyA [n; d]] (TyI (shape_vec [n; d])) s st s1 W ltac:(discriminate) Heqo) as (W1 & G1 & T1 & _).
      { constructor; [exact T|constructor]. }
      { reflexivity. }
      { discriminate. }
      assert (N1 : nice true ls rho y s1 st).
      { destruct (tmk_node _ _ _ _ _ _ _ Heqo) as (-> & m & -> & Ho & Hd & Hi).
        assert (Hn : nth_error (s ++ [m]) (length s) = Some m) by (rewrite nth_error_app2, Nat.sub_diag; auto).
        assert (Hdep : forall i, depends (s ++ [m]) (length s) i -> i = length s \/ depends (s ++ [m]) x i).
        { intros i D. apply clos_rt_rt1n in D. inv D; auto. right. destruct H as (n' & inc & Hn' & Hin & Hk).
          assert (n' = m) by congruence. subst n'. rewrite Hi in Hin. destruct Hin as [<-|[]]. simpl in Hk. subst y0. apply clos_rt1n_rt. auto. }
        assert (HN' : nice true ls rho y (s ++ [m]) x) by (apply (nice_grows true ls rho y s); auto; eapply typed_lt; exact T).
        destruct HN' as [HU HSm]. split.
        - intros i m' ts' D Hm' HL. destruct (Hdep i D) as [->|Da]; [|eapply HU; eauto].
          assert (m' = m) by congruence. subst m'. rewrite Ho. reflexivity.
        - intros i m' sh' D Dx Hne Hm' Hty Hsz. destruct (Hdep i D) as [->|Da]; [|eapply HSm; eauto].
          exfalso. unfold shaped in Hty. unfold typed in T1. congruence. }
      apply (tmk_nice_x true ls rho y [st] None true TZeros [TyI (shape_vec [n; d])] [TI (shape_vec [n; d])] s1 t s' W1 Hm).
      + constructor; [exact T1|constructor].
      + reflexivity.
      + constructor; [apply (typed_ints ls); auto|constructor].
      + intros a [<-|[]]. exact N1.
      + right. split; [reflexivity|]. split; [reflexivity|exact I].
  Qed.
  Lemma gridt_grows s s' t n d f : fine s -> grows s s' -> gridt s t n d f -> gridt s' t n d f.
  Proof. intros. apply (known_grows s s'); auto. Qed.

  Variable g0 : tgraph.
  Hypothesis Fi0 : fine g0.
  Variables (v : lstm) (d vocab n : nat).
  Hypothesis (Hd : (0 < d)%nat) (Hv : (0 < vocab)%nat) (Hn : (0 < n)%nat).
  Hypothesis (Lt : ls (v_table v) = [vocab; d]) (Lx : ls (v_wx v) = [d; 4 * d]%nat) (Lh : ls (v_wh v) = [d; 4 * d]%nat)
    (Lb : ls (v_b v) = [1; 4 * d]%nat) (Lp : ls (v_pred v) = [d; vocab]).
  Hypothesis Hleaf : forall i, In i (lm_leaves v) -> t_input_leaf g0 i.
  Lemma leaf_later s i sh : grows g0 s -> In i (lm_leaves v) -> ls i = sh -> known s i (TyA sh) (fun rho => TA (rho i)).
  Proof. intros G H <-. apply (known_grows g0 s); auto. apply leaf_known; auto. Qed.
  Lemma leaf_shape rho i sh : conform ls rho -> ls i = sh -> has_shape sh (rho i).
  Proof. intros C <-. apply C. Qed.

  Lemma mat_made s a k m f w t s' : fine s -> grows g0 s -> gridt s a n k f -> In w (lm_leaves v) -> ls w = [k; m] ->
    a_matmul a w s = Some (t, s') ->
    fine s' /\ grows s s' /\ gridt s' t n m (fun rho i j => sum_below k (fun l => f rho i l * rget (rho w) [l; j])).
  Proof.
    intros Fi G K Hw Hs Hm.
    refine (op_made (TMatMul false false) s [a; w] None [TyA [n; k]; TyA [k; m]] [_; fun rho => TA (rho w)] [n; m] _ t s' Fi _ ltac:(discriminate) eq_refl _ eq_refl _ _ _ Hm).
    - constructor; [exact K|]. constructor; [apply leaf_later; auto|constructor].
    - cbn. rewrite Nat.eqb_refl. reflexivity.
    - intros. exact I.
    - discriminate.
    - intros rho C. apply grid_mat. apply (leaf_shape rho w); auto.
  Qed.
  Lemma user_gate q : user_slice [0; Z.of_nat q * Z.of_nat d]%Z [-1; Z.of_nat (S q) * Z.of_nat d]%Z = Some (gate_slice d q).
  Proof.
    unfold user_slice, gate_slice. rewrite !Nat2Z.inj_mul. cbn [length Nat.eqb map2].
    destruct (Z.eqb_spec (Z.of_nat (S q) * Z.of_nat d) (-1)); [lia|]. destruct (Z.ltb_spec (Z.of_nat (S q) * Z.of_nat d) (-1)); [lia|]. reflexivity.
  Qed.
  Lemma gate_made q s a f t s' : (q < 4)%nat -> fine s -> gridt s a n (4 * d) f ->
    a_slice a [0; Z.of_nat q * Z.of_nat d]%Z [-1; Z.of_nat (S q) * Z.of_nat d]%Z s = Some (t, s') ->
    fine s' /\ grows s s' /\ gridt s' t n d (fun rho i j => f rho i (q * d + j)%nat).
  Proof.
    intros Hq Fi K Hm. unfold a_slice in Hm. rewrite user_gate in Hm.
    refine (op_made (TSlice (gate_slice d q)) s [a] None [TyA [n; 4 * d]%nat] [_] [n; d] _ t s' Fi _ ltac:(discriminate) eq_refl _ eq_refl _ _ _ Hm).
    - constructor; [exact K|constructor].
    - cbn [op_ty]. rewrite (gate_ranges n d q Hq). cbn [option_map]. unfold range_lens. cbn [map fst snd]. rewrite Nat.sub_0_r. repeat f_equal. lia.
    - intros. exact I.
    - discriminate.
    - intros rho C. apply grid_slice. exact Hq.
  Qed.

  Tactic Notation "bindN" hyp(H) ident(a) ident(s1) ident(E) := unfold tbind in H at 1;
    match type of H with match ?e with _ => _ end = _ => destruct e as [[a s1]|] eqn:E; [|discriminate] end.
  Ltac carry Fi G := match type of G with grows ?s ?s' =>
    repeat match goal with K : gridt s _ _ _ _ |- _ =>
      let K' := fresh in pose proof (gridt_grows s s' _ _ _ _ Fi G K) as K'; clear K; rename K' into K end;
    repeat match goal with G' : grows ?a s |- _ => let G'' := fresh in pose proof (grows_trans _ _ _ G' G) as G''; clear G'; rename G'' into G' end end.

  (** The state before a step: the popped tensors, or nothing, which stands for zeros. *)
  Definition state (s : tgraph) (last : option (nat * nat)) (H C : (nat -> arr R) -> nat -> nat -> R) : Prop :=
    match last with
    | Some (h, c) => gridt s h n d H /\ gridt s c n d C
    | None => H = (fun _ _ _ => 0) /\ C = (fun _ _ _ => 0)
    end.
  Lemma popped_made s x X o F nd t s' : fine s -> gridt s x n d X -> nth_error s x = Some nd -> n_shape nd = None ->
    (match o with Some h => gridt s h n d F | None => F = (fun _ _ _ => 0) end) ->
    popped x o s = Some (t, s') -> fine s' /\ grows s s' /\ gridt s' t n d F.
  Proof.
    intros Fi K Hx Hs HF Hm. destruct o as [h|]; cbn in Hm.
    - unfold tret in Hm. injection Hm as <- <-. split; [exact Fi|]. split; [apply grows_refl|exact HF].
    - subst F. eapply zeros_made; eauto.
  Qed.
  Lemma sigmoid_is x : un Sigmoid x = sigma x.
  Proof. apply P_Scalar.C20_forward_functions. Qed.

  Lemma step_made s x X nd last H C hc s' : fine s -> grows g0 s -> gridt s x n d X -> nth_error s x = Some nd -> n_shape nd = None ->
    state s last H C -> lstm_step v d x last s = Some (hc, s') ->
    fine s' /\ grows s s' /\
    gridt s' (fst hc) n d (fun rho => new_output (rho (v_wx v)) (rho (v_wh v)) (rho (v_b v)) d (X rho) (H rho) (C rho)) /\
    gridt s' (snd hc) n d (fun rho => new_cell (rho (v_wx v)) (rho (v_wh v)) (rho (v_b v)) d (X rho) (H rho) (C rho)).
  Proof.
    intros Fi G KX Hx Hs HS Hm. unfold lstm_step in Hm. pose proof (grows_refl s) as Gs.
    bindN Hm lo s1 E1. destruct (popped_made s x X (option_map fst last) H nd lo s1 Fi KX Hx Hs) with (2 := E1) as (Fi1 & G1 & K1).
    { destruct last as [[h c]|]; apply HS. }
    assert (HS2 : match option_map snd last with Some c => gridt s1 c n d C | None => C = (fun _ _ _ => 0) end).
    { destruct last as [[h c]|]; cbn in *; [apply (gridt_grows s s1); tauto|tauto]. }
    assert (Hx1 : nth_error s1 x = Some nd) by (apply (grows_nth s s1); auto).
    carry Fi G1.
    bindN Hm lc s2 E2. destruct (popped_made s1 x X _ C nd lc s2 Fi1 KX Hx1 Hs HS2 E2) as (Fi2 & G2 & K2). carry Fi1 G2.
    bindN Hm xw s3 E3. destruct (mat_made s2 x d (4 * d) X (v_wx v) xw s3 Fi2 G KX ltac:(cbn; auto) Lx E3) as (Fi3 & G3 & K3). carry Fi2 G3.
    bindN Hm hw s4 E4. destruct (mat_made s3 lo d (4 * d) H (v_wh v) hw s4 Fi3 G K1 ltac:(cbn; auto) Lh E4) as (Fi4 & G4 & K4). carry Fi3 G4.
    bindN Hm xh0 s5 E5. destruct (bins_made Add s4 xw hw n (4 * d) _ _ xh0 s5 Fi4 K3 K4 (or_introl eq_refl) Hn ltac:(lia) E5) as (Fi5 & G5 & K5). carry Fi4 G5.
    bindN Hm xh s6 E6.
    destruct (bin_made Add s5 xh0 (v_b v) [n; 4 * d]%nat [1; 4 * d]%nat _ _
      (fun rho => TA (grid n (4 * d) (fun i j => bin Add (sum_below d (fun l => X rho i l * rget (rho (v_wx v)) [l; j])) (sum_below d (fun l => H rho i l * rget (rho (v_wh v)) [l; j])) + rget (rho (v_b v)) [0%nat; j])))
      [n; 4 * d]%nat xh s6 Fi5 K5 (leaf_later s5 (v_b v) _ G ltac:(cbn; auto) Lb) (or_introl eq_refl)) with (3 := E6) as (Fi6 & G6 & K6).
    { apply row_arith; auto; lia. }
    { intros rho Cr. apply grid_bias; auto; [lia|]. apply (leaf_shape rho (v_b v)); auto. }
    carry Fi5 G6. change (gridt s6 xh n (4 * d) (fun rho i j => bin Add (sum_below d (fun l => X rho i l * rget (rho (v_wx v)) [l; j])) (sum_below d (fun l => H rho i l * rget (rho (v_wh v)) [l; j])) + rget (rho (v_b v)) [0%nat; j])) in K6.
    bindN Hm ti s7 E7. destruct (gate_made 0 s6 xh _ ti s7 ltac:(lia) Fi6 K6 E7) as (Fi7 & G7 & K7). carry Fi6 G7.
    bindN Hm tf s8 E8. destruct (gate_made 1 s7 xh _ tf s8 ltac:(lia) Fi7 K6 E8) as (Fi8 & G8 & K8). carry Fi7 G8.
    bindN Hm tc s9 E9. destruct (gate_made 2 s8 xh _ tc s9 ltac:(lia) Fi8 K6 E9) as (Fi9 & G9 & K9). carry Fi8 G9.
    bindN Hm to s10 E10. destruct (gate_made 3 s9 xh _ to s10 ltac:(lia) Fi9 K6 E10) as (Fi10 & G10 & K10). carry Fi9 G10.
    bindN Hm sf s11 E11. destruct (un_made Sigmoid s10 tf n d _ sf s11 Fi10 K8 (or_introl eq_refl) Hn Hd E11) as (Fi11 & G11 & K11). carry Fi10 G11.
    bindN Hm kept s12 E12. destruct (bins_made Mul s11 sf lc n d _ _ kept s12 Fi11 K11 K2 (or_intror eq_refl) Hn Hd E12) as (Fi12 & G12 & K12). carry Fi11 G12.
    bindN Hm si s13 E13. destruct (un_made Sigmoid s12 ti n d _ si s13 Fi12 K7 (or_introl eq_refl) Hn Hd E13) as (Fi13 & G13 & K13). carry Fi12 G13.
    bindN Hm ta s14 E14. destruct (un_made Tanh s13 tc n d _ ta s14 Fi13 K9 (or_intror eq_refl) Hn Hd E14) as (Fi14 & G14 & K14). carry Fi13 G14.
    bindN Hm added s15 E15. destruct (bins_made Mul s14 si ta n d _ _ added s15 Fi14 K13 K14 (or_intror eq_refl) Hn Hd E15) as (Fi15 & G15 & K15). carry Fi14 G15.
    bindN Hm cell s16 E16. destruct (bins_made Add s15 kept added n d _ _ cell s16 Fi15 K12 K15 (or_introl eq_refl) Hn Hd E16) as (Fi16 & G16 & K16). carry Fi15 G16.
    bindN Hm so s17 E17. destruct (un_made Sigmoid s16 to n d _ so s17 Fi16 K10 (or_introl eq_refl) Hn Hd E17) as (Fi17 & G17 & K17). carry Fi16 G17.
    bindN Hm th s18 E18. destruct (un_made Tanh s17 cell n d _ th s18 Fi17 K16 (or_intror eq_refl) Hn Hd E18) as (Fi18 & G18 & K18). carry Fi17 G18.
    bindN Hm h s19 E19. destruct (bins_made Mul s18 so th n d _ _ h s19 Fi18 K17 K18 (or_intror eq_refl) Hn Hd E19) as (Fi19 & G19 & K19). carry Fi18 G19.
    unfold tret in Hm. injection Hm as <- <-. split; [exact Fi19|]. split; [exact Gs|]. cbn [fst snd].
    split.
    - eapply gridt_values; [exact K19|]. intros rho i j _ _ _. cbn beta. rewrite !sigmoid_is. reflexivity.
    - eapply gridt_values; [exact K16|]. intros rho i j _ _ _. cbn beta. rewrite !sigmoid_is. reflexivity.
  Qed.

  Definition in_vocab (w : list Z) : Prop := length w = n /\ forall z, In z w -> (0 <= z < Z.of_nat vocab)%Z.
  Lemma gather_made s w i x s' : fine s -> grows g0 s -> in_vocab w -> known s i (TyI w) (fun _ => TI w) ->
    a_gather (v_table v) i 0 s = Some (x, s') ->
    fine s' /\ grows s s' /\ gridt s' x n d (fun rho i k => rget (rho (v_table v)) [word w i; k]) /\
    exists nd, nth_error s' x = Some nd /\ n_shape nd = None.
  Proof.
    intros Fi G [Hw Hz] K Hm.
    assert (T : gather_ty false 0 w [vocab; d] = Some [n; d]).
    { destruct (grid_gather n d vocab w (full [vocab; d] 0)) as [T _]; auto. }
    assert (M : fine s' /\ grows s s' /\ gridt s' x n d (fun rho i k => rget (rho (v_table v)) [word w i; k])).
    { refine (op_made (TGather false 0) s [i; v_table v] None [TyI w; TyA [vocab; d]] [fun _ => TI w; fun rho => TA (rho (v_table v))] [n; d] _ x s' Fi _ ltac:(discriminate) eq_refl _ _ _ _ _ Hm).
      - constructor; [exact K|]. constructor; [apply leaf_later; cbn; auto|constructor].
      - cbn [op_ty]. rewrite T. reflexivity.
      - cbn [op_use]. unfold gather_back. cbn. apply forallb_forall. intros z H. specialize (Hz z H). lia.
      - intros. exact I.
      - discriminate.
      - intros rho C. apply (grid_gather n d vocab); auto. apply (leaf_shape rho (v_table v)); auto. }
    destruct M as (M1 & M2 & M3). split; [exact M1|]. split; [exact M2|]. split; [exact M3|].
    unfold a_gather, tmk in Hm. destruct (build s _ _) as [[s1 k]|] eqn:E; [|discriminate]. injection Hm as <- <-.
    apply build_spec in E. destruct E as (-> & _ & ->). rewrite nth_error_app2, Nat.sub_diag by lia. eexists. split; reflexivity.
  Qed.
  Lemma xent_made s p f w i t s' : fine s -> gridt s p n vocab f -> in_vocab w -> known s i (TyI w) (fun _ => TI w) ->
    a_sparse_xent lowest p i s = Some (t, s') ->
    fine s' /\ grows s s' /\ gridt s' t n 1 (fun rho i _ => ln (sum_below vocab (fun v => exp (f rho i v))) - f rho i (word w i)).
  Proof.
    intros Fi Kp [Hw Hz] K Hm. pose proof (labels_of n vocab w Hw Hz) as HL.
    refine (op_made (TSparseXent lowest) s [p; i] None [TyA [n; vocab]; TyI w] [_; fun _ => TI w] [n; 1%nat] _ t s' Fi _ ltac:(discriminate) eq_refl _ eq_refl _ _ _ Hm).
    - constructor; [exact Kp|]. constructor; [exact K|constructor].
    - cbn [op_ty]. assert (NE : nonempty [n; vocab] = true) by (apply nonempty_prod; cbn; nia). rewrite NE, HL. reflexivity.
    - intros. exact I.
    - discriminate.
    - intros rho C. apply grid_xent; auto.
  Qed.

  Lemma losses_made words : forall s last H C l s', fine s -> grows g0 s -> state s last H C -> List.Forall in_vocab words ->
    lstm_losses lowest v d last words s = Some (l, s') ->
    fine s' /\ grows s s' /\ length l = (length words - 1)%nat /\
    exists Fs, Forall2 (fun t F => gridt s' t n 1 (fun rho i _ => F rho i)) l Fs /\
      forall rho i, fold_right Rplus 0 (map (fun F => F rho i) Fs) =
        sentence_loss (rho (v_table v)) (rho (v_wx v)) (rho (v_wh v)) (rho (v_b v)) (rho (v_pred v)) d vocab (H rho) (C rho) words i.
  Proof.
    induction words as [|cur words IH]; intros s last H C l s' Fi G HS HW Hm.
    { cbn in Hm. unfold tret in Hm. injection Hm as <- <-. split; [exact Fi|]. split; [apply grows_refl|]. split; [reflexivity|]. exists []. split; [constructor|reflexivity]. }
    destruct words as [|next rest].
    { cbn in Hm. unfold tret in Hm. injection Hm as <- <-. split; [exact Fi|]. split; [apply grows_refl|]. split; [reflexivity|]. exists []. split; [constructor|reflexivity]. }
    inversion HW as [|? ? W1 HW']; subst. inversion HW' as [|? ? W2 _]; subst.
    change (lstm_losses lowest v d last (cur :: next :: rest)) with
      (tbind (a_ints cur) (fun cur_id => tbind (a_ints next) (fun next_id => tbind (a_gather (v_table v) cur_id 0) (fun x =>
       tbind (lstm_step v d x last) (fun hc => tbind (a_matmul (fst hc) (v_pred v)) (fun prediction =>
       tbind (a_sparse_xent lowest prediction next_id) (fun loss => tbind (lstm_losses lowest v d (Some hc) (next :: rest)) (fun losses =>
       tret (loss :: losses))))))))) in Hm.
    pose proof (grows_refl s) as Gs.
    bindN Hm ci s1 E1. destruct (ints_made s cur ci s1 Fi E1) as (Fi1 & G1 & K1). carry Fi G1.
    bindN Hm ni s2 E2. destruct (ints_made s1 next ni s2 Fi1 E2) as (Fi2 & G2 & K2). pose proof (known_grows s1 s2 _ _ _ Fi1 G2 K1) as K1'. carry Fi1 G2.
    bindN Hm x s3 E3. destruct (gather_made s2 cur ci x s3 Fi2 G W1 K1' E3) as (Fi3 & G3 & K3 & nd & N1 & N2). pose proof (known_grows s2 s3 _ _ _ Fi2 G3 K2) as K2'. carry Fi2 G3.
    assert (HS3 : state s3 last H C).
    { destruct last as [[h c]|]; [|exact HS]. destruct HS as [A B]. split; apply (gridt_grows s s3); auto. }
    bindN Hm hc s4 E4. destruct (step_made s3 x _ nd last H C hc s4 Fi3 G K3 N1 N2 HS3 E4) as (Fi4 & G4 & K4 & K5). pose proof (known_grows s3 s4 _ _ _ Fi3 G4 K2') as K2''. carry Fi3 G4.
    bindN Hm pr s5 E5. destruct (mat_made s4 (fst hc) d vocab _ (v_pred v) pr s5 Fi4 G K4 ltac:(cbn; auto 10) Lp E5) as (Fi5 & G5 & K6). pose proof (known_grows s4 s5 _ _ _ Fi4 G5 K2'') as K2'''. carry Fi4 G5.
    bindN Hm lo s6 E6. destruct (xent_made s5 pr _ next ni lo s6 Fi5 K6 W2 K2''' E6) as (Fi6 & G6 & K7). carry Fi5 G6.
    bindN Hm ll s7 E7. assert (HS6 : state s6 (Some hc) (fun rho => new_output (rho (v_wx v)) (rho (v_wh v)) (rho (v_b v)) d (fun i k => rget (rho (v_table v)) [word cur i; k]) (H rho) (C rho))
      (fun rho => new_cell (rho (v_wx v)) (rho (v_wh v)) (rho (v_b v)) d (fun i k => rget (rho (v_table v)) [word cur i; k]) (H rho) (C rho))).
    { destruct hc as [h c]. split; [exact K4|exact K5]. }
    destruct (IH s6 (Some hc) _ _ ll s7 Fi6 G HS6 HW' E7) as (Fi7 & G7 & L7 & Fs & KF & SF).
    carry Fi6 G7.
    unfold tret in Hm. injection Hm as <- <-. split; [exact Fi7|]. split; [exact Gs|]. split; [cbn [length] in *; lia|].
    exists ((fun rho i => surprise (rho (v_pred v)) d vocab (new_output (rho (v_wx v)) (rho (v_wh v)) (rho (v_b v)) d (fun i k => rget (rho (v_table v)) [word cur i; k]) (H rho) (C rho)) i (word next i)) :: Fs).
    split.
    - constructor; [|exact KF]. exact K7.
    - intros rho i. cbn [map fold_right]. rewrite SF. reflexivity.
  Qed.

  Lemma sum_made s l Fs t s' : fine s -> Forall2 (fun t F => gridt s t n 1 (fun rho i _ => F rho i)) l Fs -> a_sum_of l s = Some (t, s') ->
    fine s' /\ grows s s' /\ gridt s' t n 1 (fun rho i _ => fold_right Rplus 0 (map (fun F => F rho i) Fs)).
  Proof.
    intros Fi HF Hm. destruct l as [|a [|b l]]; cbn [a_sum_of] in Hm.
    - discriminate.
    - unfold tret in Hm. injection Hm as <- <-. inversion HF as [|? F ? ? K HF']; subst. inversion HF'; subst.
      split; [exact Fi|]. split; [apply grows_refl|]. eapply gridt_values; [exact K|]. intros. cbn. ring.
    - remember (a :: b :: l) as l0 eqn:El. assert (Ha : exists F, gridt s a n 1 (fun rho i _ => F rho i)) by (subst l0; inversion HF; subst; eauto).
      destruct Ha as (Fa & Ka).
      assert (KS : forall s1, grows s s1 -> knowns s1 l0 (map (fun _ => TyA [n; 1%nat]) l0) (map (fun F rho => TA (grid n 1 (fun i _ => F rho i))) Fs)).
      { intros s1 G1. clear El Hm. induction HF as [|x F l0 Fs K _ IH]; cbn; constructor; auto. apply (known_grows s s1); auto. }
      assert (Hm' : tbind (a_shape_of a) (fun sh => tmk l0 (Some sh) true TAddN) s = Some (t, s')) by (subst l0; exact Hm). clear Hm.
      bindN Hm' sh s1 E1. pose proof Fi as (W & A & B).
      destruct (a_shape_of_spec ls a [n; 1%nat] s sh s1 W (proj1 Ka) E1) as (W1 & G1 & T1 & _). destruct (a_shape_of_attached a s sh s1 A E1) as (A1 & _ & L1).
      assert (Fi1 : fine s1) by (split; [exact W1|split; [exact A1|lia]]).
      destruct (op_made TAddN s1 l0 (Some sh) (map (fun _ => TyA [n; 1%nat]) l0) _ [n; 1%nat]
        (fun rho => TA (grid n 1 (fun i _ => fold_right Rplus 0 (map (fun F => F rho i) Fs)))) t s' Fi1 (KS s1 G1)) with (8 := Hm') as (M1 & M2 & M3); try discriminate; auto.
      + subst l0. cbn [map op_ty]. assert (Q : forallb (fun t => match t with TyA s => shape_eqb s [n; 1%nat] | _ => false end) (TyA [n; 1%nat] :: map (fun _ : nat => TyA [n; 1%nat]) l) = true).
        { apply forallb_forall. intros y [<-|Hy]; [apply shape_eqb_refl|]. apply in_map_iff in Hy. destruct Hy as (? & <- & _). apply shape_eqb_refl. }
        rewrite Q. reflexivity.
      + intros. exact I.
      + intros x Q. injection Q as <-. exact T1.
      + intros rho C. rewrite map_map. replace (map (fun F : (nat -> arr R) -> nat -> R => TA (grid n 1 (fun i _ => F rho i))) Fs) with (map TA (map (fun F : (nat -> arr R) -> nat -> R => grid n 1 (fun i _ => F rho i)) Fs)) by (rewrite map_map; reflexivity).
        rewrite (addn_ok [n; 1%nat]).
        * do 2 f_equal. apply tab_ext. intros i Hi. destruct (pair_bounds _ _ _ Hi) as (r & c & -> & Hr & Hc). cbn [nth].
          unfold Shape_Proofs3.total. clear -Hr Hc. induction Fs as [|F Fs IH]; [reflexivity|]. cbn [map fold_right]. rewrite <- IH, grid_get by auto. reflexivity.
        * subst l0. inversion HF; subst. discriminate.
        * apply Forall_forall. intros y Hy. apply in_map_iff in Hy. destruct Hy as (F & <- & _). apply grid_shape.
      + split; [exact M1|]. split; [exact (grows_trans _ _ _ G1 M2)|exact M3].
  Qed.

  Lemma lstm_made words t s' : List.Forall in_vocab words -> lstm_loss lowest v d words g0 = Some (t, s') ->
    fine s' /\ grows g0 s' /\ gridt s' t n 1 (fun rho i _ => lm_loss v d vocab words rho i).
  Proof.
    intros HW Hm. unfold lstm_loss in Hm. bindN Hm l s1 E1.
    destruct (losses_made words g0 None (fun _ _ _ => 0) (fun _ _ _ => 0) l s1 Fi0 (grows_refl g0) (conj eq_refl eq_refl) HW E1) as (Fi1 & G1 & _ & Fs & KF & SF).
    destruct (sum_made s1 l Fs t s' Fi1 KF Hm) as (Fi2 & G2 & K2). split; [exact Fi2|]. split; [exact (grows_trans _ _ _ G1 G2)|].
    eapply gridt_values; [exact K2|]. intros rho i j _ _ _. cbn beta. rewrite SF. reflexivity.
  Qed.
End Lstm.
