(** Array graphs: [grad] and [grad_with_default] compute vector-Jacobian
    products of the whole graph, and evaluation returns them. *)
From Coq Require Import String List Arith ZArith Bool Lia Reals Lra Relations Permutation Classical_Prop.
From Coquelicot Require Import Coquelicot.
Import ListNotations.
From Verif Require Import Graph_Model Eval_Model Eval_Spec Eval_Proofs Graph_Proofs Grad_Model Grad_Spec
  Grad_Path_Proofs Grad_Proofs Grad_Final Grad_Frame Scalar_Model Scalar_Spec Scalar_Rules Scalar_Proofs Scalar_Grad.
From Verif Require Import Array_Model Array_Proofs Array_Sum Arith_Model Arith_Proofs Arith_Final Vjp_Spec Vjp_Proofs
  Reduce_Model Reduce_Spec Reduce_Proofs Shape_Model Shape_Spec Shape_Proofs3
  Tens_Model Tens_Spec Tens_Fwd Tens_Build Tens_Rules Tens_Rules2 Tens_Rules3 Tens_Rules4 Tens_Ops Tens_Lax Tens_Grad Tens_Deriv.
Local Set Bullet Behavior "Strict Subproofs".
Local Open Scope R_scope.

Lemma t_leaf_facts ls g x : twf ls g -> t_input_leaf g x ->
  leaf g x /\ typed ls g x (TyA (ls x)) /\ differentiable g x /\ fits ls g x.
Proof.
  intros W (n & Hn & Ho & Hd). destruct (twf_leaf ls g W x n Hn Ho) as [Hi _]. split; [exists n; auto|]. split; [|split; [exists n; auto|]].
  - unfold typed, ttypes. rewrite (scan_nth _ _ _ _ Hn). unfold tnode_ty at 1. rewrite Ho. reflexivity.
  - intros i m ts Hdep Hm _. apply clos_rt_rt1n in Hdep. inv Hdep.
    + assert (m = n) by congruence. subst. rewrite Ho. reflexivity.
    + destruct H as (n' & inc & Hn' & Hin & _). assert (n' = n) by congruence. subst n'. rewrite Hi in Hin. destruct Hin.
Qed.

Lemma op_fit_use lax o ts : op_fit o ts = true -> op_use lax o ts = true.
Proof. intros H. destruct lax; [|exact H]. destruct o; try exact H. discriminate. Qed.
Lemma fits_usesx lax ls g y : fits ls g y -> usesx lax ls g y.
Proof. intros H i n ts A B D. apply op_fit_use. exact (H i n ts A B D). Qed.

(** ** Several outputs *)
Section Total.
  Variable lax : bool.
  Variable ls : nat -> list nat.
  Variable g : tgraph.
  Hypothesis W : twf ls g.
  Variable rho : nat -> arr R.
  Hypothesis C : conform ls rho.
  Variable x : nat.
  Hypothesis Hleaf : t_input_leaf g x.
  Variable v : arr R.
  Hypothesis Hv : has_shape (ls x) v.
  Notation moved t := (put rho x (step (rho x) v t)).

  Lemma one_output y sh a : t_smooth ls g rho x y -> usesx lax ls g y -> typed ls g y (TyA sh) -> has_shape sh a ->
    exists L c, NoDup L /\ (forall es, In es L <-> path g (a_passes g) y es x) /\
      rsum L (fun es => ip v (path_value (a_vjp lax ls g rho) es (flat a))) = c /\
      is_derive (fun t : R => dot a (aval (moved t) g y)) 0 c.
  Proof.
    intros Hs Hf Hty Ha.
    destruct (paths_and_derivative lax ls g W rho C x Hleaf v Hv y Hs Hf y sh (rt_refl _ _ y) Hty) as (L & D & (N & HL & HS) & HD).
    exists L, (rsum (indices sh) (fun k => rget a k * D k)). split; auto. split; auto. split.
    - rewrite HS, unflat_flat by auto. reflexivity.
    - apply (is_derive_fext (fun t : R => rsum (indices sh) (fun k => rget a k * rget (aval (moved t) g y) k))).
      + intros t. apply dot_sum; auto. apply (typed_aval ls _ g y sh (bend_conform ls rho C x v Hv t) Hty).
      + apply is_derive_rsum. intros k Hk. apply is_derive_cmul. apply HD. apply indices_in. auto.
  Qed.

  Lemma all_outputs (sd : nat -> vec) ys (seeds : list (arr R)) : forall k,
    Forall2 (fun y a => t_smooth ls g rho x y /\ usesx lax ls g y /\ exists sh, typed ls g y (TyA sh) /\ has_shape sh a) ys seeds ->
    (forall p a, nth_error seeds p = Some a -> sd (k + p)%nat = flat a) ->
    exists P c, NoDup P /\
      (forall j es, In (j, es) P <-> exists p y, nth_error ys p = Some y /\ j = (k + p)%nat /\ path g (a_passes g) y es x) /\
      rsum P (fun '(j, es) => ip v (path_value (a_vjp lax ls g rho) es (sd j))) = c /\
      is_derive (fun t : R => fold_right Rplus 0 (map (fun '(a, y) => dot a (aval (moved t) g y)) (combine seeds ys))) 0 c.
  Proof.
    intros k HF. revert k. induction HF as [|y a ys seeds (Hs & Hf & sh & Hty & Ha) _ IH]; intros k Hsd.
    - exists [], 0. split; [constructor|]. split; [|split; [reflexivity|apply (is_derive_fext (fun _ => 0)); [reflexivity|apply @is_derive_const]]].
      intros j es. split; [intros []|]. intros (p & y & Hp & _). destruct p; discriminate.
    - destruct (IH (S k)) as (P & c & N & HP & HS & HD).
      { intros p b Hp. specialize (Hsd (S p) b Hp). rewrite Nat.add_succ_r in Hsd. exact Hsd. }
      destruct (one_output y sh a Hs Hf Hty Ha) as (L & c0 & N0 & HL & HS0 & HD0).
      exists (map (pair k) L ++ P), (c0 + c). split; [|split; [|split]].
      + apply NoDup_app_intro; auto.
        * clear -N0. induction N0 as [|b l Hb _ IHl]; simpl; constructor; auto.
          rewrite in_map_iff. intros (d & Hd & Hin). injection Hd as ->. contradiction.
        * intros [j es] H1 H2. rewrite in_map_iff in H1. destruct H1 as (es1 & E & _). injection E as E1 E2.
          apply HP in H2. destruct H2 as (p & ? & _ & E & _). lia.
      + intros j es. rewrite in_app_iff, in_map_iff. split.
        * intros [(es1 & E & H1)|H1].
          -- injection E as <- <-. apply HL in H1. exists 0%nat, y. rewrite Nat.add_0_r. auto.
          -- apply HP in H1. destruct H1 as (p & y' & A & B & D). exists (S p), y'. rewrite Nat.add_succ_r. auto.
        * intros (p & y' & A & B & D). destruct p as [|p].
          -- simpl in A. inv A. rewrite Nat.add_0_r. left. exists es. split; auto. apply HL. auto.
          -- right. apply HP. exists p, y'. rewrite Nat.add_succ_r in *. auto.
      + rewrite rsum_app, rsum_map, HS, <- HS0. f_equal. apply rsum_ext. intros es _.
        specialize (Hsd 0%nat a eq_refl). rewrite Nat.add_0_r in Hsd. rewrite Hsd. reflexivity.
      + apply (is_derive_plus (fun t : R => dot a (aval (moved t) g y))); auto.
  Qed.

  Lemma total_derivative ys seeds total :
    Forall2 (fun y a => t_smooth ls g rho x y /\ usesx lax ls g y /\ exists sh, typed ls g y (TyA sh) /\ has_shape sh a) ys seeds ->
    is_path_sum g vzero vadd (a_vjp lax ls g rho) (a_passes g) ys (map flat seeds) x total ->
    is_derive (fun t : R => fold_right Rplus 0 (map (fun '(a, y) => dot a (aval (moved t) g y)) (combine seeds ys))) 0 (ip v total).
  Proof.
    intros HF (Q & NQ & HQ & ->).
    destruct (all_outputs (fun j => nth j (map flat seeds) vzero) ys seeds 0 HF) as (P & c & N & HP & HS & HD).
    { intros p a Hp. simpl. apply nth_error_nth. rewrite nth_error_map, Hp. reflexivity. }
    replace (ip v _) with c; auto. rewrite ip_msum, rsum_map, <- HS.
    assert (HPQ : Permutation P Q).
    { apply NoDup_Permutation; auto. intros [j es]. rewrite HP, HQ. simpl. split.
      - intros (p & y & A & -> & B). eauto.
      - intros (y & A & B). eauto. }
    transitivity (rsum Q (fun '(j, es) => ip v (path_value (a_vjp lax ls g rho) es (nth j (map flat seeds) vzero)))).
    - clear -HPQ. unfold sumf. induction HPQ as [|a l l' _ IH|a b l|l l' l'' _ IH1 _ IH2]; simpl; [reflexivity|rewrite IH; reflexivity|ring|congruence].
    - apply rsum_ext. intros [j es] _. reflexivity.
  Qed.
End Total.

(** The arrays the outputs are multiplied with. *)
Definition seed_arrays (rho : nat -> arr R) (g : tgraph) (gys : option (list nat)) (ys : list nat) : list (arr R) :=
  match gys with Some t => map (aval rho g) t | None => map (fun _ => Arr [] [1]) ys end.

Theorem tgrad_with_default_x lax pop debug fuel ys xs gys ls g l g' log :
  sound lax ls g -> heap_pop g (pop g) ->
  NoDup ys -> (forall y, In y ys -> differentiable g y /\ usesx lax ls g y) ->
  NoDup xs -> (forall x, In x xs -> t_input_leaf g x /\ ~ In x ys) ->
  match gys with
  | Some t => Forall2 (fun y gy => exists sh, shaped ls g y sh /\ shaped ls g gy sh) ys t
  | None => forall y, In y ys -> shaped ls g y []
  end ->
  t_grad_with_default pop debug fuel ys xs gys g = Ok (l, g', log) ->
  sound lax ls g' /\ grows g g' /\
  Forall2 (fun x r => wtyped ls lax g' (fst r) (TyA (ls x)) /\
     forall rho v, conform ls rho -> has_shape (ls x) v -> (forall y, In y ys -> t_smooth ls g rho x y) ->
       derivable_pt_lim
         (fun t => fold_right Rplus 0 (map (fun '(a, y) => dot a (aval (put rho x (step (rho x) v t)) g y))
                                         (combine (seed_arrays rho g gys ys) ys)))
         0 (dot (aval rho g' (fst r)) v))
    xs l.
Proof.
  intros SW Hpop Nys Hys Nxs Hxs Hgys H. pose proof (proj1 SW) as W.
  assert (Hacc : forall x, In x xs -> accum_once g ys x).
  { intros x Hx. left. destruct (Hxs x Hx) as [Hl Hn]. split; auto. apply (t_leaf_facts ls g x W Hl). }
  destruct (a_result lax ls g W (pop g) Hpop debug ys xs (fun y Hy => proj1 (Hys y Hy)) Nys) with (fuel := fuel) (gys := gys) (s := g) (l := l) (s' := g') (log := log)
     as (W' & G' & HF); auto.
  { intros x Hx. destruct (t_leaf_facts ls g x W (proj1 (Hxs x Hx))) as (_ & T & _ & F). split; eauto using fits_usesx. }
  { split; auto. apply grows_refl. }
  { destruct gys as [t|].
    - assert (HY : List.Forall (fun y => usesx lax ls g y) ys) by (apply Forall_forall; intros y Hy; apply Hys; auto).
      clear -Hgys HY. induction Hgys as [|y gy ys t (sh & A & B) _ IH]; constructor.
      + inversion HY; subst. split; eauto using typed_wtyped.
      + apply IH. inversion HY; auto.
    - intros y Hy. split; [apply Hys; auto|]. apply (Hgys y Hy). }
  split; auto. split; auto.
  assert (Hseeds : forall rho, match gys with Some t => map (a_den rho g) t | None => map (fun _ => v_one) ys end
     = map flat (seed_arrays rho g gys ys)).
  { intros rho. unfold seed_arrays. destruct gys as [t|]; rewrite map_map; reflexivity. }
  assert (HP : forall rho, conform ls rho -> forall x, In x xs -> (forall y, In y ys -> t_smooth ls g rho x y) ->
     Forall2 (fun y a => t_smooth ls g rho x y /\ usesx lax ls g y /\ exists sh, typed ls g y (TyA sh) /\ has_shape sh a) ys
       (seed_arrays rho g gys ys)).
  { intros rho C x Hx Hsm.
    assert (HY : List.Forall (fun y => t_smooth ls g rho x y /\ usesx lax ls g y) ys).
    { apply Forall_forall; intros y Hy. split; [auto|apply Hys; auto]. }
    unfold seed_arrays. destruct gys as [t|].
    - clear -Hgys HY C. induction Hgys as [|y gy ys t (sh & A & B) _ IH]; simpl; constructor.
      + inversion HY as [|? ? [D E] _]; subst. split; auto. split; auto. exists sh. split; auto. apply (typed_aval ls rho g gy sh C B).
      + apply IH. inversion HY; auto.
    - clear -Hgys HY. induction HY as [|y ys [A B] _ IH]; simpl; constructor.
      + split; auto. split; auto. exists []. split; [apply Hgys; left; auto|apply scalar_shape].
      + apply IH. intros; apply Hgys; right; auto. }
  destruct (conform_exists ls) as (rho0 & C0).
  assert (Hlen : length xs = length l) by (eapply Forall2_len; apply (HF rho0 C0)).
  assert (Z : forall p x (r : nat * bool), nth_error xs p = Some x -> nth_error l p = Some r -> wtyped ls lax g' (fst r) (TyA (ls x)) /\
     forall rho v, conform ls rho -> has_shape (ls x) v -> (forall y, In y ys -> t_smooth ls g rho x y) ->
       derivable_pt_lim
         (fun t => fold_right Rplus 0 (map (fun '(a, y) => dot a (aval (put rho x (step (rho x) v t)) g y))
                                         (combine (seed_arrays rho g gys ys) ys)))
         0 (dot (aval rho g' (fst r)) v)).
  { intros p x r Hx Hr. pose proof (nth_error_In _ _ Hx) as Hin.
    destruct (t_leaf_facts ls g x W (proj1 (Hxs x Hin))) as (_ & T & _ & _).
    assert (HT : wtyped ls lax g' (fst r) (TyA (ls x))).
    { destruct (Forall2_nth _ _ _ _ _ (HF rho0 C0) Hx) as (r' & Hr' & (_ & sh & A & B) & _).
      assert (r' = r) by congruence. subst r'. pose proof (typed_fun ls g x _ _ T A). congruence. }
    split; [exact HT|]. intros rho v C Hv Hsm.
    destruct (Forall2_nth _ _ _ _ _ (HF rho C) Hx) as (r' & Hr' & _ & HS). assert (r' = r) by congruence. subst r'.
    rewrite Hseeds in HS. apply is_derive_Reals.
    pose proof (total_derivative lax ls g W rho C x (proj1 (Hxs x Hin)) v Hv ys _ _ (HP rho C x Hin Hsm) HS) as D.
    unfold a_den in D. rewrite (ip_flat (ls x)) in D; auto. apply (wtyped_aval ls lax rho g' (fst r) (ls x) C HT). }
  clear -Hlen Z. revert l Hlen Z. induction xs as [|x xs IH]; intros [|r l] Hlen Z; try discriminate; constructor.
  - apply (Z 0%nat); auto.
  - apply IH; [injection Hlen; auto|]. intros p x' r' A B. apply (Z (S p)); auto.
Qed.

Lemma sound_false ls g : twf ls g -> sound false ls g.
Proof. intros W. split; [exact W|discriminate]. Qed.
Theorem tgrad_with_default pop debug fuel ys xs gys ls g l g' log :
  twf ls g -> heap_pop g (pop g) ->
  NoDup ys -> (forall y, In y ys -> differentiable g y /\ fits ls g y) ->
  NoDup xs -> (forall x, In x xs -> t_input_leaf g x /\ ~ In x ys) ->
  match gys with
  | Some t => Forall2 (fun y gy => exists sh, shaped ls g y sh /\ shaped ls g gy sh) ys t
  | None => forall y, In y ys -> shaped ls g y []
  end ->
  t_grad_with_default pop debug fuel ys xs gys g = Ok (l, g', log) ->
  twf ls g' /\ grows g g' /\
  Forall2 (fun x r => shaped ls g' (fst r) (ls x) /\
     forall rho v, conform ls rho -> has_shape (ls x) v -> (forall y, In y ys -> t_smooth ls g rho x y) ->
       derivable_pt_lim
         (fun t => fold_right Rplus 0 (map (fun '(a, y) => dot a (aval (put rho x (step (rho x) v t)) g y))
                                         (combine (seed_arrays rho g gys ys) ys)))
         0 (dot (aval rho g' (fst r)) v))
    xs l.
Proof.
  intros W Hpop Nys Hys Nxs Hxs Hgys H.
  destruct (tgrad_with_default_x false pop debug fuel ys xs gys ls g l g' log (sound_false ls g W) Hpop Nys Hys Nxs Hxs Hgys H) as ((W' & _) & G & F).
  split; [exact W'|]. split; [exact G|exact F].
Qed.

(** ** Growing graphs *)
Lemma t_depends_le ls g i j : twf ls g -> depends g i j -> (j <= i)%nat.
Proof.
  intros W H. apply clos_rt_rt1n in H. induction H as [|i k j (n & inc & Hn & Hin & Hk) _ IH]; auto.
  pose proof (twf_input ls g W i n inc Hn Hin). lia.
Qed.
Lemma t_depends_prefix ls g g' i j : twf ls g -> grows g g' -> (i < length g)%nat -> depends g' i j -> depends g i j.
Proof.
  intros W G Hi Hd. apply clos_rt_rt1n in Hd. revert Hi. induction Hd as [|i k j (n & inc & Hn & Hin & Hk) _ IH]; intros Hi.
  - apply rt_refl.
  - pose proof Hi as Hi2. apply nth_error_Some in Hi2. destruct (nth_error g i) as [m|] eqn:Hm; [clear Hi2|congruence].
    rewrite (grows_nth g g' i m G Hm) in Hn. inv Hn.
    pose proof (twf_input ls g W i n inc Hm Hin).
    eapply rt_trans; [|apply IH; lia]. apply rt_step. exists n, inc. auto.
Qed.
Lemma t_nth_prefix (g g' : tgraph) i (n : node top) : grows g g' -> (i < length g)%nat -> nth_error g' i = Some n -> nth_error g i = Some n.
Proof. intros [new ->] H Hn. rewrite nth_error_app1 in Hn; auto. Qed.
Lemma t_types_prefix ls g g' i : grows g g' -> (i < length g)%nat -> nth_error (ttypes ls g') i = nth_error (ttypes ls g) i.
Proof. intros [new ->] H. unfold ttypes. apply scan_prefix. auto. Qed.
Lemma tvalues_prefix rho g g' i : grows g g' -> (i < length g)%nat -> nth_error (tvalues rho g') i = nth_error (tvalues rho g) i.
Proof. intros [new ->] H. unfold tvalues. apply scan_prefix. auto. Qed.

Lemma t_smooth_grows ls g g' rho x y : twf ls g -> grows g g' -> (y < length g)%nat -> t_smooth ls g rho x y -> t_smooth ls g' rho x y.
Proof.
  intros W G Hy Hs i n sh Hyi Hix Hne Hn Hnum Hsz.
  apply (t_depends_prefix ls g g' y i W G Hy) in Hyi.
  assert (Hi : (i < length g)%nat) by (pose proof (t_depends_le ls g y i W Hyi); lia).
  apply (t_depends_prefix ls g g' i x W G Hi) in Hix.
  pose proof (t_nth_prefix g g' i n G Hi Hn) as Hn'. unfold shaped in Hnum. rewrite (t_types_prefix ls g g' i G Hi) in Hnum.
  destruct (Hs i n sh Hyi Hix Hne Hn' Hnum Hsz) as (A & B & D). split; auto. split.
  2: { intros p inc Hp Hz Hd. pose proof (twf_input ls g W i n inc Hn' (nth_error_In _ _ Hp)).
       apply (D p inc Hp Hz). apply (t_depends_prefix ls g g' (in_id inc) x W G); [lia|exact Hd]. }
  destruct B as [B|(lowest & bits & checked & pd & s & size & inc & m & inc' & B1 & B2 & B3 & B4 & B5 & B6 & B7)].
  - left. replace (in_vals rho g' n) with (in_vals rho g n); auto.
    apply map_ext_in. intros inc Hin. pose proof (twf_input ls g W i n inc Hn' Hin).
    rewrite (tvalues_prefix rho g g') by (auto; lia). reflexivity.
  - right. exists lowest, bits, checked, pd, s, size, inc, m, inc'. split; [exact B1|]. split; [exact B2|].
    assert (L1 : (in_id inc < i)%nat) by (apply (twf_input ls g W i n inc Hn'); rewrite B2; left; reflexivity).
    assert (L2 : (in_id inc' < in_id inc)%nat) by (apply (twf_input ls g W (in_id inc) m inc' B3); rewrite B5; left; reflexivity).
    split; [destruct G as [new ->]; rewrite nth_error_app1; [exact B3|lia]|]. split; [exact B4|]. split; [exact B5|]. split; [exact B6|].
    replace (aval rho g' (in_id inc')) with (aval rho g (in_id inc')); [exact B7|].
    unfold aval. rewrite (tvalues_prefix rho g g') by (auto; lia). reflexivity.
Qed.
Lemma usesx_grows lax ls g g' y : twf ls g -> grows g g' -> (y < length g)%nat -> usesx lax ls g y -> usesx lax ls g' y.
Proof.
  intros W G Hy Hf i n ts Hyi Hn HL.
  apply (t_depends_prefix ls g g' y i W G Hy) in Hyi.
  assert (Hi : (i < length g)%nat) by (pose proof (t_depends_le ls g y i W Hyi); lia).
  pose proof (t_nth_prefix g g' i n G Hi Hn) as Hn'. apply (Hf i n ts Hyi Hn').
  apply lookups_spec. apply lookups_spec in HL.
  assert (HB : forall inc, In inc (n_inputs n) -> (in_id inc < length g)%nat).
  { intros inc Hin. pose proof (twf_input ls g W i n inc Hn' Hin). lia. }
  revert HB. clear -HL G. induction HL as [|inc ty ins ts (A & B) _ IH]; intros HB; constructor.
  - split; auto. rewrite <- (t_types_prefix ls g g') by (auto; apply HB; left; auto). exact B.
  - apply IH. intros; apply HB; right; auto.
Qed.

Lemma fits_grows ls g g' y : twf ls g -> grows g g' -> (y < length g)%nat -> fits ls g y -> fits ls g' y.
Proof. exact (usesx_grows false ls g g' y). Qed.

(** ** [grad] *)
Definition t_sum_node (y : nat) (n : node top) : Prop :=
  n_op n = TSumAll /\ n_inputs n = [Incoming y false 0] /\ n_diff n = true.
Lemma a_sum_all_node e s t s' : a_sum_all e s = Some (t, s') ->
  t = length s /\ exists n, s' = s ++ [n] /\ t_sum_node e n.
Proof.
  unfold a_sum_all, tmk. destruct (build s _ TSumAll) as [[s1 id]|] eqn:Hb; [|discriminate]. intros H; inv H.
  apply build_spec in Hb. destruct Hb as (-> & _ & ->). split; auto. eexists. split; [reflexivity|].
  repeat split.
Qed.

Lemma Forall2_impl_in {A B} (P Q : A -> B -> Prop) l k : (forall a b, In a l -> P a b -> Q a b) -> Forall2 P l k -> Forall2 Q l k.
Proof. intros H HF. induction HF; constructor; [apply H; simpl; auto|apply IHHF; intros; apply H; simpl; auto]. Qed.
Lemma fold_left_right l : forall a, fold_left Rplus l a = a + fold_right Rplus 0 l.
Proof. induction l as [|b l IH]; intros a; simpl; [ring|]. rewrite IH. ring. Qed.

Lemma t_sum_alls_spec ls : forall ys s ys' s', twf ls s -> List.Forall (fun y => exists sh, typed ls s y (TyA sh)) ys -> t_sum_alls ys s = Some (ys', s') ->
  twf ls s' /\ grows s s' /\ NoDup ys' /\
  Forall2 (fun y y' => (length s <= y')%nat /\ typed ls s' y' (TyA []) /\
                       (forall rho, conform ls rho -> aval rho s' y' = Arr [] [elements_sum (aval rho s y)]) /\
                       exists n, nth_error s' y' = Some n /\ t_sum_node y n) ys ys'.
Proof.
  induction ys as [|y ys IH]; intros s ys' s' W HF H; cbn [t_sum_alls] in H.
  - inv H. split; auto. split; [apply grows_refl|]. split; constructor.
  - unfold tbind in H. destruct (a_sum_all y s) as [[t s0]|] eqn:E; [|discriminate].
    destruct (t_sum_alls ys s0) as [[l s1]|] eqn:E0; [|discriminate]. inv H. inversion HF as [|? ? (sh & Hy) HF']; subst.
    destruct (a_sum_all_node _ _ _ _ E) as (Ht & n & Hs0 & Hsn).
    pose proof (a_sum_all_spec ls _ _ _ _ _ W Hy E) as (W1 & G1 & N1 & V1).
    apply IH in E0; auto.
    2: { eapply Forall_impl; [|exact HF']. intros a (sh' & A). exists sh'. eapply grows_typed; eauto. }
    destruct E0 as (W2 & G2 & ND & HF2).
    assert (Hlen : length s0 = S (length s)) by (subst s0; rewrite app_length; simpl; lia).
    split; auto. split; [eapply grows_trans; eauto|]. split.
    + constructor; auto. intros Hin. apply In_nth_error in Hin. destruct Hin as (k & Hk).
      destruct (Forall2_nth2 _ _ _ _ _ HF2 Hk) as (b & _ & Hle & _). lia.
    + constructor.
      * split; [lia|]. split; [eapply grows_typed; eauto|]. split.
        -- intros rho C. destruct (typed_aval ls rho s y sh C Hy) as [Hh _].
           rewrite (holds_aval rho s' t (sum_all 0 Rplus (aval rho s y))).
           ++ unfold sum_all, elements_sum. rewrite fold_left_right. do 2 f_equal. ring.
           ++ eapply grows_holds; eauto.
        -- exists n. split; auto. eapply grows_nth; eauto. subst s0 t. rewrite nth_error_app2, Nat.sub_diag; auto.
      * assert (HT : forall a, In a ys -> exists sh, typed ls s a (TyA sh)) by (apply Forall_forall; exact HF').
        eapply Forall2_impl_in; [|exact HF2]. simpl. intros a b Hia (A & B & D & F). destruct (HT a Hia) as (sh' & T).
        split; [lia|]. split; auto. split; auto.
        intros rho C. rewrite D by auto. rewrite (grows_aval rho s s0) by (auto; eapply typed_lt; eauto). reflexivity.
Qed.

Lemma depends_sum (g' : tgraph) y y' n i : nth_error g' y' = Some n -> t_sum_node y n -> depends g' y' i -> i = y' \/ depends g' y i.
Proof.
  intros Hn (_ & Si & _) Hd. apply clos_rt_rt1n in Hd. inv Hd; auto. right.
  destruct H as (n' & inc & Hn' & Hin & Hk). assert (n' = n) by congruence. subst n'. rewrite Si in Hin.
  destruct Hin as [<-|[]]. simpl in Hk. subst. apply clos_rt1n_rt. auto.
Qed.
Lemma t_smooth_sum ls g g' rho x y y' n : twf ls g -> grows g g' -> (y < length g)%nat ->
  nth_error g' y' = Some n -> t_sum_node y n -> t_smooth ls g rho x y -> t_smooth ls g' rho x y'.
Proof.
  intros W G Hy Hn Hsn Hs i m sh Hyi Hix Hne Hm Hty Hsz.
  pose proof (t_smooth_grows ls g g' rho x y W G Hy Hs) as Hs'.
  destruct (depends_sum g' y y' n i Hn Hsn Hyi) as [->|Hd].
  - assert (m = n) by congruence. subst m. destruct Hsn as (So & Si & Sd). split; auto. split; [left; rewrite So; unfold in_vals; rewrite Si; exact I|]. rewrite So. intros p inc _ Hz. discriminate Hz.
  - apply (Hs' i m sh); auto.
Qed.
Lemma usesx_sum lax ls g g' y y' n : twf ls g -> grows g g' -> (y < length g)%nat ->
  nth_error g' y' = Some n -> t_sum_node y n -> usesx lax ls g y -> usesx lax ls g' y'.
Proof.
  intros W G Hy Hn Hsn Hf i m ts Hyi Hm HL.
  destruct (depends_sum g' y y' n i Hn Hsn Hyi) as [->|Hd].
  - assert (m = n) by congruence. subst m. destruct Hsn as (So & _). rewrite So. destruct lax; reflexivity.
  - apply (usesx_grows lax ls g g' y W G Hy Hf i m ts); auto.
Qed.

Lemma t_sum_alls_attached : forall ys s ys' s', attached s -> t_sum_alls ys s = Some (ys', s') -> attached s'.
Proof.
  induction ys as [|y ys IH]; intros s ys' s' A H; cbn [t_sum_alls] in H; [inv H; exact A|].
  unfold tbind in H. destruct (a_sum_all y s) as [[t s0]|] eqn:E; [|discriminate].
  destruct (t_sum_alls ys s0) as [[l s1]|] eqn:E0; [|discriminate]. inv H. apply IH in E0; [exact E0|].
  unfold a_sum_all in E. eapply tmk_attached in E; [apply E|exact A|discriminate].
Qed.

Theorem tgrad_derivative_x lax pop debug fuel ys xs ls g l g' log :
  sound lax ls g -> (forall g, heap_pop g (pop g)) ->
  (forall y, In y ys -> usesx lax ls g y /\ exists sh, shaped ls g y sh) ->
  NoDup xs -> (forall x, In x xs -> t_input_leaf g x) ->
  t_grad pop debug fuel ys xs g = Ok (l, g', log) ->
  sound lax ls g' /\ grows g g' /\
  Forall2 (fun x r => wtyped ls lax g' (fst r) (TyA (ls x)) /\
     forall rho v, conform ls rho -> has_shape (ls x) v -> (forall y, In y ys -> t_smooth ls g rho x y) ->
       derivable_pt_lim
         (fun t => fold_right Rplus 0 (map (fun y => elements_sum (aval (put rho x (step (rho x) v t)) g y)) ys))
         0 (dot (aval rho g' (fst r)) v))
    xs l.
Proof.
  intros SW Hpop Hys Nxs Hxs H. unfold t_grad in H. pose proof (proj1 SW) as W.
  destruct (t_sum_alls ys g) as [[ys' g1]|] eqn:Hsum; [|discriminate].
  destruct (t_sum_alls_spec ls ys g ys' g1 W) as (W1 & G1 & ND & HF); auto.
  { apply Forall_forall. intros y Hy. apply (Hys y Hy). }
  assert (Hlt : forall y, In y ys -> (y < length g)%nat).
  { intros y Hy. destruct (Hys y Hy) as (_ & sh & T). eapply typed_lt; exact T. }
  assert (SW1 : sound lax ls g1).
  { split; [exact W1|]. intros Hl. eapply t_sum_alls_attached; [exact (proj2 SW Hl)|exact Hsum]. }
  apply (tgrad_with_default_x lax pop debug fuel ys' xs None ls g1 l g' log) in H; auto.
  - destruct H as (W' & G' & HR). split; auto. split; [eapply grows_trans; eauto|].
    eapply Forall2_impl_in; [|exact HR]. simpl. intros x r Hx [A B]. split; auto. intros rho v C Hv Hsm.
    assert (Hsm' : forall y, In y ys' -> t_smooth ls g1 rho x y).
    { intros y' Hy'. apply In_nth_error in Hy'. destruct Hy' as (k & Hk).
      destruct (Forall2_nth2 _ _ _ _ _ HF Hk) as (y & Hy & Hle & _ & _ & n & Hn & Hsn).
      apply nth_error_In in Hy. eapply (t_smooth_sum ls g g1 rho x y y' n); eauto. }
    specialize (B rho v C Hv Hsm'). apply is_derive_Reals in B. apply is_derive_Reals.
    eapply is_derive_fext; [|exact B]. intros t. cbv beta.
    pose proof (bend_conform ls rho C x v Hv t) as Ct. unfold bend in Ct.
    assert (HV : Forall2 (fun y y' => aval (put rho x (step (rho x) v t)) g1 y' = Arr [] [elements_sum (aval (put rho x (step (rho x) v t)) g y)]) ys ys').
    { eapply Forall2_imp; [|exact HF]. simpl. intros a b (_ & _ & V & _). apply V. exact Ct. }
    clear -HV. induction HV as [|y y' ys ys' V _ IH]; simpl; [reflexivity|].
    rewrite IH, V. f_equal. unfold dot. simpl. ring.
  - intros y' Hy'. apply In_nth_error in Hy'. destruct Hy' as (k & Hk).
    destruct (Forall2_nth2 _ _ _ _ _ HF Hk) as (y & Hy & Hle & N & _ & n & Hn & Hsn). split.
    + exists n; split; auto. apply Hsn.
    + apply nth_error_In in Hy. eapply (usesx_sum lax ls g g1 y y' n); eauto. apply Hys; auto.
  - intros x Hx. destruct (Hxs x Hx) as (n & Hn & A & B). split.
    + exists n. split; [eapply grows_nth; eauto|auto].
    + intros Hin. apply In_nth_error in Hin. destruct Hin as (k & Hk).
      destruct (Forall2_nth2 _ _ _ _ _ HF Hk) as (y & Hy & Hle & _).
      assert (x < length g)%nat by (apply nth_error_Some; congruence). lia.
  - intros y' Hy'. apply In_nth_error in Hy'. destruct Hy' as (k & Hk).
    destruct (Forall2_nth2 _ _ _ _ _ HF Hk) as (y & Hy & Hle & N & _). exact N.
Qed.

Theorem tgrad_derivative pop debug fuel ys xs ls g l g' log :
  twf ls g -> (forall g, heap_pop g (pop g)) ->
  (forall y, In y ys -> fits ls g y /\ exists sh, shaped ls g y sh) ->
  NoDup xs -> (forall x, In x xs -> t_input_leaf g x) ->
  t_grad pop debug fuel ys xs g = Ok (l, g', log) ->
  twf ls g' /\ grows g g' /\
  Forall2 (fun x r => shaped ls g' (fst r) (ls x) /\
     forall rho v, conform ls rho -> has_shape (ls x) v -> (forall y, In y ys -> t_smooth ls g rho x y) ->
       derivable_pt_lim
         (fun t => fold_right Rplus 0 (map (fun y => elements_sum (aval (put rho x (step (rho x) v t)) g y)) ys))
         0 (dot (aval rho g' (fst r)) v))
    xs l.
Proof.
  intros W Hpop Hys Nxs Hxs H.
  destruct (tgrad_derivative_x false pop debug fuel ys xs ls g l g' log (sound_false ls g W) Hpop Hys Nxs Hxs H) as ((W' & _) & G & F).
  split; [exact W'|]. split; [exact G|exact F].
Qed.

(** ** Evaluating array graphs *)
(** What evaluation needs of a graph: everything in [twf] that does not concern
    attached shape tensors. *)
Record loose (g : tgraph) : Prop := {
  lo_input : forall i n inc, nth_error g i = Some n -> In inc (n_inputs n) -> (in_id inc < i)%nat;
  lo_leaf : forall i n, nth_error g i = Some n -> n_op n = TLeaf -> n_inputs n = [] /\ (is_variable n || is_placeholder n) = true;
  lo_op : forall i n, nth_error g i = Some n -> n_op n <> TLeaf -> n_var n = None /\ n_ph n = None;
  lo_mut : forall i n inc, nth_error g i = Some n -> In inc (n_inputs n) -> in_mut inc = false
}.
Lemma twf_loose ls g : twf ls g -> loose g.
Proof. intros [A B C D E F G]. constructor; auto. Qed.

(** The operation equation. *)
Lemma wtval_typed ls lax rho g i t : conform ls rho -> wtyped ls lax g i t -> holds rho g i (tval rho g i) /\ has_ty (tval rho g i) t.
Proof. intros C H. destruct (wtyped_values ls lax rho g C i t H) as (v & Hv & Ht). unfold tval. rewrite Hv. auto. Qed.
Lemma wtval_aval ls lax rho g i sh : conform ls rho -> wtyped ls lax g i (TyA sh) -> tval rho g i = TA (aval rho g i).
Proof. intros C H. destruct (wtyped_aval ls lax rho g i sh C H) as [Hh _]. unfold tval. rewrite Hh. reflexivity. Qed.
Lemma wtval_eq ls lax rho g i n ts t : conform ls rho -> nth_error g i = Some n -> n_op n <> TLeaf ->
  Forall2 (fun inc ty => in_sel inc = 0%nat /\ (in_id inc < i)%nat /\ wtyped ls lax g (in_id inc) ty) (n_inputs n) ts ->
  op_tyx lax (n_op n) ts = Some t -> wtyped ls lax g i t ->
  Forall2 has_ty (in_vals rho g n) ts /\ tcompute (n_op n) (in_vals rho g n) = Some (tval rho g i).
Proof.
  intros C Hn Ho HT Hop Ht.
  assert (HV : Forall2 has_ty (in_vals rho g n) ts).
  { rewrite in_vals_tval. clear -C HT. induction HT as [|inc ty ins ts (_ & _ & H) _ IH]; simpl; constructor; auto.
    apply (wtval_typed ls lax rho g _ _ C H). }
  split; auto. destruct (op_tyx_sound _ _ _ _ _ Hop Ho HV) as (v & Hv & _). rewrite Hv. f_equal.
  assert (Hh : holds rho g i v).
  { eapply node_holds; eauto. rewrite in_vals_tval. clear -C HT.
    induction HT as [|inc ty ins ts (A & B & H) _ IH]; simpl; constructor; auto.
    repeat (split; auto). apply (wtval_typed ls lax rho g _ _ C H). }
  destruct (wtval_typed ls lax rho g i t C Ht) as [Hh2 _]. eapply holds_fun; eauto.
Qed.

Section Loose.
  Variable lax : bool.
  Variable ls : nat -> list nat.
  Variable g : tgraph.
  Hypothesis W : loose g.
  Variable debug : bool.
  Variable feeds : list (ph_key * tv).
  Variable env : list tv.
  Variable rho : nat -> arr R.
  Hypothesis C : conform ls rho.
  Hypothesis HL : t_leaf_values g feeds env rho.

  Lemma loose_value_x i n t : nth_error g i = Some n -> n_op n <> TLeaf -> wtyped ls lax g i t ->
    value tv_shape tens_compute debug g feeds env i (inl [tval rho g i]).
  Proof.
    revert n t. induction i as [i IH] using (well_founded_induction lt_wf). intros n t Hn Ho Ht.
    destruct (wtyped_inputs ls lax g i n t Hn Ht) as [[Eo _]|(_ & ts & HT & Hop)]; [congruence|].
    assert (HA : exists xs, Forall2 (arg tv_shape tens_compute debug g feeds env) (n_inputs n) xs /\
                   map opin_val xs = in_vals rho g n).
    { rewrite in_vals_tval. clear -HT IH W HL. induction HT as [|inc ty ins ts (Hs & Hlt & Hty) _ IH2].
      - exists []. split; [constructor|reflexivity].
      - destruct IH2 as (xs & HX & HM).
        assert (HB : exists b, arg tv_shape tens_compute debug g feeds env inc b /\ opin_val b = tval rho g (in_id inc)).
        { pose proof (wtyped_lt ls lax g _ _ Hty) as Hlt2.
          apply nth_error_Some in Hlt2. destruct (nth_error g (in_id inc)) as [m|] eqn:Hm; [clear Hlt2|congruence].
          destruct (wtyped_inputs ls lax g _ m ty Hm Hty) as [[Eo ->]|(Ho & _)].
          - assert (Hsv : tval rho g (in_id inc) = TA (rho (in_id inc))).
            { unfold tval. rewrite (leaf_holds rho g _ m Hm Eo). reflexivity. }
            destruct (HL _ m Hm Eo) as [(vid & Hv & Hp & He)|[Hv Hf]].
            + eexists. split; [eapply arg_var; eauto|]. rewrite Hsv. destruct (in_mut inc); reflexivity.
            + eexists. split; [eapply arg_ph; eauto|]. auto.
          - eexists. split; [eapply arg_op|].
            + destruct (lo_op g W _ m Hm Ho). split; [exact Hm|]. split; auto.
            + apply (IH _ Hlt m ty); auto.
            + rewrite Hs. reflexivity.
            + reflexivity. }
        destruct HB as (b & Hb & Hv). exists (b :: xs). split; [constructor; auto|]. simpl. congruence. }
    destruct HA as (xs & HX & HM).
    apply (value_run _ _ _ _ _ _ i n xs [] [tval rho g i] None); auto.
    - destruct (lo_op g W i n Hn Ho). split; [exact Hn|]. split; auto.
    - unfold tens_compute. rewrite HM. destruct (wtval_eq ls lax rho g i n ts t C Hn Ho HT Hop Ht) as [_ ->]. reflexivity.
    - intros _. discriminate.
  Qed.

  Lemma loose_tensor_value_x i sh : wtyped ls lax g i (TyA sh) ->
    tensor_value tv_shape tens_compute debug g feeds env i (inl (TA (aval rho g i))).
  Proof.
    intros H. pose proof (wtyped_lt ls lax g i _ H) as Hl. apply nth_error_Some in Hl.
    destruct (nth_error g i) as [n|] eqn:Hn; [clear Hl|congruence].
    pose proof (wtval_aval ls lax rho g i sh C H) as Hsv.
    destruct (wtyped_inputs ls lax g i n _ Hn H) as [[Eo _]|(Ho & _)].
    - rewrite (holds_aval rho g i (rho i)) by (eapply leaf_holds; eauto).
      destruct (HL i n Hn Eo) as [(vid & Hv & Hp & He)|[Hv Hf]].
      + eapply tv_var; eauto.
      + eapply tv_ph; eauto.
    - rewrite <- Hsv. apply (tv_ok _ _ _ _ _ _ i (tval rho g i) []). eapply loose_value_x; eauto.
  Qed.
End Loose.

Lemma loose_tensor_value ls g : loose g -> forall debug feeds env rho, conform ls rho -> t_leaf_values g feeds env rho -> forall i sh,
  shaped ls g i sh -> tensor_value tv_shape tens_compute debug g feeds env i (inl (TA (aval rho g i))).
Proof. exact (loose_tensor_value_x false ls g). Qed.

Theorem tens_tensor_value ls g : twf ls g -> forall debug feeds env rho, conform ls rho -> t_leaf_values g feeds env rho -> forall i sh,
  shaped ls g i sh -> tensor_value tv_shape tens_compute debug g feeds env i (inl (TA (aval rho g i))).
Proof. intros W debug feeds env rho C HL i sh. apply loose_tensor_value; auto. apply (twf_loose ls). exact W. Qed.

Lemma loose_graph g : loose g -> wf_graph g /\ acyclic g.
Proof.
  intros W. split; [split|].
  - intros i j (n & inc & Hn & Hin & <-). pose proof (lo_input g W i n inc Hn Hin).
    assert (i < length g)%nat by (apply nth_error_Some; congruence). lia.
  - intros i n Hn Hs. assert (D : n_op n = TLeaf \/ n_op n <> TLeaf) by (destruct (n_op n); auto; right; discriminate).
    destruct D as [Eo|Ho]; [apply (lo_leaf g W i n Hn Eo)|]. destruct (lo_op g W i n Hn Ho) as [A B].
    unfold is_variable, is_placeholder in Hs. rewrite A, B in Hs. discriminate.
  - intros i H.
    assert (Q : forall a b, clos_trans nat (reads_from g) a b -> (b < a)%nat).
    { induction 1 as [a b (n & inc & Hn & Hin & <-)|a b c _ IH1 _ IH2]; [|lia].
      apply (lo_input g W a n inc Hn Hin). }
    specialize (Q i i H). lia.
Qed.
Lemma twf_graph ls g : twf ls g -> wf_graph g /\ acyclic g.
Proof. intros W. apply loose_graph. exact (twf_loose ls g W). Qed.
