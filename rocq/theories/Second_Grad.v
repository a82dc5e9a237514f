(** Gradients of graphs that are twice differentiable are graphs that can be
    differentiated, and Hessian-vector products follow. *)
From Coq Require Import String List Arith ZArith Bool Reals Lra Lia Relations.
From Coquelicot Require Import Coquelicot.
Import ListNotations.
From Verif Require Import Graph_Model Eval_Model Eval_Spec Eval_Proofs Eval_Proofs2 Graph_Proofs Grad_Model Grad_Spec
  Grad_Path_Proofs Grad_Proofs Grad_Final Grad_Frame Scalar_Model Scalar_Spec Scalar_Rules Scalar_Proofs Scalar_Grad.
From Verif Require Import Array_Model Array_Proofs Array_Sum Arith_Model Arith_Final Vjp_Spec Vjp_Proofs
  Tens_Model Tens_Spec Tens_Fwd Tens_Build Tens_Rules Tens_Rules2 Tens_Ops Tens_Lax Tens_Grad Tens_Deriv Tens_Final Tens_Comp
  Second_Spec Second_Clean Second_Rules Hess_Model.
Local Open Scope R_scope.
Local Set Bullet Behavior "Strict Subproofs".

Lemma op_cases (o : top) : o = TLeaf \/ o <> TLeaf.
Proof. destruct o; auto; right; discriminate. Qed.
Lemma size_cases (o : top) : o = TSize \/ o <> TSize.
Proof. destruct o; auto; right; discriminate. Qed.

Section Second.
Variable ls : nat -> list nat.

Lemma fits2_fits g y : fits2 ls g -> fits ls g y.
Proof. intros H i n ts _ Hn HL. apply (H i n Hn). exact HL. Qed.

Lemma ready_clean rho g : conform ls rho -> fits2 ls g -> smooth2 ls rho g -> clean ls rho g.
Proof.
  intros C F S i n Hn. destruct (F i n Hn) as (F1 & F2 & F3). split; [exact F2|]. intros sh Hs.
  destruct (op_cases (n_op n)) as [E|Ho]; [auto|]. destruct (size_cases (n_op n)) as [E|Hz]; [auto|]. right. right.
  destruct (S i n sh Hn Hs Ho Hz) as [D1 D2]. split; auto. split; [destruct (n_op n); auto; discriminate|].
  destruct (typed_inputs ls g i n _ Hn Hs) as [[E _]|(_ & ts & HT & Hop)]; [contradiction|].
  destruct (tval_eq ls rho g i n ts (TyA sh) C Hn Ho HT Hop Hs) as [HV _]. eapply dom2_dom; eauto.
Qed.

(** Adding the sum of an output keeps the hypotheses. *)
Lemma sum_all_ready y sh s t s' : twf ls s -> typed ls s y (TyA sh) -> fits2 ls s -> a_sum_all y s = Some (t, s') ->
  fits2 ls s' /\ forall rho, conform ls rho -> smooth2 ls rho s -> smooth2 ls rho s'.
Proof.
  intros W HT F E. pose proof (a_sum_all_spec ls y sh s t s' W HT E) as (W' & G & TT & _).
  destruct (a_sum_all_node _ _ _ _ E) as (-> & n & -> & No & Ni & Nd).
  assert (Hcase : forall i m, nth_error (s ++ [n]) i = Some m -> (nth_error s i = Some m /\ (i < length s)%nat) \/ (i = length s /\ m = n)).
  { intros i m Hm. destruct (Nat.lt_ge_cases i (length s)) as [Hi|Hi].
    - left. rewrite nth_error_app1 in Hm by auto. auto.
    - right. assert (i < length (s ++ [n]))%nat by (apply nth_error_Some; congruence). rewrite app_length in H. simpl in H.
      assert (i = length s) by lia. subst i. rewrite nth_error_app2, Nat.sub_diag in Hm by lia. inv Hm. auto. }
  assert (Hback : forall i, (i < length s)%nat -> forall sh', shaped ls (s ++ [n]) i sh' -> shaped ls s i sh').
  { intros i Hi sh' Hs. unfold shaped in *. rewrite <- (t_types_prefix ls s (s ++ [n])); auto. }
  split.
  - intros i m Hm. destruct (Hcase i m Hm) as [[Hm' Hi]|[-> ->]].
    + destruct (F i m Hm') as (F1 & F2 & F3). split; auto. split.
      * intros ts HL. apply F2. rewrite <- HL. apply lookups_ext. intros inc Hinc. symmetry. apply t_types_prefix; auto.
        pose proof (twf_input ls s W i m inc Hm' Hinc). lia.
      * intros sh' Hs. apply F3. apply Hback; auto.
    + rewrite No. split; [reflexivity|]. split; [reflexivity|]. intros sh' Hs. pose proof (typed_fun ls _ _ _ _ TT Hs) as Q. inv Q. reflexivity.
  - intros rho C S i m sh' Hm Hs Ho Hz. destruct (Hcase i m Hm) as [[Hm' Hi]|[-> ->]].
    + replace (in_vals rho (s ++ [n]) m) with (in_vals rho s m); [apply (S i m sh'); auto|].
      unfold in_vals. apply map_ext_in. intros inc Hinc. rewrite (tvalues_prefix rho s (s ++ [n])); auto.
      pose proof (twf_input ls s W i m inc Hm' Hinc). lia.
    + split; [exact Nd|]. rewrite No. unfold in_vals. rewrite Ni. exact I.
Qed.
Lemma sum_alls_ready : forall ys s ys' s', twf ls s -> List.Forall (fun y => exists sh, typed ls s y (TyA sh)) ys -> fits2 ls s ->
  t_sum_alls ys s = Some (ys', s') -> fits2 ls s' /\ forall rho, conform ls rho -> smooth2 ls rho s -> smooth2 ls rho s'.
Proof.
  induction ys as [|y ys IH]; intros s ys' s' W HF F H; simpl in H.
  - inv H. auto.
  - bindH H. bindH H. inv H. inversion HF as [|? ? (sh & Hy) HF']; subst.
    destruct (sum_all_ready y sh s a s0 W Hy F E) as [F1 S1].
    pose proof (a_sum_all_spec ls _ _ _ _ _ W Hy E) as (W1 & G1 & _).
    destruct (IH s0 a0 s' W1) as [F2 S2]; auto.
    eapply Forall_impl; [|exact HF']. intros b (sh' & A). exists sh'. eapply grows_typed; eauto.
Qed.

Section Point.
Variable g : tgraph.
Hypothesis W : twf ls g.
Variable rho : nat -> arr R.
Hypothesis C : conform ls rho.
Hypothesis F : fits2 ls g.
Hypothesis Sm : smooth2 ls rho g.

Definition c_good (s : tgraph) : Prop := a_good false ls g s /\ clean ls rho s.

Lemma typed_ne i t : typed ls g i t -> ne t.
Proof.
  intros H. destruct t as [sh|]; [|exact I]. pose proof (typed_lt ls g i _ H) as Hl. apply nth_error_Some in Hl.
  destruct (nth_error g i) as [n|] eqn:Hn; [|congruence]. destruct (F i n Hn) as (_ & _ & Q). apply Q. exact H.
Qed.

Lemma c_denotes : denotes g vzero vadd (a_vjp false ls g rho) c_good (a_valid false ls g) (a_den rho) grows (a_passes g) (t_opgrad g) a_add_n.
Proof.
  destruct (a_denotes false ls g W rho C) as [D1 D2 D3 D4 D5 D6 D7 D8 D9 D10]. constructor; auto.
  - intros x l s t s' [Gs Ks] HF Hl H. destruct (D9 x l s t s' Gs HF Hl H) as (A & B & D & E). split; [split; auto|auto].
    destruct l as [|t0 l0]; [simpl in Hl; lia|]. pose proof HF as HF0. inversion HF0 as [|? ? (_ & sh & A0 & _) _]; subst.
    eapply (a_add_n_clean ls rho C _ sh); [apply Gs|exact Ks| |exact H].
    eapply Forall_impl; [|exact HF]. intros z (_ & sh' & A' & B'). apply wtyped_typed in B'. pose proof (typed_fun _ _ _ _ _ A0 A') as Q. injection Q as <-. exact B'.
  - intros y gy s gxs s' [Gs Ks] Hv H. destruct (D10 y gy s gxs s' Gs Hv H) as (A & B & D). split; [split; auto|auto].
    destruct Gs as [[Ws _] Gs]. destruct Hv as (Hfit & sh & Hy & Hgy). apply wtyped_typed in Hgy. unfold t_opgrad in H.
    destruct (nth_error g y) as [n|] eqn:En; [|discriminate].
    destruct (trule (n_op n) (length (n_inputs n))) as [rs|] eqn:Er; [|discriminate].
    destruct (typed_inputs ls g y n (TyA sh) En Hy) as [[Eo _]|(Ho & ts & HT & Hop)].
    { rewrite Eo in Er. discriminate. }
    pose proof (typed_lookups ls g y n ts HT) as HL. destruct (F y n En) as (F1 & F2 & F3).
    destruct (tval_eq ls rho g y n ts (TyA sh) C En Ho HT Hop Hy) as [HV HE]. rewrite (tval_aval ls rho g y sh C Hy) in HE.
    assert (Hlen : length (n_inputs n) = length ts) by (eapply Forall2_len; eauto).
    assert (HTs : typedl ls s (map in_id (n_inputs n)) ts).
    { clear -HT Gs. unfold typedl. induction HT as [|inc ty ins ts (_ & _ & Hi) _ IH]; simpl; constructor; auto. eapply grows_typed; eauto. }
    assert (HVs : holdsl rho s (map in_id (n_inputs n)) (in_vals rho g n)).
    { rewrite in_vals_tval. clear -HT Gs C. unfold holdsl. induction HT as [|inc ty ins ts (_ & _ & Hi) _ IH]; simpl; constructor; auto.
      eapply grows_holds; eauto. apply (tval_typed ls rho g _ _ C Hi). }
    assert (HN : List.Forall ne ts).
    { clear -HT F. induction HT as [|inc ty ins ts (_ & _ & Hi) _ IH]; constructor; auto. eapply typed_ne; eauto. }
    destruct (typed_aval ls rho s gy sh C Hgy) as [Hgh Hgs].
    refine (build_exprs_clean ls rho C (map in_id (n_inputs n)) ts (in_vals rho g n) y gy (TyA sh) (TyA sh) (TA (aval rho g y)) (TA (aval rho s gy))
              rs s gxs s' Ws Ks HTs _ Hgy HVs _ Hgh _ H).
    + eapply grows_typed; eauto.
    + eapply grows_holds; eauto. apply (typed_aval ls rho g y sh C Hy).
    + intros p e Hp. rewrite Hlen in Er.
      destruct (op_correct (n_op n) ts (in_vals rho g n) sh (aval rho g y) Hop (F2 ts HL) HV HE) as (K & HK).
      destruct (cr_rule _ _ _ _ _ _ HK rs p e Er Hp) as (shp & _ & Hety & _). exists (TyA shp). split; [exact Hety|].
      apply (rules_again (n_op n) ts (in_vals rho g n) sh (aval rho g y) (aval rho s gy) rs p e F1 Hop (F2 ts HL) HN (F3 sh Hy)); auto.
      destruct (size_cases (n_op n)) as [Q|Q]; [rewrite Q; exact I|]. apply (Sm y n sh En Hy Ho Q).
Qed.

Lemma grad_clean pop debug fuel ys xs l g' log : heap_pop g (pop g) ->
  NoDup ys -> (forall y, In y ys -> differentiable g y /\ shaped ls g y []) ->
  NoDup xs -> (forall x, In x xs -> t_input_leaf g x /\ ~ In x ys) ->
  t_grad_with_default pop debug fuel ys xs None g = Ok (l, g', log) -> clean ls rho g'.
Proof.
  intros Hpop Nys Hys Nxs Hxs H. unfold t_grad_with_default in H.
  assert (Hacc : forall x, In x xs -> accum_once g ys x).
  { intros x Hx. left. destruct (Hxs x Hx) as [Hl Hn]. split; auto. apply (t_leaf_facts ls g x W Hl). }
  assert (E : grad_with_default g (t_opgrad g) a_add_n (a_one None) (a_zeros xs) (pop g) debug fuel ys xs None g = Ok (l, g', log)).
  { rewrite <- H. unfold grad_with_default, a_one. destruct (no_outputs ys); auto.
    destruct (compute_gradients _ _ _ _ _ _ _ _ _ _ _) as [st| |]; auto.
    rewrite (extract_all_zeros a_add_n (a_zeros xs) a_zeros_like xs); auto.
    intros x s0 Hx. unfold a_zeros. destruct (in_dec Nat.eq_dec x xs); [reflexivity|contradiction]. }
  assert (HT : forall x, In x xs -> fits ls g x /\ exists sh, typed ls g x (TyA sh)).
  { intros x Hx. destruct (t_leaf_facts ls g x W (proj1 (Hxs x Hx))) as (_ & T & _ & Q). eauto. }
  assert (Q : c_good g').
  { eapply (grad_good g vzero v_one vadd (a_vjp false ls g rho) c_good (a_valid false ls g) (a_den rho) grows (a_passes g)
       (t_opgrad g) a_add_n (a_one None) (a_zeros xs) (pop g) debug ys xs); eauto using a_ranked, c_denotes.
    - intros y Hy. apply (Hys y Hy).
    - intros s t s' [Gs Ks] Hb. destruct (a_one_ok false ls g rho ys None) with (s := s) (t := t) (s' := s') as (A & B & D); auto.
      { intros _ y Hy. split; [apply fits2_fits; exact F|apply (Hys y Hy)]. }
      split; [split; auto|auto]. eapply (a_scalar_clean ls rho); [apply Gs|exact Ks|exact Hb].
    - intros x s t s' [Gs Ks] Hb. destruct (a_zeros_ok false ls g rho C xs HT x s t s' Gs Hb) as (A & B & D).
      split; [split; auto|auto]. unfold a_zeros in Hb. destruct (in_dec Nat.eq_dec x xs) as [Hx|]; [|discriminate].
      destruct (HT x Hx) as (_ & sh & Hsh). eapply (a_zeros_like_clean ls rho C x sh); [apply Gs|exact Ks| |exact Hb].
      eapply grows_typed; [apply Gs|exact Hsh].
    - split; [split; [apply sound_false; exact W|apply grows_refl]|]. apply ready_clean; auto.
    - reflexivity. }
  apply Q.
Qed.
End Point.

Lemma t_grad_clean rho pop debug fuel ys xs g l g' log : twf ls g -> conform ls rho -> fits2 ls g -> smooth2 ls rho g ->
  (forall g, heap_pop g (pop g)) -> (forall y, In y ys -> exists sh, shaped ls g y sh) ->
  NoDup xs -> (forall x, In x xs -> t_input_leaf g x) ->
  t_grad pop debug fuel ys xs g = Ok (l, g', log) -> clean ls rho g'.
Proof.
  intros W C F S Hpop Hys Nxs Hxs H. unfold t_grad in H.
  destruct (t_sum_alls ys g) as [[ys' g1]|] eqn:Hsum; [|discriminate].
  assert (HY : List.Forall (fun y => exists sh, typed ls g y (TyA sh)) ys) by (apply Forall_forall; exact Hys).
  destruct (t_sum_alls_spec ls ys g ys' g1 W HY Hsum) as (W1 & G1 & ND & HF).
  destruct (sum_alls_ready ys g ys' g1 W HY F Hsum) as [F1 S1].
  eapply (grad_clean g1 W1 rho C F1 (S1 rho C S) pop debug fuel ys' xs); eauto.
  - intros y' Hy'. apply In_nth_error in Hy'. destruct Hy' as (k & Hk).
    destruct (Forall2_nth2 _ _ _ _ _ HF Hk) as (y & Hy & Hle & N & _ & n & Hn & Hsn). split; [|exact N].
    exists n; split; auto. apply Hsn.
  - intros x Hx. destruct (Hxs x Hx) as (n & Hn & A & B). split.
    + exists n. split; [eapply grows_nth; eauto|auto].
    + intros Hin. apply In_nth_error in Hin. destruct Hin as (k & Hk).
      destruct (Forall2_nth2 _ _ _ _ _ HF Hk) as (y & Hy & Hle & _).
      assert (x < length g)%nat by (apply nth_error_Some; congruence). lia.
Qed.

(** The products of gradients and vectors. *)
Lemma products_sum sh a b : nonempty sh = true -> has_shape sh a -> has_shape sh b ->
  elements_sum (zip_tab Mul sh sh sh a b) = dot a b.
Proof.
  intros NE Ha Hb. rewrite (dot_sum sh) by auto. unfold elements_sum, zip_tab, tab, sumf. cbn [a_data].
  rewrite (map_ext_in _ (fun i => rget a i * rget b i)).
  - induction (indices sh) as [|i l IH]; simpl; [reflexivity|]. rewrite IH. reflexivity.
  - intros i Hi. apply indices_in in Hi. simpl. rewrite !bc_idx_self by auto. reflexivity.
Qed.
Lemma products_ok rho : conform ls rho -> forall shs gs vs s ps s', twf ls s -> clean ls rho s ->
  Forall2 (fun sh t => nonempty sh = true /\ typed ls s t (TyA sh)) shs gs -> Forall2 (fun sh t => typed ls s t (TyA sh)) shs vs ->
  t_products gs vs s = Some (ps, s') ->
  twf ls s' /\ grows s s' /\ clean ls rho s' /\ length ps = length gs /\
  Forall2 (fun sh p => typed ls s' p (TyA sh)) shs ps /\
  forall rho', conform ls rho' -> forall k p t v, nth_error ps k = Some p -> nth_error gs k = Some t -> nth_error vs k = Some v ->
    elements_sum (aval rho' s' p) = dot (aval rho' s t) (aval rho' s v).
Proof.
  intros C. induction shs as [|sh shs IH]; intros gs0 vs0 s ps s' W K HG0 HV0 H;
    [inversion HG0; inversion HV0; subst|
     inversion HG0 as [|? t ? gs [NE T1] HG]; inversion HV0 as [|? v ? vs T2 HV]; subst]; simpl in H.
  - inv H. split; auto. split; [apply grows_refl|]. split; auto. split; auto. split; [constructor|]. intros rho' _ k p t v Hk. destruct k; discriminate.
  - bindH H. bindH H. inv H.
    assert (HB : bin_ty Mul sh sh = Some sh) by (simpl; apply arith_same; exact NE).
    destruct (a_bin_spec ls Mul t v sh sh sh s a s0 W T1 T2 HB E) as (W1 & G1 & TP & VP).
    destruct (typed_aval ls rho s t sh C T1) as [Ht _]. destruct (typed_aval ls rho s v sh C T2) as [Hv _].
    assert (K1 : clean ls rho s0).
    { eapply (a_bin_clean ls rho C Mul t v sh sh sh); [exact W|exact K|exact T1|exact T2|exact HB|exact Ht|exact Hv|reflexivity|apply free_bin_dom; reflexivity|exact E]. }
    destruct (IH gs vs s0 a0 s' W1 K1) as (W2 & G2 & K2 & L2 & T3 & V2); auto.
    { eapply Forall2_imp; [|exact HG]. intros z z' [A B]. split; auto. eapply grows_typed; eauto. }
    { eapply Forall2_imp; [|exact HV]. intros z z' A. eapply grows_typed; eauto. }
    split; auto. split; [eapply grows_trans; eauto|]. split; auto. split; [simpl; congruence|].
    split; [constructor; auto; eapply grows_typed; eauto|].
    intros rho' C' k p t' v' Hp Ht' Hv'. destruct k as [|k]; simpl in *.
    + inv Hp. inv Ht'. inv Hv'. destruct (typed_aval ls rho' s t' sh C' T1) as [A1 B1]. destruct (typed_aval ls rho' s v' sh C' T2) as [A2 B2].
      rewrite (holds_aval rho' s' p (zip_tab Mul sh sh sh (aval rho' s t') (aval rho' s v'))); [apply products_sum; auto|].
      eapply grows_holds; [exact G2|]. apply VP. exists (TA (aval rho' s t')), (TA (aval rho' s v')). split; auto. split; auto.
      pose proof (bin_arr_ok Mul _ _ sh sh sh B1 B2 HB) as Q. simpl in Q. rewrite Q. reflexivity.
    + rewrite (V2 rho' C' k p t' v' Hp Ht' Hv').
      assert (HT : forall i, In i gs \/ In i vs -> (i < length s)%nat).
      { intros i [Hi|Hi]; apply In_nth_error in Hi; destruct Hi as (j & Hj).
        - destruct (Forall2_nth2 _ _ _ _ _ HG Hj) as (b & _ & _ & Hb). eapply typed_lt; exact Hb.
        - destruct (Forall2_nth2 _ _ _ _ _ HV Hj) as (b & _ & Hb). eapply typed_lt; exact Hb. }
      rewrite (grows_aval rho' s s0 t'), (grows_aval rho' s s0 v') by (auto; apply HT; eauto using nth_error_In). reflexivity.
Qed.

Lemma sum_by_index (f : nat -> R) (h : nat -> R) : forall l k, (forall j p, nth_error l j = Some p -> f p = h (k + j)%nat) ->
  fold_right Rplus 0 (map f l) = fold_right Rplus 0 (map h (seq k (length l))).
Proof.
  induction l as [|p l IH]; intros k H; simpl; [reflexivity|]. rewrite (H 0%nat p eq_refl), Nat.add_0_r. f_equal.
  apply IH. intros j q Hj. rewrite (H (S j) q Hj). f_equal. lia.
Qed.

Theorem hvp_derivative pop debug fuel ys xs vs g l g' log rho : twf ls g -> (forall g, heap_pop g (pop g)) ->
  fits2 ls g -> (forall y, In y ys -> exists sh, shaped ls g y sh) ->
  NoDup xs -> (forall x, In x xs -> t_input_leaf g x) ->
  Forall2 (fun x v => shaped ls g v (ls x)) xs vs ->
  conform ls rho -> smooth2 ls rho g ->
  t_hvp pop debug fuel ys xs vs g = Ok (l, g', log) ->
  twf ls g' /\ grows g g' /\
  Forall2 (fun x r => shaped ls g' (fst r) (ls x) /\
    forall u eps, has_shape (ls x) u -> 0 < eps ->
      (forall s, Rabs s < eps -> smooth2 ls (put rho x (step (rho x) u s)) g) ->
      (forall v, In v vs -> ~ depends g v x) ->
      exists slope : nat -> R -> R,
        (forall s j xj vj, Rabs s < eps -> nth_error xs j = Some xj -> nth_error vs j = Some vj ->
           let at_s := put rho x (step (rho x) u s) in
           derivable_pt_lim (fun t => fold_right Rplus 0
             (map (fun y => elements_sum (aval (put at_s xj (step (at_s xj) (aval rho g vj) t)) g y)) ys)) 0 (slope j s)) /\
        derivable_pt_lim (fun s => fold_right Rplus 0 (map (fun j => slope j s) (seq 0 (length xs)))) 0
          (dot (aval rho g' (fst r)) u)) xs l.
Proof.
  intros W Hpop F Hys Nx Hxs Hvs C S H. unfold t_hvp in H.
  destruct (t_grad pop debug fuel ys xs g) as [[[l1 g1] log1]| |] eqn:E1; try discriminate.
  destruct (t_products (map fst l1) vs g1) as [[ps g2]|] eqn:E2; [|discriminate].
  destruct (tgrad_derivative pop debug fuel ys xs ls g l1 g1 log1 W Hpop) as (W1 & G1 & D1); auto.
  { intros y Hy. split; [apply fits2_fits; exact F|auto]. }
  pose proof (t_grad_clean rho pop debug fuel ys xs g l1 g1 log1 W C F S Hpop Hys Nx Hxs E1) as K1.
  assert (HG : Forall2 (fun sh t => nonempty sh = true /\ typed ls g1 t (TyA sh)) (map ls xs) (map fst l1)).
  { assert (HN : forall x, In x xs -> nonempty (ls x) = true).
    { intros x Hx. destruct (t_leaf_facts ls g x W (Hxs x Hx)) as (_ & T & _). exact (typed_ne g F x _ T). }
    clear -D1 HN. induction D1 as [|x r xs l [A _] _ IH]; simpl; constructor.
    - split; [apply HN; simpl; auto|exact A].
    - apply IH. intros; apply HN; simpl; auto. }
  assert (HV : Forall2 (fun sh t => typed ls g1 t (TyA sh)) (map ls xs) vs).
  { clear -Hvs G1. induction Hvs as [|x v xs vs A _ IH]; simpl; constructor; auto. eapply grows_typed; eauto. }
  destruct (products_ok rho C _ _ _ _ _ _ W1 K1 HG HV E2) as (W2 & G2 & K2 & L2 & T2 & V2).
  assert (G02 : grows g g2) by (eapply grows_trans; eauto).
  destruct (tgrad_derivative pop debug fuel ps xs ls g2 l g' log W2 Hpop) as (W3 & G3 & D3); auto.
  { intros p Hp. split; [apply (clean_fits ls rho); exact K2|]. apply In_nth_error in Hp. destruct Hp as (k & Hk).
    destruct (Forall2_nth2 _ _ _ _ _ T2 Hk) as (sh & _ & Q). eauto. }
  { intros x Hx. destruct (Hxs x Hx) as (n & Hn & Q). exists n. split; [eapply grows_nth; eauto|exact Q]. }
  split; [exact W3|]. split; [eapply grows_trans; eauto|].
  apply (Forall2_impl_in _ _ _ _) with (2 := D3). intros x r Hx [Sr Dr]. split; [exact Sr|].
  intros u eps Hu He Hs Hdep. set (at_s := fun s => put rho x (step (rho x) u s)).
  assert (Cs : forall s, conform ls (at_s s)).
  { intros s. apply (bend_conform ls rho C x u Hu). }
  exists (fun j s => dot (aval (at_s s) g1 (nth j (map fst l1) 0%nat)) (aval rho g (nth j vs 0%nat))). split.
  - intros s j xj vj Hse Hj Hvj. cbv zeta. fold (at_s s).
    destruct (Forall2_nth _ _ _ _ _ D1 Hj) as (r1 & Hr1 & S1 & Q1).
    rewrite (nth_error_nth _ _ _ (map_nth_error fst _ _ Hr1)), (nth_error_nth _ _ _ Hvj).
    destruct (Forall2_nth _ _ _ _ _ Hvs Hj) as (v' & Hv' & Sv). rewrite Hvj in Hv'. inv Hv'.
    apply (Q1 (at_s s) (aval rho g v') (Cs s)).
    + apply (typed_aval ls rho g v' _ C Sv).
    + intros y Hy. apply (clean_smooth ls (at_s s)); auto. apply ready_clean; auto. apply Hs. exact Hse.
  - assert (Sp : forall y, In y ps -> t_smooth ls g2 rho x y) by (intros y _; apply (clean_smooth ls rho); auto).
    specialize (Dr rho u C Hu Sp). apply is_derive_Reals in Dr. apply is_derive_Reals.
    eapply is_derive_fext; [|exact Dr]. intros s. cbv beta. fold (at_s s).
    assert (EL : length ps = length xs).
    { rewrite L2, map_length. symmetry. eapply Forall2_len; eauto. }
    rewrite <- EL. symmetry. apply (sum_by_index _ (fun j => dot (aval (at_s s) g1 (nth j (map fst l1) 0%nat)) (aval rho g (nth j vs 0%nat)))).
    intros j p Hp. simpl. assert (Hlt : (j < length xs)%nat) by (rewrite <- EL; apply nth_error_Some; congruence).
    destruct (nth_error xs j) as [xj|] eqn:Hxj; [|apply nth_error_None in Hxj; lia].
    destruct (Forall2_nth _ _ _ _ _ D1 Hxj) as (r1 & Hr1 & S1 & _).
    destruct (Forall2_nth _ _ _ _ _ Hvs Hxj) as (v & Hv & Sv).
    rewrite (V2 (at_s s) (Cs s) j p (fst r1) v Hp (map_nth_error fst _ _ Hr1) Hv).
    rewrite (nth_error_nth _ _ _ (map_nth_error fst _ _ Hr1)), (nth_error_nth _ _ _ Hv). f_equal.
    rewrite (grows_aval (at_s s) g g1 v G1) by (eapply typed_lt; exact Sv).
    pose proof (tval_indep ls g rho C x u Hu s v _ Sv (Hdep v (nth_error_In _ _ Hv))) as Q.
    rewrite (tval_aval ls rho g v _ C Sv), (tval_aval ls (bend rho x u s) g v _ (Cs s) Sv) in Q. injection Q as Q. exact Q.
Qed.
End Second.
