(** The regression network: shapes, values and smoothness of what it builds. *)
From Coq Require Import String List Arith ZArith Bool Lia Reals Lra Relations.
From Coquelicot Require Import Coquelicot.
Import ListNotations.
From Verif Require Import Graph_Model Eval_Model Eval_Spec Eval_Proofs Graph_Proofs Grad_Model Grad_Spec
  Scalar_Model Scalar_Spec Scalar_Rules Scalar_Proofs.
From Verif Require Import Array_Model Array_Proofs Array_Sum Arith_Model Arith_Proofs Arith_Final Shape_Model Vjp_Spec Vjp_Proofs
  Dot_Model Dot_Spec Dot_Proofs Reduce_Model Tens_Model Tens_Spec Tens_Fwd Tens_Build Tens_Ops Tens_Grad Tens_Final Tens_Comp
  Lstm_Model Lstm_Proofs Net_Proofs Sine_Model Sine_Spec.
Local Set Bullet Behavior "Strict Subproofs".
Local Open Scope R_scope.

Lemma sum_flat n m (f : nat -> nat -> R) :
  fold_right Rplus 0 (map (fun i => f (nth 0 i 0%nat) (nth 1 i 0%nat)) (indices [n; m])) = sum_below n (fun i => sum_below m (f i)).
Proof.
  assert (App : forall a b, fold_right Rplus 0 (a ++ b) = fold_right Rplus 0 a + fold_right Rplus 0 b).
  { induction a as [|x a IH]; intros b; cbn [app fold_right]; [ring|]. rewrite IH. ring. }
  assert (Row : forall g k, fold_right Rplus 0 (map g (seq 0 k)) = sum_below k g).
  { intros g. induction k as [|k IH]; [reflexivity|]. rewrite seq_S, map_app, App, IH. cbn [map fold_right Nat.add sum_below]. ring. }
  assert (Q : forall q l, fold_right Rplus 0 (map (fun i => f (nth 0 i 0%nat) (nth 1 i 0%nat)) (flat_map (fun i => map (cons i) (flat_map (fun j => map (cons j) [[]]) q)) l)) =
    fold_right Rplus 0 (map (fun i => fold_right Rplus 0 (map (f i) q)) l)).
  { intros q. induction l as [|i l IH]; [reflexivity|]. cbn [flat_map]. rewrite map_app, App, IH. cbn [map fold_right]. f_equal. clear IH l.
    induction q as [|j q IHq]; [reflexivity|]. cbn [flat_map map app fold_right nth] in *. rewrite IHq. reflexivity. }
  cbn [indices]. rewrite Q, Row. apply sum_below_ext. intros i _. apply Row.
Qed.
Lemma sum_all_grid n m f : sum_all 0 Rplus (grid n m f) = Arr [] [sum_below n (fun i => sum_below m (f i))].
Proof. unfold sum_all. rewrite fold_left_right, Rplus_0_l. unfold grid, tab. cbn [a_data]. rewrite sum_flat. reflexivity. Qed.

Section Sine.
  Variable ls : nat -> list nat.
  Variable base : nat.
  Notation at_ := (at_ ls base).

  (** An array everywhere smooth. *)
  Definition here (s : tgraph) (t : nat) (sh : list nat) (V : (nat -> arr R) -> arr R) : Prop := at_ s t sh V (fun _ => True).
  Definition gridh (s : tgraph) (t n d : nat) (f : (nat -> arr R) -> nat -> nat -> R) : Prop := here s t [n; d] (fun rho => grid n d (f rho)).
  Lemma here_grows s s' t sh V : twf ls s -> grows s s' -> here s t sh V -> here s' t sh V.
  Proof. apply at_grows. Qed.
  Lemma gridh_values s t n d f f' : gridh s t n d f ->
    (forall rho i j, conform ls rho -> (i < n)%nat -> (j < d)%nat -> f rho i j = f' rho i j) -> gridh s t n d f'.
  Proof. intros H E. eapply at_values; [exact H|]. intros rho C. apply grid_ext. intros. apply E; auto. Qed.

  Lemma un_here u s a n d f t s' : twf ls s -> gridh s a n d f -> (u = Sin \/ u = Tanh \/ u = Square) -> (0 < n)%nat -> (0 < d)%nat ->
    a_un u a s = Some (t, s') -> twf ls s' /\ grows s s' /\ gridh s' t n d (fun rho i j => un u (f rho i j)).
  Proof.
    intros W H Hu Hn Hd Hm. pose proof H as (T & V & N).
    destruct (a_un_spec ls u a [n; d] s t s' W T Hm) as (W' & G & T' & V').
    assert (HV : forall rho, conform ls rho -> holds rho s a (TA (grid n d (f rho)))) by (intros rho C; apply (at_shape ls base s a [n; d] _ _ rho H C)).
    split; [exact W'|]. split; [exact G|]. split; [exact T'|]. split.
    - intros rho C. apply holds_aval. apply V'. eexists. split; [apply HV; exact C|]. apply grid_un.
    - intros rho x C _ Hx. apply (a_un_nice false ls rho x u a [n; d] (TA (grid n d (f rho))) s t s'); auto.
      + assert (NE : nonempty [n; d] = true) by (apply nonempty_prod; cbn; nia). cbn [op_fit]. rewrite NE. destruct Hu as [-> | [-> | ->]]; reflexivity.
      + right. split; [destruct Hu as [-> | [-> | ->]]; reflexivity|]. cbn [t_dom]. apply List.Forall_forall. intros v _. destruct Hu as [-> | [-> | ->]]; exact I.
  Qed.
  Lemma bin_here b s p q sa sb r Va Vb (F : (nat -> arr R) -> arr R) t s' : twf ls s -> here s p sa Va -> here s q sb Vb -> (b = Sub \/ b = Div) ->
    bin_ty b sa sb = Some r -> op_fit (TBin b) [TyA sa; TyA sb] = true ->
    (forall rho, conform ls rho -> tcompute (TBin b) [TA (Va rho); TA (Vb rho)] = Some (TA (F rho)) /\ t_dom (TBin b) [TA (Va rho); TA (Vb rho)]) ->
    a_bin b p q s = Some (t, s') -> twf ls s' /\ grows s s' /\ here s' t r F.
  Proof.
    intros W H1 H2 Hb BT HO HF Hm. pose proof H1 as (T & V & N). pose proof H2 as (T2 & V2 & N2).
    destruct (a_bin_spec ls b p q sa sb r s t s' W T T2 BT Hm) as (W' & G & T' & V').
    assert (HV : forall rho, conform ls rho -> holds rho s p (TA (Va rho))) by (intros rho C; apply (at_shape ls base s p sa _ _ rho H1 C)).
    assert (HW : forall rho, conform ls rho -> holds rho s q (TA (Vb rho))) by (intros rho C; apply (at_shape ls base s q sb _ _ rho H2 C)).
    split; [exact W'|]. split; [exact G|]. split; [exact T'|]. split.
    - intros rho C. apply holds_aval. apply V'. exists (TA (Va rho)), (TA (Vb rho)). split; [auto|]. split; [auto|]. apply HF. exact C.
    - intros rho x C _ Hx. apply (a_bin_nice false ls rho x b p q sa sb r (TA (Va rho)) (TA (Vb rho)) s t s'); auto.
      right. split; [destruct Hb as [-> | ->]; reflexivity|]. apply HF. exact C.
  Qed.
  Lemma sub_here s p q n d f g t s' : twf ls s -> gridh s p n d f -> gridh s q n d g -> (0 < n)%nat -> (0 < d)%nat ->
    a_bin Sub p q s = Some (t, s') -> twf ls s' /\ grows s s' /\ gridh s' t n d (fun rho i j => f rho i j - g rho i j).
  Proof.
    intros W Kp Kq Hn Hd Hm. refine (bin_here Sub s p q [n; d] [n; d] [n; d] _ _ _ t s' W Kp Kq (or_introl eq_refl) _ eq_refl _ Hm).
    - apply row_arith; auto.
    - intros rho C. split; [|cbn; auto]. cbn [tcompute]. rewrite (bin_arr_ok Sub _ _ [n; d] [n; d] [n; d]); [|apply grid_shape|apply grid_shape|apply row_arith; auto].
      cbn [otA option_map]. do 2 f_equal. apply grid_is; [apply tab_has_shape|]. intros i j Hi Hj.
      assert (B : in_bounds [n; d] [i; j]) by (apply in_bounds_pair; auto).
      unfold zip_tab. rewrite aget_tab by exact B. rewrite !(bc_idx_self _ _ B), !grid_get by auto. reflexivity.
  Qed.

  (** [mean_all] *)
  Lemma mean_here s a n d f t s' : twf ls s -> (base <= length s)%nat -> gridh s a n d f -> (0 < n)%nat -> (0 < d)%nat ->
    a_mean_all a s = Some (t, s') ->
    twf ls s' /\ grows s s' /\ here s' t [] (fun rho => Arr [] [sum_below n (fun i => sum_below d (f rho i)) / INR (n * d)]).
  Proof.
    intros W Hb H Hn Hd Hm. unfold a_mean_all in Hm. bindH Hm. rename n0 into sm, t0 into s1. bindH Hm. rename n0 into sz, t0 into s2.
    pose proof H as (T & V & N).
    assert (HV : forall rho, conform ls rho -> holds rho s a (TA (grid n d (f rho)))) by (intros rho C; apply (at_shape ls base s a [n; d] _ _ rho H C)).
    assert (TL : typedl ls s [a] [TyA [n; d]]) by (constructor; [exact T|constructor]).
    unfold a_sum_all in Heqo.
    destruct (tmk_spec ls [a] None true TSumAll _ (TyA []) s sm s1 W ltac:(discriminate) Heqo TL eq_refl) as (W1 & G1 & T1 & V1); [intros; discriminate|].
    assert (K1 : here s1 sm [] (fun rho => Arr [] [sum_below n (fun i => sum_below d (f rho i))])).
    { split; [exact T1|]. split.
      - intros rho C. apply holds_aval. apply V1. eexists. split; [constructor; [apply HV; exact C|constructor]|]. cbn [tcompute]. rewrite sum_all_grid. reflexivity.
      - intros rho x C _ Hx. apply (tmk_nice false ls rho x [a] None true TSumAll [TyA [n; d]] [TA (grid n d (f rho))] s sm s1 W Heqo TL).
        + cbn. destruct (Nat.eqb_spec n 0); [lia|]. destruct (Nat.eqb_spec d 0); [lia|]. reflexivity.
        + constructor; [apply HV; exact C|constructor].
        + intros c [<-|[]]. apply N; auto.
        + right. split; [reflexivity|]. split; [reflexivity|exact I]. }
    assert (Ha1 : gridh s1 a n d f) by (apply (here_grows s s1); auto). pose proof Ha1 as (T1a & _ & N1a).
    assert (HV1 : forall rho, conform ls rho -> holds rho s1 a (TA (grid n d (f rho)))) by (intros rho C; apply (at_shape ls base s1 a [n; d] _ _ rho Ha1 C)).
    assert (TL1 : typedl ls s1 [a] [TyA [n; d]]) by (constructor; [exact T1a|constructor]).
    destruct (tmk_spec ls [a] None false TSize _ (TyA []) s1 sz s2 W1 ltac:(discriminate) Heqo0 TL1 eq_refl) as (W2 & G2 & T2 & V2); [intros; discriminate|].
    assert (K2 : here s2 sz [] (fun rho => Arr [] [INR (n * d)])).
    { split; [exact T2|]. split.
      - intros rho C. apply holds_aval. apply V2. eexists. split; [constructor; [apply HV1; exact C|constructor]|]. cbn [tcompute grid tab a_shape prod fold_right]. rewrite Nat.mul_1_r. reflexivity.
      - intros rho x C _ Hx. apply (tmk_nice false ls rho x [a] None false TSize [TyA [n; d]] [TA (grid n d (f rho))] s1 sz s2 W1 Heqo0 TL1).
        + reflexivity.
        + constructor; [apply HV1; exact C|constructor].
        + intros c [<-|[]]. apply N1a; auto.
        + left. reflexivity. }
    destruct (bin_here Div s2 sm sz [] [] [] _ _ (fun rho => Arr [] [sum_below n (fun i => sum_below d (f rho i)) / INR (n * d)]) t s' W2 (here_grows s1 s2 _ _ _ W1 G2 K1) K2 (or_intror eq_refl) eq_refl eq_refl) as (W3 & G3 & K3); [|exact Hm|].
    - intros rho C. split; [reflexivity|]. cbn [t_dom]. intros r i HR HI. injection HR as <-. inversion HI; subst. cbn. apply not_0_INR. nia.
    - split; [exact W3|]. split; [|exact K3]. eapply grows_trans; [exact G1|]. eapply grows_trans; eauto.
  Qed.

  Variable g0 : tgraph.
  Hypothesis W0 : twf ls g0.
  Hypothesis B0 : base = length g0.
  Variables (n m : nat) (x : nat) (last : nat).
  Hypothesis (Hn : (0 < n)%nat) (Hm0 : (0 < m)%nat) (Hx : ls x = [n; m]).
  Lemma leaf_here s i sh : grows g0 s -> t_input_leaf g0 i -> ls i = sh -> here s i sh (fun rho => rho i).
  Proof. intros G H <-. apply (here_grows g0 s); auto. apply at_leaf; auto. Qed.
  Lemma mat_here s a k w c f t s' : twf ls s -> grows g0 s -> gridh s a n k f -> t_input_leaf g0 w -> ls w = [k; c] ->
    a_matmul a w s = Some (t, s') ->
    twf ls s' /\ grows s s' /\ gridh s' t n c (fun rho => product (f rho) (rho w)).
  Proof.
    intros W G K Lw Hw Hm. pose proof (leaf_here s w _ G Lw Hw) as Kw.
    assert (Bs : (base <= length s)%nat) by (apply grows_length in G; lia).
    pose proof K as (T & V & N). pose proof Kw as (Tw & Vw & Nw).
    assert (TL : typedl ls s [a; w] [TyA [n; k]; TyA [k; c]]) by (constructor; [exact T|constructor; [exact Tw|constructor]]).
    assert (HT : op_ty (TMatMul false false) [TyA [n; k]; TyA [k; c]] = Some (TyA [n; c])) by (cbn; rewrite Nat.eqb_refl; reflexivity).
    destruct (tmk_spec ls [a; w] None true (TMatMul false false) _ (TyA [n; c]) s t s' W ltac:(discriminate) Hm TL HT) as (W' & G' & T' & V'); [intros; discriminate|].
    assert (HH : forall rho, conform ls rho -> holdsl rho s [a; w] [TA (grid n k (f rho)); TA (rho w)]).
    { intros rho C. constructor; [apply (at_shape ls base s a [n; k] _ _ rho K C)|constructor; [apply (at_shape ls base s w [k; c] _ _ rho Kw C)|constructor]]. }
    split; [exact W'|]. split; [exact G'|]. split; [exact T'|]. split.
    - intros rho C. apply holds_aval. apply V'. eexists. split; [apply HH; exact C|]. pose proof (C w) as Cw. rewrite Hw in Cw. rewrite (grid_mat n k c (f rho) (rho w) Cw).
      do 2 f_equal. apply grid_ext. intros i j _ _. unfold product. rewrite (hs_sh _ _ Cw). reflexivity.
    - intros rho y C _ Hy. apply (tmk_nice false ls rho y [a; w] None true (TMatMul false false) _ [TA (grid n k (f rho)); TA (rho w)] s t s' W Hm TL).
      + reflexivity.
      + apply HH; exact C.
      + intros b [<-|[<-|[]]]; [apply N|apply Nw]; auto.
      + right. split; [reflexivity|]. split; [reflexivity|exact I].
  Qed.
  Lemma layers_here ws : forall s h k c f t s', twf ls s -> grows g0 s -> gridh s h n k f -> (0 < k)%nat ->
    (forall w, In w ws -> t_input_leaf g0 w) -> chained ls k ws last c -> tanh_layers ws h s = Some (t, s') ->
    exists e, twf ls s' /\ grows s s' /\ gridh s' t n e (fun rho => activations (map rho ws) (f rho)) /\ ls last = [e; c].
  Proof.
    induction ws as [|w ws IH]; intros s h k c f t s' W G K Hk L Ch H; cbn [tanh_layers chained map activations] in *.
    - injection H as <- <-. exists k. split; [exact W|]. split; [apply grows_refl|]. split; [exact K|exact Ch].
    - destruct Ch as (e & He & Hw & Ch). bindH H. rename n0 into z, t0 into s1. bindH H. rename n0 into z2, t0 into s2.
      destruct (mat_here s h k w e f z s1 W G K (L w (or_introl eq_refl)) Hw Heqo) as (W1 & G1 & K1).
      destruct (un_here Tanh s1 z n e _ z2 s2 W1 K1 (or_intror (or_introl eq_refl)) Hn He Heqo0) as (W2 & G2 & K2).
      pose proof (grows_trans _ _ _ G (grows_trans _ _ _ G1 G2)) as G3.
      destruct (IH s2 z2 e c _ t s' W2 G3 K2 He (fun v Hv => L v (or_intror Hv)) Ch H) as (e' & W4 & G4 & K4 & E4).
      exists e'. split; [exact W4|]. split; [eapply grows_trans; [exact G1|eapply grows_trans; eauto]|]. split; [exact K4|exact E4].
  Qed.
  Lemma sine_made ws t s' : (forall i, In i (x :: ws ++ [last]) -> t_input_leaf g0 i) -> chained ls m ws last m ->
    sine_loss x ws last g0 = Some (t, s') ->
    twf ls s' /\ grows g0 s' /\ here s' t [] (fun rho => Arr [] [sine_error n m (rho x) (map rho ws) (rho last)]).
  Proof.
    intros L Ch H. unfold sine_loss in H. bindH H. rename n0 into ta, t0 into s1. bindH H. rename n0 into h, t0 into s2.
    bindH H. rename n0 into y, t0 into s3. bindH H. rename n0 into df, t0 into s4. bindH H. rename n0 into sq, t0 into s5.
    assert (Kx : gridh g0 x n m (fun rho i j => rget (rho x) [i; j])).
    { apply (at_values ls base g0 x [n; m] (fun rho => rho x)); [apply leaf_here; auto using grows_refl; apply L; left; reflexivity|].
      intros rho C. pose proof (C x) as Cx. rewrite Hx in Cx. apply grid_is; auto. }
    destruct (un_here Sin g0 x n m _ ta s1 W0 Kx (or_introl eq_refl) Hn Hm0 Heqo) as (W1 & G1 & K1).
    destruct (layers_here ws s1 x m m _ h s2 W1 G1 (here_grows g0 s1 _ _ _ W0 G1 Kx) Hm0) as (e & W2 & G2 & K2 & E2); auto.
    { intros w Hw. apply L. right. apply in_or_app. left. exact Hw. }
    pose proof (grows_trans _ _ _ G1 G2) as G02.
    destruct (mat_here s2 h e last m _ y s3 W2 G02 K2) as (W3 & G3 & K3); auto.
    { apply L. right. apply in_or_app. right. left. reflexivity. }
    destruct (sub_here s3 y ta n m _ _ df s4 W3 K3 (here_grows s1 s3 _ _ _ W1 (grows_trans _ _ _ G2 G3) K1) Hn Hm0 Heqo2) as (W4 & G4 & K4).
    destruct (un_here Square s4 df n m _ sq s5 W4 K4 (or_intror (or_intror eq_refl)) Hn Hm0 Heqo3) as (W5 & G5 & K5).
    assert (G05 : grows g0 s5) by (eapply grows_trans; [exact G02|]; eapply grows_trans; [exact G3|]; eapply grows_trans; eauto).
    destruct (mean_here s5 sq n m _ t s' W5 ltac:(apply grows_length in G05; lia) K5 Hn Hm0 H) as (W6 & G6 & K6).
    split; [exact W6|]. split; [eapply grows_trans; eauto|]. exact K6.
  Qed.
End Sine.
