(** Property C78: tensordot and its gradients on array graphs. *)
From Coq Require Import String List Arith ZArith NArith Bool Reals Lra Lia Relations Permutation.
Import ListNotations.
From Verif Require Import Graph_Model Eval_Model Eval_Spec Eval_Proofs Eval_Proofs2 Graph_Proofs Grad_Model Grad_Spec
  Grad_Examples Scalar_Model Scalar_Spec Scalar_Proofs P_Eval.
From Verif Require Import Array_Model Array_Proofs Array_Sum Arith_Model Arith_Proofs Arith_Final Vjp_Spec Vjp_Proofs Reduce_Model Reduce_Spec Reduce_Proofs
  Shape_Model Shape_Spec Shape_Proofs Shape_Proofs3 Dot_Model Dot_Spec Dot_Proofs
  Tens_Model Tens_Spec Tens_Fwd Tens_Fwd2 Tens_Build Tens_Final Tens_Rules Tens_Rules5 Tens_Examples Tens_Comp Comp_Model Comp_Spec Comp_Proofs P_Comp Tdot_Model.
Local Open Scope R_scope.
Local Set Bullet Behavior "Strict Subproofs".

Lemma plain_of_nat l : plain_indices (map Z.of_nat l) = Some l.
Proof. induction l as [|k l IH]; [reflexivity|]. simpl. destruct (Z.ltb_spec (Z.of_nat k) 0); [lia|]. rewrite IH. simpl. rewrite Nat2Z.id. reflexivity. Qed.
Lemma perm_of_ok n p : Permutation p (seq 0 n) -> perm_of n false (map Z.of_nat p) = Some p.
Proof.
  intros P. assert (L : length p = n) by (rewrite (Permutation_length P), seq_length; reflexivity).
  unfold perm_of. rewrite map_length, L, Nat.eqb_refl, plain_of_nat. rewrite is_perm_ok by (rewrite L; exact P). rewrite andb_true_r.
  replace (forallb (fun k => (k <? n)%nat) p) with true; [reflexivity|]. symmetry. apply forallb_forall. intros k Hk. apply Nat.ltb_lt. apply (Permutation_in _ P) in Hk. apply in_seq in Hk. lia.
Qed.
Lemma names_bound n z x : Forall2 (names_axis n) z x -> List.Forall (fun k => (k < n)%nat) x.
Proof. intros F. induction F as [|u k z x [H _] F IH]; constructor; auto. Qed.

Section Td.
Variables (tout tgy : ty) (vo vg : tv).
(** One operand turned into a matrix. *)
Lemma matrix_good ts vs i sh x p q : nth_error ts i = Some (TyA sh) -> nth_error vs i = Some (TA x) -> has_shape sh x -> Permutation (p ++ q) (seq 0 (length sh)) ->
  exists r, good ts tout tgy vs vo vg True [] [] (as_matrix_expr i (p ++ q) [prod (at_axes p sh); prod (at_axes q sh)]) [prod (at_axes p sh); prod (at_axes q sh)] r /\
    forall t, transpose 0 false (map Z.of_nat (p ++ q)) x = Some t -> reshape (map Z.of_nat [prod (at_axes p sh); prod (at_axes q sh)]) t = Some r.
Proof.
  intros Ht Hv Hx P. assert (Sx := hs_sh _ _ Hx). assert (Wx : wf x) by (apply (has_shape_wf sh); exact Hx).
  destruct (as_matrix x p q Wx) as (t & Et & r & Er & Sr & Wr & _); [rewrite Sx; exact P|]. rewrite Sx in *.
  exists r. split; [|intros t' E; rewrite Et in E; injection E as <-; exact Er].
  constructor.
  - unfold as_matrix_expr. cbn [ety]. rewrite Ht. unfold ety_op. cbn [op_ty]. rewrite (perm_of_ok _ _ P). cbn [option_map negb is_leaf stored_in stored_ok andb].
    change (map (fun k => nth k sh 0%nat) (p ++ q)) with (at_axes (p ++ q) sh).
    rewrite (reshape_dims_ok _ _ _ (plain_shape [prod (at_axes p sh); prod (at_axes q sh)])).
    + rewrite prod_at. replace (_ * _ =? _)%nat with true; [reflexivity|]. symmetry. apply Nat.eqb_eq. cbn [prod fold_right]. lia.
    + rewrite prod_at. cbn [prod fold_right]. lia.
  - rewrite <- Sr. split; [reflexivity|exact Wr].
  - unfold as_matrix_expr. cbn [eeval]. rewrite Hv. cbn [tcompute]. rewrite Et. cbn [otA option_map]. rewrite Er. reflexivity.
  - unfold as_matrix_expr. cbn [efitb ety]. rewrite Ht. unfold ety_op. cbn [op_ty]. rewrite (perm_of_ok _ _ P). reflexivity.
  - intros _. unfold as_matrix_expr. cbn [edomb]. repeat split; intros; right; split; auto; exact I.
Qed.
Lemma tdot_good sa sb za zb xa xb x y : has_shape sa x -> has_shape sb y ->
  Forall2 (names_axis (length sa)) za xa -> Forall2 (names_axis (length sb)) zb xb -> NoDup xa -> NoDup xb -> at_axes xa sa = at_axes xb sb ->
  let fa := others (length sa) xa in let fb := others (length sb) xb in
  let e := tdot_expr (fa ++ xa) (xb ++ fb) [prod (at_axes fa sa); prod (at_axes xa sa)] [prod (at_axes xb sb); prod (at_axes fb sb)] (at_axes fa sa ++ at_axes fb sb) in
  tdot_pre sa sb za zb = Some (fa ++ xa, xb ++ fb, [prod (at_axes fa sa); prod (at_axes xa sa)], [prod (at_axes xb sb); prod (at_axes fb sb)], at_axes fa sa ++ at_axes fb sb) /\
  exists z, good [TyA sa; TyA sb] tout tgy [TA x; TA y] vo vg True [] [] e (at_axes fa sa ++ at_axes fb sb) z /\ contraction x y xa xb z.
Proof.
  intros Hx Hy Fa Fb Na Nb K fa fb e. assert (Sx := hs_sh _ _ Hx). assert (Sy := hs_sh _ _ Hy).
  pose proof (names_bound _ _ _ Fa) as Ba. pose proof (names_bound _ _ _ Fb) as Bb.
  assert (FB : forall n x, List.Forall (fun k => (k < n)%nat) x -> forallb (fun k => (k <? n)%nat) x = true).
  { intros n l F. apply forallb_forall. rewrite Forall_forall in F. intros k Hk. apply Nat.ltb_lt. auto. }
  assert (EP : tdot_pre sa sb za zb = Some (fa ++ xa, xb ++ fb, [prod (at_axes fa sa); prod (at_axes xa sa)], [prod (at_axes xb sb); prod (at_axes fb sb)], at_axes fa sa ++ at_axes fb sb)).
  { unfold tdot_pre. rewrite (normalize_names _ _ _ Fa), (normalize_names _ _ _ Fb). unfold bind, tensordot_pre. rewrite (FB _ _ Ba), (FB _ _ Bb), <- !others_free. reflexivity. }
  split; [exact EP|].
  destruct (tensordot_ok x y za zb xa xb) as (z & Ez & Cz); auto; try (rewrite ?Sx, ?Sy; assumption); try (apply (has_shape_wf sa); assumption); try (apply (has_shape_wf sb); assumption).
  exists z. split; [|exact Cz].
  destruct (matrix_good [TyA sa; TyA sb] [TA x; TA y] 0 sa x fa xa eq_refl eq_refl Hx (others_perm _ _ Na Ba)) as (ra & Ga & Ra).
  assert (Pb : Permutation (xb ++ fb) (seq 0 (length sb))) by (etransitivity; [apply Permutation_app_comm|apply others_perm; auto]).
  destruct (matrix_good [TyA sa; TyA sb] [TA x; TA y] 1 sb y xb fb eq_refl eq_refl Hy Pb) as (rb & Gb & Rb).
  unfold tdot_pre in EP. unfold tensordot in Ez. rewrite Sx, Sy in Ez. unfold bind in EP, Ez.
  destruct (normalize_axes (length sa) za) as [xa'|]; [|discriminate]. destruct (normalize_axes (length sb) zb) as [xb'|]; [|discriminate].
  destruct (tensordot_pre sa xa' false) as [[[pa na] fra]|]; [|discriminate]. destruct (tensordot_pre sb xb' true) as [[[pb nb] frb]|]; [|discriminate].
  injection EP as -> -> -> -> Ef. rewrite Ef in Ez.
  destruct (transpose 0 false (map Z.of_nat (fa ++ xa)) x) as [ta|]; [|discriminate]. rewrite (Ra ta eq_refl) in Ez.
  destruct (transpose 0 false (map Z.of_nat (xb ++ fb)) y) as [tb|]; [|discriminate]. rewrite (Rb tb eq_refl) in Ez.
  destruct (ok (matmul 0 Rplus Rmult false false ra rb)) as [m|] eqn:Em; [|discriminate].
  destruct Ga as [A1 A2 A3 A4 A5], Gb as [B1 B2 B3 B4 B5]. specialize (A5 I). specialize (B5 I).
  assert (K' : prod (at_axes xa sa) = prod (at_axes xb sb)) by (rewrite K; reflexivity).
  assert (TM : ety [TyA sa; TyA sb] tout tgy [] (EOp2 (TMatMul false false) SNone (as_matrix_expr 0 (fa ++ xa) [prod (at_axes fa sa); prod (at_axes xa sa)]) (as_matrix_expr 1 (xb ++ fb) [prod (at_axes xb sb); prod (at_axes fb sb)]))
     = Some (TyA [prod (at_axes fa sa); prod (at_axes fb sb)])).
  { cbn [ety]. rewrite A1, B1. unfold ety_op. cbn [op_ty]. rewrite K', Nat.eqb_refl. reflexivity. }
  assert (EM : eeval [TA x; TA y] vo vg [] (EOp2 (TMatMul false false) SNone (as_matrix_expr 0 (fa ++ xa) [prod (at_axes fa sa); prod (at_axes xa sa)]) (as_matrix_expr 1 (xb ++ fb) [prod (at_axes xb sb); prod (at_axes fb sb)]))
     = Some (TA m)).
  { cbn [eeval]. rewrite A3, B3. cbn [tcompute]. rewrite Em. reflexivity. }
  constructor.
  - unfold e, tdot_expr. cbn [ety] in TM |- *. rewrite TM. unfold ety_op. cbn [op_ty].
    rewrite (reshape_dims_ok _ _ _ (plain_shape (at_axes fa sa ++ at_axes fb sb))).
    + rewrite prod_app. replace (_ =? _)%nat with true; [reflexivity|]. symmetry. apply Nat.eqb_eq. cbn [prod fold_right]. lia.
    + rewrite prod_app. cbn [prod fold_right]. lia.
  - destruct Cz as (Cs & Cl & _). rewrite Sx, Sy in Cs. unfold fa, fb. rewrite <- Cs. split; [reflexivity|exact Cl].
  - unfold e, tdot_expr. cbn [eeval] in EM |- *. rewrite EM. cbn [tcompute]. rewrite Ez. reflexivity.
  - unfold e, tdot_expr. cbn [efitb]. cbn [efitb] in A4, B4. rewrite A4, B4, A1, B1. cbn [op_fit andb negb]. cbn [ety] in TM. cbn [ety]. rewrite TM. reflexivity.
  - intros _. unfold e, tdot_expr. cbn [edomb]. split; [split; [exact A5|split; [exact B5|]]|split; [exact I|]]; intros; right; split; auto; exact I.
Qed.
End Td.

(** [tensordot] of tensors of any shapes whose contracted axes (named by distinct, possibly negative numbers) have equal
    sizes: the new tensor has the shape and the elements of the contraction, earlier tensors keep theirs. *)
Theorem C78_value :
  forall (ls : nat -> list nat) (s s' : tgraph) (a b t : nat) (sa sb : list nat) (za zb : list Z) (xa xb : list nat),
  twf ls s -> shaped ls s a sa -> shaped ls s b sb ->
  Forall2 (names_axis (length sa)) za xa -> Forall2 (names_axis (length sb)) zb xb -> NoDup xa -> NoDup xb -> at_axes xa sa = at_axes xb sb ->
  build_tensordot sa sb za zb a b s = Some (t, s') ->
  twf ls s' /\ (exists new, s' = s ++ new) /\
  shaped ls s' t (at_axes (others (length sa) xa) sa ++ at_axes (others (length sb) xb) sb) /\
  forall rho, conform ls rho -> contraction (aval rho s a) (aval rho s b) xa xb (aval rho s' t).
Proof.
  intros ls s s' a b t sa sb za zb xa xb W Ha Hb Fa Fb Na Nb K HB.
  assert (HC0 : conform ls (fun i => full (ls i) 0)) by (intros i; apply full_shape).
  assert (HG : forall rho, conform ls rho -> has_shape sa (aval rho s a) /\ has_shape sb (aval rho s b) /\ holds rho s a (TA (aval rho s a)) /\ holds rho s b (TA (aval rho s b))).
  { intros rho C. destruct (typed_aval ls rho s a sa C Ha), (typed_aval ls rho s b sb C Hb). auto. }
  destruct (HG _ HC0) as (A0 & B0 & _).
  destruct (tdot_good (TyA sa) (TyA sa) (TA (full sa 0)) (TA (full sa 0)) sa sb za zb xa xb _ _ A0 B0 Fa Fb Na Nb K) as (EP & z0 & G0 & _).
  unfold build_tensordot in HB. rewrite EP in HB.
  assert (TL : typedl ls s [a; b] [TyA sa; TyA sb]) by (repeat constructor; auto).
  destruct (build_expr_spec ls [a; b] [TyA sa; TyA sb] a a (TyA sa) (TyA sa) _ [] [] s t s' (TyA (at_axes (others (length sa) xa) sa ++ at_axes (others (length sb) xb) sb)) W TL Ha Ha (Forall2_nil _)
             (g_ty _ _ _ _ _ _ _ _ _ _ _ _ G0) HB) as (W' & G' & T' & V').
  split; [exact W'|]. split; [exact G'|]. split; [exact T'|]. intros rho C. destruct (HG rho C) as (A1 & B1 & A2 & B2).
  destruct (tdot_good (TyA sa) (TyA sa) (TA (aval rho s a)) (TA (aval rho s a)) sa sb za zb xa xb _ _ A1 B1 Fa Fb Na Nb K) as (_ & z & G1 & Cz).
  rewrite (holds_aval rho s' t z); [exact Cz|]. apply V'. split; [exact C|]. exists [TA (aval rho s a); TA (aval rho s b)], (TA (aval rho s a)), (TA (aval rho s a)), [].
  split; [repeat constructor; auto|]. split; [exact A2|]. split; [exact A2|]. split; [constructor|]. exact (g_ev _ _ _ _ _ _ _ _ _ _ _ _ G1).
Qed.
Print Assumptions C78_value.

(** Tensors computed from the operands can be used with C54: the result of [tensordot] is typed, its uses fit the gradient
    rules, and it is smooth in every leaf its operands are smooth in; so gradients of anything computed from it are right. *)
Theorem C78_usable :
  forall (ls : nat -> list nat) (s s' : tgraph) (a b t x : nat) (sa sb : list nat) (za zb : list Z) (xa xb : list nat) (rho : nat -> arr R),
  twf ls s -> shaped ls s a sa -> shaped ls s b sb ->
  Forall2 (names_axis (length sa)) za xa -> Forall2 (names_axis (length sb)) zb xb -> NoDup xa -> NoDup xb -> at_axes xa sa = at_axes xb sb ->
  build_tensordot sa sb za zb a b s = Some (t, s') ->
  t_input_leaf s x -> conform ls rho -> fits ls s a -> fits ls s b -> t_smooth ls s rho x a -> t_smooth ls s rho x b ->
  fits ls s' t /\ t_smooth ls s' rho x t.
Proof.
  intros ls s s' a b t x sa sb za zb xa xb rho W Ha Hb Fa Fb Na Nb K HB Hx C F1 F2 S1 S2.
  assert (Lx : (x < length s)%nat) by (destruct Hx as (n & Hn & _); apply nth_error_Some; congruence).
  destruct (typed_aval ls rho s a sa C Ha) as [A2 A1]. destruct (typed_aval ls rho s b sb C Hb) as [B2 B1].
  assert (TL : typedl ls s [a; b] [TyA sa; TyA sb]) by (repeat constructor; auto).
  assert (HL : holdsl rho s [a; b] [TA (aval rho s a); TA (aval rho s b)]) by (repeat constructor; auto).
  assert (NI : nice false ls rho x s' t).
  { destruct (tdot_good (TyA sa) (TyA sa) (TA (aval rho s a)) (TA (aval rho s a)) sa sb za zb xa xb (aval rho s a) (aval rho s b)) as (EP & z & G1 & _); auto.
    unfold build_tensordot in HB. rewrite EP in HB. destruct G1 as [G1 _ G3 G4 G5]. specialize (G5 I).
    assert (HN : forall u, In u [a; b] \/ u = a \/ u = a \/ In u [] -> nice false ls rho x s u) by (intros u [[<-|[<-|[]]]|[->|[->|[]]]]; split; assumption).
    exact (build_expr_nice false ls rho x [a; b] [TyA sa; TyA sb] [TA (aval rho s a); TA (aval rho s b)] a a (TyA sa) (TyA sa) (TA (aval rho s a)) (TA (aval rho s a)) C _ [] [] [] s t s' _
      W Lx TL Ha Ha (Forall2_nil _) HL A2 A2 (Forall2_nil _) HN G1 G4 G5 HB). }
  exact NI.
Qed.
Print Assumptions C78_usable.

(** The position with coordinates [w] at the axes [q]. *)
Definition spread (q w : list nat) (n : nat) : list nat := map (fun k => nth (pos_of k q) w 0%nat) (seq 0 n).
Lemma pos_of_nth q : NoDup q -> forall j, (j < length q)%nat -> pos_of (nth j q 0%nat) q = j.
Proof.
  induction 1 as [|k q Hk ND IH]; intros j Hj; [simpl in Hj; lia|]. destruct j as [|j]; simpl.
  - rewrite Nat.eqb_refl. reflexivity.
  - simpl in Hj. destruct (Nat.eqb_spec k (nth j q 0%nat)) as [E|]; [exfalso; apply Hk; rewrite E; apply nth_In; lia|]. rewrite IH by lia. reflexivity.
Qed.
Lemma spread_at q w n : Permutation q (seq 0 n) -> length w = n -> at_axes q (spread q w n) = w.
Proof.
  intros P L. assert (LQ : length q = n) by (rewrite (Permutation_length P), seq_length; reflexivity).
  assert (ND : NoDup q) by (apply (Permutation_NoDup (Permutation_sym P)), seq_NoDup).
  apply nth_ext with (d := 0%nat) (d' := 0%nat); [unfold at_axes; rewrite map_length; lia|]. unfold at_axes. rewrite map_length. intros j Hj.
  rewrite (nth_indep _ 0%nat (nth 0 (spread q w n) 0%nat)) by (rewrite map_length; exact Hj). rewrite (map_nth (fun k => nth k (spread q w n) 0%nat) q 0%nat j). unfold spread.
  assert (Hq : (nth j q 0 < n)%nat) by (assert (H : In (nth j q 0%nat) q) by (apply nth_In; lia); apply (Permutation_in _ P), in_seq in H; lia).
  rewrite (nth_indep _ 0%nat (nth (pos_of 0 q) w 0%nat)) by (rewrite map_length, seq_length; exact Hq).
  rewrite (map_nth (fun k => nth (pos_of k q) w 0%nat) (seq 0 n) 0%nat). rewrite seq_nth by exact Hq. simpl. rewrite pos_of_nth by auto. reflexivity.
Qed.
Lemma nth_bounds sh : forall i, in_bounds sh i <-> length i = length sh /\ forall k, (k < length sh)%nat -> (nth k i 0 < nth k sh 0)%nat.
Proof.
  induction sh as [|d sh IH]; intros i; split.
  - intros H. apply in_bounds_length in H. destruct i; [split; [reflexivity|intros k Hk; simpl in Hk; lia]|discriminate].
  - intros [L _]. destruct i; [constructor|discriminate].
  - intros H. inversion H as [|a ? i' ? Ha Hi]; subst. apply IH in Hi. destruct Hi as [L Hi]. split; [simpl; lia|]. intros [|k] Hk; simpl in *; [exact Ha|apply Hi; lia].
  - intros [L H]. destruct i as [|a i]; [discriminate|]. constructor; [apply (H 0%nat); simpl; lia|]. apply IH. simpl in L. split; [lia|]. intros k Hk. apply (H (S k)). simpl. lia.
Qed.
Lemma spread_in q w sh : Permutation q (seq 0 (length sh)) -> in_bounds (at_axes q sh) w -> in_bounds sh (spread q w (length sh)).
Proof.
  intros P H. assert (LQ : length q = length sh) by (rewrite (Permutation_length P), seq_length; reflexivity). apply nth_bounds in H. destruct H as [L H].
  unfold at_axes in L, H. rewrite map_length in L, H. apply nth_bounds. unfold spread at 1. rewrite map_length, seq_length. split; [reflexivity|]. intros k Hk.
  assert (Hi : In k q) by (apply (Permutation_in _ (Permutation_sym P)), in_seq; lia). apply (In_nth _ _ 0%nat) in Hi. destruct Hi as (j & Hj & <-).
  pose proof (spread_at q w (length sh) P (eq_trans L LQ)) as E. apply (f_equal (fun l => nth j l 0%nat)) in E. unfold at_axes in E.
  assert (M : forall s, nth j (map (fun k => nth k s 0%nat) q) 0%nat = nth (nth j q 0%nat) s 0%nat).
  { intros s. rewrite (nth_indep _ 0%nat (nth 0 s 0%nat)) by (rewrite map_length; exact Hj). apply (map_nth (fun k => nth k s 0%nat) q 0%nat j). }
  rewrite M in E. rewrite E. specialize (H j Hj). rewrite M in H. exact H.
Qed.
Lemma app_inj_length {X} (a : list X) : forall b c d, a ++ b = c ++ d -> length a = length c -> a = c /\ b = d.
Proof.
  induction a as [|u a IH]; intros b [|w c] d E L; simpl in *; try discriminate; [auto|]. injection E as -> E. apply IH in E; [|lia]. destruct E as [-> ->]. auto.
Qed.
Lemma positions sh p q i l : Permutation (p ++ q) (seq 0 (length sh)) -> in_bounds (at_axes p sh) i -> in_bounds (at_axes q sh) l ->
  in_bounds sh (spread (p ++ q) (i ++ l) (length sh)) /\ at_axes p (spread (p ++ q) (i ++ l) (length sh)) = i /\ at_axes q (spread (p ++ q) (i ++ l) (length sh)) = l.
Proof.
  intros P Hi Hl. assert (Hw : in_bounds (at_axes (p ++ q) sh) (i ++ l)) by (unfold at_axes; rewrite map_app; apply Forall2_app; assumption).
  split; [apply spread_in; assumption|]. assert (L : length (i ++ l) = length sh).
  { apply in_bounds_length in Hw. unfold at_axes in Hw. rewrite map_length in Hw. rewrite Hw, (Permutation_length P), seq_length. reflexivity. }
  pose proof (spread_at _ _ _ P L) as E. unfold at_axes in E at 1. rewrite map_app in E. apply in_bounds_length in Hi. unfold at_axes in Hi. rewrite map_length in Hi.
  apply app_inj_length in E; [exact E|rewrite map_length; symmetry; exact Hi].
Qed.
(** There is only one contraction. *)
Lemma contraction_unique x y xa xb z z' : NoDup xa -> NoDup xb -> List.Forall (fun k => (k < length (a_shape x))%nat) xa -> List.Forall (fun k => (k < length (a_shape y))%nat) xb ->
  at_axes xa (a_shape x) = at_axes xb (a_shape y) -> contraction x y xa xb z -> contraction x y xa xb z' -> z = z'.
Proof.
  intros Na Nb Ba Bb K (S1 & L1 & E1) (S2 & L2 & E2). set (fa := others (length (a_shape x)) xa) in *. set (fb := others (length (a_shape y)) xb) in *.
  pose proof (others_perm _ _ Na Ba) as Pa. pose proof (others_perm _ _ Nb Bb) as Pb. fold fa in Pa. fold fb in Pb.
  rewrite (tab_eq (at_axes fa (a_shape x) ++ at_axes fb (a_shape y)) z (rget z')); [symmetry; apply tab_eq; [split; [exact S2|rewrite <- S2; exact L2]|reflexivity]|split; [exact S1|rewrite <- S1; exact L1]|].
  intros w Hw. apply Forall2_app_inv_r in Hw. destruct Hw as (i & j & Hi & Hj & ->).
  rewrite (E1 i j (fun l => spread (fa ++ xa) (i ++ l) (length (a_shape x))) (fun l => spread (fb ++ xb) (j ++ l) (length (a_shape y))));
    [symmetry; apply E2; auto| | | |]; auto; intros l Hl; apply positions; auto; rewrite <- K; exact Hl.
Qed.

(** The gradient of the sum of the elements of a contraction, with respect to any leaf both operands may depend on. *)
Theorem C78_gradient :
  forall (pop : tgraph -> list nat -> option (nat * list nat)) (debug : bool) (fuel : nat)
    (ls : nat -> list nat) (s s' g' : tgraph) (a b t x r : nat) (sa sb : list nat) (za zb : list Z) (xa xb : list nat) (bb : bool) (log : list nat)
    (rho : nat -> arr R) (v : arr R),
  twf ls s -> (forall g, heap_pop g (pop g)) -> shaped ls s a sa -> shaped ls s b sb ->
  Forall2 (names_axis (length sa)) za xa -> Forall2 (names_axis (length sb)) zb xb -> NoDup xa -> NoDup xb -> at_axes xa sa = at_axes xb sb ->
  build_tensordot sa sb za zb a b s = Some (t, s') ->
  t_input_leaf s x -> conform ls rho -> has_shape (ls x) v -> fits ls s a -> fits ls s b -> t_smooth ls s rho x a -> t_smooth ls s rho x b ->
  t_grad pop debug fuel [t] [x] s' = Eval_Model.Ok ([(r, bb)], g', log) ->
  has_shape (ls x) (aval rho g' r) /\
  forall f, (forall h, contraction (aval (put rho x (step (rho x) v h)) s a) (aval (put rho x (step (rho x) v h)) s b) xa xb (f h)) ->
  derivable_pt_lim (fun h => elements_sum (f h)) 0 (dot (aval rho g' r) v).
Proof.
  intros pop debug fuel ls s s' g' a b t x r sa sb za zb xa xb bb log rho v W Hp Ha Hb Fa Fb Na Nb K HB Hx C Hv F1 F2 S1 S2 HG.
  destruct (C78_value ls s s' a b t sa sb za zb xa xb W Ha Hb Fa Fb Na Nb K HB) as (W' & G' & T' & HV).
  destruct (C78_usable ls s s' a b t x sa sb za zb xa xb rho W Ha Hb Fa Fb Na Nb K HB Hx C F1 F2 S1 S2) as [NF NS].
  assert (HX' : t_input_leaf s' x).
  { destruct Hx as (n & Hn & A). destruct G' as (new & ->). exists n. split; [rewrite nth_error_app1; [exact Hn|apply nth_error_Some; congruence]|exact A]. }
  assert (Q1 : forall y, In y [t] -> fits ls s' y /\ exists sh, shaped ls s' y sh) by (intros y [<-|[]]; split; eauto).
  assert (Q2 : NoDup [x]) by (repeat constructor; auto). assert (Q3 : forall y, In y [x] -> t_input_leaf s' y) by (intros y [<-|[]]; exact HX').
  destruct (tgrad_derivative pop debug fuel [t] [x] ls s' _ g' log W' Hp Q1 Q2 Q3 HG) as (_ & G2 & R2).
  inversion R2 as [|? ? ? ? [T2 D2] _]; subst. cbn [fst] in *. split; [apply (typed_aval ls rho g' r (ls x) C T2)|].
  intros f Hf. specialize (D2 rho v C Hv). eapply lim_ext; [|apply D2; intros y [<-|[]]; exact NS].
  intros h. cbn [map fold_right]. rewrite Rplus_0_r. f_equal. pose proof (put_conform ls rho x v h C Hv) as Ch.
  assert (Sa := hs_sh _ _ (proj2 (typed_aval ls _ s a sa Ch Ha))). assert (Sb := hs_sh _ _ (proj2 (typed_aval ls _ s b sb Ch Hb))).
  pose proof (names_bound _ _ _ Fa) as Ba. pose proof (names_bound _ _ _ Fb) as Bb.
  eapply contraction_unique; [exact Na|exact Nb| | | |apply HV; exact Ch|apply Hf]; rewrite ?Sa, ?Sb; auto.
Qed.
Print Assumptions C78_gradient.

(** A 2 x 3 x 2 array, with axes 1 and 2 (named -1) contracted against axes 0 and 2 of a 3 x 4 x 2 array; the first operand
    is the square of a variable. *)
Definition td_ls (i : nat) : list nat := match i with 0%nat => [2%nat; 3%nat; 2%nat] | 1%nat => [3%nat; 4%nat; 2%nat] | _ => [] end.
Definition td_base : tgraph := match a_un Square 0 [t_var 0; t_var 1] with Some (_, g) => g | None => [] end.
Definition td_in : nat := match a_un Square 0 [t_var 0; t_var 1] with Some (t, _) => t | None => 0%nat end.
Definition td_built := build_tensordot [2;3;2]%nat [3;4;2]%nat [1; -1]%Z [0; 2]%Z td_in 1 td_base.
Definition td_graph : tgraph := match td_built with Some (_, g) => g | None => [] end.
Definition td_out : nat := match td_built with Some (t, _) => t | None => 0%nat end.
Definition td_result := t_grad (@max_pop top) true 400 [td_out] [0%nat] td_graph.
Lemma td_ok : build_tensordot [2;3;2]%nat [3;4;2]%nat [1; -1]%Z [0; 2]%Z td_in 1 td_base = Some (td_out, td_graph).
Proof.
  assert (B : match td_built with Some _ => true | None => false end = true) by (vm_compute; reflexivity).
  unfold td_out, td_graph. unfold td_built in *. destruct (build_tensordot [2;3;2]%nat [3;4;2]%nat [1; -1]%Z [0; 2]%Z td_in 1 td_base) as [[]|]; [reflexivity|discriminate].
Qed.
Example C78_hypotheses_met :
  twf td_ls td_base /\ shaped td_ls td_base td_in [2;3;2]%nat /\ shaped td_ls td_base 1 [3;4;2]%nat /\
  Forall2 (names_axis 3) [1; -1]%Z [1; 2]%nat /\ Forall2 (names_axis 3) [0; 2]%Z [0; 2]%nat /\
  at_axes [1; 2]%nat [2;3;2]%nat = at_axes [0; 2]%nat [3;4;2]%nat /\
  build_tensordot [2;3;2]%nat [3;4;2]%nat [1; -1]%Z [0; 2]%Z td_in 1 td_base = Some (td_out, td_graph) /\
  shaped td_ls td_graph td_out [2; 4]%nat /\ t_input_leaf td_base 0 /\
  (forall rho a, In a [td_in; 1%nat] -> fits td_ls td_base a /\ t_smooth td_ls td_base rho 0 a) /\
  (exists r b log, t_grad (@max_pop top) true 400 [td_out] [0%nat] td_graph = Eval_Model.Ok ([(r, b)], res_graph td_result, log)).
Proof.
  split; [apply twf_b_sound; vm_compute; reflexivity|]. split; [vm_compute; reflexivity|]. split; [vm_compute; reflexivity|].
  split; [repeat constructor; unfold names_axis; lia|]. split; [repeat constructor; unfold names_axis; lia|]. split; [reflexivity|]. split; [exact td_ok|]. split; [vm_compute; reflexivity|].
  split; [eexists; repeat split; reflexivity|]. split.
  { intros rho a Ha. simpl in Ha. destruct Ha as [<-|[<-|[]]]; (split; [apply fits_b_sound; vm_compute; reflexivity|apply t_smooth_b_sound; vm_compute; reflexivity]). }
  assert (B : is_ok td_result = true) by (vm_compute; reflexivity). destruct (is_ok_sound _ B) as (log & E).
  assert (L : exists r b, res_tensors td_result = [(r, b)]) by (eexists _, _; vm_compute; reflexivity). destruct L as (r & b & L).
  exists r, b, log. rewrite <- L, <- E. unfold td_result. reflexivity.
Qed.
