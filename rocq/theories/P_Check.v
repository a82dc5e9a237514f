(** C58: the gradient checker. *)
From Coq Require Import String List Arith ZArith Bool Reals Lia Lra FunctionalExtensionality.
Import ListNotations.
From Verif Require Import Tens_Build Grad_Examples Tens_Examples  Graph_Model Eval_Model Eval_Spec Eval_Proofs Grad_Model Grad_Spec Scalar_Model Scalar_Spec.
From Verif Require Import Array_Model Vjp_Spec Vjp_Proofs Tens_Model Tens_Spec Tens_Final Check_Model Check_Spec Check_Proofs.
Local Open Scope R_scope.
Local Set Bullet Behavior "Strict Subproofs".

(** The checker over the reals, for variables in standard layout. *)
Definition check (run_objective : list (arr R) -> option (arr R * list (arr R)))
  (ths : list (option (arr R))) (eps tol : R) (variables : list nat) (env : list (arr R)) : verdict R :=
  check_theoretical_grads Rplus Rminus Rmult Rdiv Rabs 0 1 rgt run_objective (fun env => Some (ths, env)) plain eps tol variables env.

(** The checker passes exactly if at every element of every paired variable the
    central difference of the objective is within [tol] of the gradient; the
    variables are left as they were, also if it reports a difference. *)
Theorem C58_passes_iff_close :
  forall (run_objective : list (arr R) -> option (arr R * list (arr R))) (f : list (arr R) -> R)
    (ths : list (option (arr R))) (eps tol : R) (variables : list nat) (env : list (arr R)),
  (forall vid i t, run_objective (shift env vid i t) = Some (Arr [] [f (shift env vid i t)], shift env vid i t)) ->
  matching variables ths env ->
  (check run_objective ths eps tol variables env = Passed env <->
   every_element variables ths env (fun vid th i =>
     Rabs ((f (shift env vid i eps) - f (shift env vid i (- eps))) / (2 * eps) - nth i (a_data th) 0) <= tol)) /\
  (check run_objective ths eps tol variables env = Passed env \/
   exists num th, check run_objective ths eps tol variables env = Differs env num th).
Proof.
  intros run f ths eps tol variables env H M. exact (check_variables_ok run f eps tol env H variables ths M).
Qed.
Print Assumptions C58_passes_iff_close.

(** A gradient that passes is off by at most [tol + M eps^2 / 6]. *)
Theorem C58_passing_bounds_error :
  forall (run_objective : list (arr R) -> option (arr R * list (arr R))) (f : list (arr R) -> R)
    (ths : list (option (arr R))) (eps tol : R) (variables : list nat) (env : list (arr R)) (M : R) (d : nat -> nat -> R),
  (forall vid i t, run_objective (shift env vid i t) = Some (Arr [] [f (shift env vid i t)], shift env vid i t)) ->
  matching variables ths env -> 0 < eps ->
  every_element variables ths env (fun vid _ i => slope_bound f env vid i eps M (d vid i)) ->
  check run_objective ths eps tol variables env = Passed env ->
  every_element variables ths env (fun vid th i => Rabs (d vid i - nth i (a_data th) 0) <= tol + M * (eps * eps) / 6).
Proof.
  intros run f ths eps tol variables env M d H MA He HS HP.
  destruct (C58_passes_iff_close run f ths eps tol variables env H MA) as [[Q _] _]. specialize (Q HP).
  intros p vid th a i Hv Ht Ha Hi. specialize (Q p vid th a i Hv Ht Ha Hi). cbv beta in Q. destruct (HS p vid th a i Hv Ht Ha Hi) as (f1 & f2 & f3 & D & <-).
  pose proof (central_difference (fun t => f (shift env vid i t)) f1 f2 f3 eps M He D) as C. cbv beta in C.
  set (num := (f (shift env vid i eps) - f (shift env vid i (- eps))) / (2 * eps)) in *.
  replace (f1 0 - nth i (a_data th) 0) with ((num - nth i (a_data th) 0) + - (num - f1 0)) by ring.
  eapply Rle_trans; [apply Rabs_triang|]. rewrite Rabs_Ropp. lra.
Qed.
Print Assumptions C58_passing_bounds_error.

(** Exact gradients pass if [tol] is at least [M eps^2 / 6]. *)
Theorem C58_exact_gradients_pass :
  forall (run_objective : list (arr R) -> option (arr R * list (arr R))) (f : list (arr R) -> R)
    (ths : list (option (arr R))) (eps tol : R) (variables : list nat) (env : list (arr R)) (M : R),
  (forall vid i t, run_objective (shift env vid i t) = Some (Arr [] [f (shift env vid i t)], shift env vid i t)) ->
  matching variables ths env -> 0 < eps -> M * (eps * eps) / 6 <= tol ->
  every_element variables ths env (fun vid th i => slope_bound f env vid i eps M (nth i (a_data th) 0)) ->
  check run_objective ths eps tol variables env = Passed env.
Proof.
  intros run f ths eps tol variables env M H MA He Ht HS.
  apply (C58_passes_iff_close run f ths eps tol variables env H MA).
  intros p vid th a i Hv Hth Ha Hi. destruct (HS p vid th a i Hv Hth Ha Hi) as (f1 & f2 & f3 & D & <-).
  pose proof (central_difference (fun t => f (shift env vid i t)) f1 f2 f3 eps M He D) as C. cbv beta in C. lra.
Qed.
Print Assumptions C58_exact_gradients_pass.

(** Variables without a paired gradient are not looked at. *)
Theorem C58_unpaired_variables_unchecked :
  forall (run_objective : list (arr R) -> option (arr R * list (arr R))) (ths : list (option (arr R))) (eps tol : R)
    (variables more : list nat) (env : list (arr R)),
  length ths = length variables ->
  check run_objective ths eps tol (variables ++ more) env = check run_objective ths eps tol variables env.
Proof.
  intros run ths eps tol variables more env. unfold check, check_theoretical_grads. revert ths env.
  induction variables as [|vid variables IH]; intros [|th ths] env L; try discriminate.
  - destruct more; reflexivity.
  - simpl. destruct th as [th|]; auto. destruct (nth_error env vid); auto. destruct (check_elements _ _ _ _ _ _ _ _ _ _ _ _ _ _ _ _); auto.
Qed.
Print Assumptions C58_unpaired_variables_unchecked.

(** ** Numbers with NaN *)
Definition lift2 (op : R -> R -> R) (x y : option R) : option R :=
  match x, y with Some x, Some y => Some (op x y) | _, _ => None end.
(** Comparisons with NaN are false. *)
Definition ngt (x y : option R) : bool := match x, y with Some x, Some y => rgt x y | _, _ => false end.
Definition check_nan (run_objective : list (arr (option R)) -> option (arr (option R) * list (arr (option R))))
  (ths : list (option (arr (option R)))) (eps tol : option R) (variables : list nat) (env : list (arr (option R))) : verdict (option R) :=
  check_theoretical_grads (lift2 Rplus) (lift2 Rminus) (lift2 Rmult) (lift2 Rdiv) (option_map Rabs) (Some 0) (Some 1) ngt
    run_objective (fun env => Some (ths, env)) plain eps tol variables env.

(** Gradients that are NaN everywhere pass, whatever the objective is. *)
Theorem C58_nan_gradients_refuted :
  forall (value : list (arr (option R)) -> arr (option R)) (ths : list (option (arr (option R)))) (eps tol : option R)
    (variables : list nat) (env : list (arr (option R))),
  matching variables ths env ->
  every_element variables ths env (fun _ th i => nth_error (a_data th) i = Some None) ->
  check_nan (fun env => Some (value env, env)) ths eps tol variables env = Passed env.
Proof.
  intros value ths eps tol variables env. unfold check_nan, check_theoretical_grads. revert ths.
  induction variables as [|vid variables IH]; intros [|th ths] M Q; try reflexivity.
  destruct (M 0%nat vid th eq_refl eq_refl) as (a & t & E & -> & L). cbn [check_variables]. rewrite E.
  assert (K : forall is, (forall i, In i is -> (i < length (a_data a))%nat) ->
    check_elements (lift2 Rplus) (lift2 Rminus) (lift2 Rmult) (lift2 Rdiv) (option_map Rabs) (Some 0) (Some 1) ngt
      (fun env => Some (value env, env)) plain eps tol vid t is env = Passed env).
  { intros is. induction is as [|i is IHi]; intros Hi; [reflexivity|]. cbn [check_elements].
    assert (Hl : (i < length (a_data a))%nat) by (apply Hi; left; reflexivity).
    destruct (nth_error (a_data a) i) as [x|] eqn:X; [|apply nth_error_None in X; lia].
    pose proof (peek_some env vid i a x E X) as P. unfold check_element. rewrite P. cbv beta iota zeta. rewrite !poke_poke, (poke_self _ _ _ _ P).
    rewrite (Q 0%nat vid t a i eq_refl eq_refl E Hl).
    match goal with |- context [ngt ?z tol] => replace (ngt z tol) with false end.
    - apply IHi. intros j Hj. apply Hi. right. exact Hj.
    - destruct (slope _ _ _ _ _ _ _ _ _); reflexivity. }
  rewrite K by (intros i Hi; apply in_seq in Hi; lia). apply IH.
  - intros p v t' Hv Ht. exact (M (S p) v t' Hv Ht).
  - intros p v t' a' i Hv Ht. exact (Q (S p) v t' a' i Hv Ht).
Qed.
Print Assumptions C58_nan_gradients_refuted.

(** ** Variables that are not in standard layout *)

(** A 2 by 2 variable stored column by column; the objective is its element in
    row 0, column 1.  The exact gradient is rejected, its transpose accepted. *)
Definition column_major (vid i : nat) : nat := nth i [0; 2; 1; 3]%nat 0%nat.
Definition check_columns (run_objective : list (arr R) -> option (arr R * list (arr R)))
  (ths : list (option (arr R))) (eps tol : R) (variables : list nat) (env : list (arr R)) : verdict R :=
  check_theoretical_grads Rplus Rminus Rmult Rdiv Rabs 0 1 rgt run_objective (fun env => Some (ths, env)) column_major eps tol variables env.
Definition upper_right (env : list (arr R)) : R := match env with a :: _ => nth 1 (a_data a) 0 | [] => 0 end.
Ltac crunch Z O T0 T1 :=
  cbv -[Rplus Rmult Rminus Rdiv Ropp IZR Rabs Rlt_dec]; rewrite ?Z, ?O;
  let l := fresh in match goal with |- context [Rlt_dec ?tol (Rabs ?v)] =>
    destruct (Rlt_dec tol (Rabs v)) as [l|l]; [try (exfalso; apply (T0 v); [ring|exact l])|try (exfalso; apply l; exact T1)]; clear l end.
Theorem C58_layout_refuted :
  forall eps tol a b c d : R, 0 < eps -> 0 <= tol < 1 ->
  let env := [Arr [2; 2]%nat [a; b; c; d]] in
  let run := fun env => Some (Arr [] [upper_right env], env) in
  (forall i t, upper_right (shift env 0 i t) = if (i =? 1)%nat then b + t else b) /\
  (exists num th, check_columns run [Some (Arr [2; 2]%nat [0; 1; 0; 0])] eps tol [0%nat] env = Differs env num th) /\
  check_columns run [Some (Arr [2; 2]%nat [0; 0; 1; 0])] eps tol [0%nat] env = Passed env.
Proof.
  intros eps tol a b c d He Ht env run.
  assert (Z : (0 + (b - b)) / ((1 + 1) * eps) = 0) by (field; lra).
  assert (O : (0 + (b + eps - (b - eps))) / ((1 + 1) * eps) = 1) by (field; lra).
  assert (T0 : forall v, v = 0 -> ~ tol < Rabs v) by (intros v -> L; rewrite Rabs_R0 in L; lra).
  assert (T1 : tol < Rabs (0 - 1)) by (rewrite Rabs_left; lra).
  split; [|split].
  - intros i t. simpl. destruct i as [|[|i]]; reflexivity.
  - do 2 eexists. do 2 crunch Z O T0 T1. reflexivity.
  - do 4 crunch Z O T0 T1. reflexivity.
Qed.
Print Assumptions C58_layout_refuted.

(** ** The gradients that [grad] returns *)

(** The value of leaf [i] of the graph when the variables hold [env]; [base]
    for leaves that are not variables. *)
Definition leaves (g : tgraph) (base : nat -> arr R) (env : list (arr R)) (i : nat) : arr R :=
  match nth_error g i with
  | Some n => match n_var n with
              | Some vid => match nth_error env vid with Some a => a | None => base i end
              | None => base i
              end
  | None => base i
  end.
Definition variable_of (g : tgraph) (x vid : nat) : Prop := exists n, nth_error g x = Some n /\ n_var n = Some vid.

Definition unit_at (sh : list nat) (i : nat) : arr R := Arr sh (map (fun k => if (k =? i)%nat then 1 else 0) (seq 0 (prod sh))).
Lemma unit_shape sh i : has_shape sh (unit_at sh i).
Proof. split; [reflexivity|]. simpl. rewrite map_length, seq_length. reflexivity. Qed.
Lemma dot_unit_gen l i : forall d, fold_right Rplus 0 (map2 Rmult l (map (fun k => if (k =? d + i)%nat then 1 else 0) (seq d (length l)))) = nth i l 0.
Proof.
  revert i. induction l as [|x l IH]; intros i d; simpl; [destruct i; reflexivity|]. destruct i as [|i].
  - rewrite Nat.add_0_r, Nat.eqb_refl.
    assert (Z : forall l e, (d < e)%nat -> fold_right Rplus 0 (map2 Rmult l (map (fun k => if (k =? d)%nat then 1 else 0) (seq e (length l)))) = 0).
    { clear. induction l as [|y l IH]; intros e He; simpl; [reflexivity|]. rewrite IH by lia. destruct (Nat.eqb_spec e d); [lia|]. ring. }
    rewrite Z by lia. ring.
  - destruct (Nat.eqb_spec d (d + S i)); [lia|]. replace (d + S i)%nat with (S d + i)%nat by lia. rewrite IH. ring.
Qed.
Lemma dot_unit sh i a : has_shape sh a -> dot a (unit_at sh i) = nth i (a_data a) 0.
Proof. intros [_ L]. unfold dot, unit_at. cbn [a_data]. rewrite <- L. exact (dot_unit_gen (a_data a) i 0). Qed.
Lemma step_unit sh a i t : has_shape sh a -> (i < prod sh)%nat ->
  step a (unit_at sh i) t = Arr (a_shape a) (map (fun q => if (fst q =? i)%nat then snd q + t else snd q) (with_index (a_data a))).
Proof.
  intros [S L] _. unfold step. f_equal. unfold unit_at, with_index. cbn [a_data]. rewrite <- L. generalize 0%nat as d. generalize (a_data a) as l.
  induction l as [|x l IH]; intros d; simpl; [reflexivity|]. rewrite IH. f_equal. destruct (d =? i)%nat; ring.
Qed.

(** The gradients returned by [grad] for the variables of an array graph pass
    the checker, if the objective is smooth enough between the test points. *)
Theorem C58_accepts_grad :
  forall (pop : tgraph -> list nat -> option (nat * list nat)) (debug : bool) (fuel : nat)
    (ls : nat -> list nat) (y : nat) (xs vids : list nat) (g g' : tgraph) (l : list (nat * bool)) (log : list nat)
    (base : nat -> arr R) (env : list (arr R)) (run_objective : list (arr R) -> option (arr R * list (arr R))) (eps tol M : R),
  twf ls g -> (forall g, heap_pop g (pop g)) -> fits ls g y -> (exists sh, shaped ls g y sh) ->
  NoDup xs -> (forall x, In x xs -> t_input_leaf g x) ->
  Forall2 (variable_of g) xs vids -> (forall i j vid, variable_of g i vid -> variable_of g j vid -> i = j) ->
  t_grad pop debug fuel [y] xs g = Ok (l, g', log) ->
  conform ls (leaves g base env) -> (forall x, In x xs -> t_smooth ls g (leaves g base env) x y) ->
  (forall vid, In vid vids -> (vid < length env)%nat) ->
  let objective := fun env => elements_sum (aval (leaves g base env) g y) in
  let gradients := map (fun r => Some (aval (leaves g base env) g' (fst r))) l in
  (forall vid i t, run_objective (shift env vid i t) = Some (Arr [] [objective (shift env vid i t)], shift env vid i t)) ->
  0 < eps -> M * (eps * eps) / 6 <= tol ->
  every_element vids gradients env (fun vid _ i => exists d, slope_bound objective env vid i eps M d) ->
  check run_objective gradients eps tol vids env = Passed env.
Proof.
  intros pop debug fuel ls y xs vids g g' l log base env run eps tol M W Hp Fy Sy Nx Hx Hv Inj HG C Sm Hlen objective gradients Hrun He Ht HS.
  destruct (tgrad_derivative pop debug fuel [y] xs ls g l g' log W Hp) as (W' & _ & F2); auto.
  { intros z [<-|[]]. auto. }
  set (rho := leaves g base env) in *.
  assert (AT : forall p vid th, nth_error vids p = Some vid -> nth_error gradients p = Some th ->
    exists x (r : nat * bool), In x xs /\ variable_of g x vid /\ th = Some (aval rho g' (fst r)) /\ shaped ls g' (fst r) (ls x) /\
      (forall v, has_shape (ls x) v -> derivable_pt_lim (fun t => fold_right Rplus 0 (map (fun y => elements_sum (aval (put rho x (step (rho x) v t)) g y)) [y])) 0 (dot (aval rho g' (fst r)) v))).
  { intros p vid th Hvid Hth. unfold gradients in Hth. rewrite nth_error_map' in Hth. destruct (nth_error l p) as [r|] eqn:Er; [|discriminate]. injection Hth as <-.
    assert (Q : forall (A B D : Type) (P : A -> B -> Prop) (P' : A -> D -> Prop) la lb ld, Forall2 P la lb -> Forall2 P' la ld ->
      forall p b d, nth_error lb p = Some b -> nth_error ld p = Some d -> exists a, In a la /\ P a b /\ P' a d).
    { clear. intros A B D P P' la lb ld H. revert ld. induction H as [|a b la lb H HF IH]; intros ld H'; inversion H'; subst; intros [|p] b' d' Hb Hd; simpl in *; try discriminate.
      - injection Hb as <-. injection Hd as <-. eauto.
      - destruct (IH _ H4 p b' d' Hb Hd) as (a' & ? & ?). eauto. }
    destruct (Q _ _ _ _ _ _ _ _ Hv F2 p vid r Hvid Er) as (x & Ix & Vx & Sx & Dx).
    exists x, r. split; auto. split; auto. split; auto. split; auto. intros v Hvs. apply Dx; auto. intros z [<-|[]]. apply Sm. exact Ix. }
  assert (LEAF : forall x vid a, variable_of g x vid -> nth_error env vid = Some a -> rho x = a).
  { intros x vid a (n & E1 & E2) E. unfold rho, leaves. rewrite E1, E2, E. reflexivity. }
  assert (GS : forall x (r : nat * bool), shaped ls g' (fst r) (ls x) -> has_shape (ls x) (aval rho g' (fst r))).
  { intros x r Hs. destruct (typed_aval ls rho g' (fst r) (ls x) C Hs) as [_ Q]. exact Q. }
  apply (C58_exact_gradients_pass run objective gradients eps tol vids env M Hrun); auto.
  - intros p vid th Hvid Hth. destruct (AT p vid th Hvid Hth) as (x & r & Ix & Vx & -> & Sx & _).
    destruct (nth_error env vid) as [a|] eqn:E.
    2:{ apply nth_error_None in E. apply nth_error_In in Hvid. specialize (Hlen _ Hvid). lia. }
    exists a, (aval rho g' (fst r)). split; auto. split; auto. rewrite <- (LEAF x vid a Vx E). destruct (GS x r Sx) as [_ ->]. destruct (C x) as [_ Q]. symmetry. exact Q.
  - intros p vid th a i Hvid Hth E Hi. destruct (HS p vid th a i Hvid Hth E Hi) as (d & f1 & f2 & f3 & D & <-).
    destruct (AT p vid (Some th) Hvid Hth) as (x & r & Ix & Vx & Et & Sx & Dx). injection Et as ->.
    pose proof (LEAF x vid a Vx E) as Ea. destruct (C x) as [Cx Lx].
    assert (Hi' : (i < prod (ls x))%nat) by (rewrite <- Lx; unfold rho in Ea; fold rho in Ea; rewrite Ea; exact Hi).
    specialize (Dx (unit_at (ls x) i) (unit_shape _ _)). rewrite (dot_unit (ls x) i _ (GS x r Sx)) in Dx.
    exists f1, f2, f3. split; [exact D|].
    apply (uniqueness_limite (fun t => objective (shift env vid i t)) 0).
    + apply D. rewrite Rabs_R0. lra.
    + match type of Dx with derivable_pt_lim ?h _ _ => apply (derivable_ext h); [|exact Dx] end.
      intros t. simpl. rewrite Rplus_0_r. unfold objective. f_equal. f_equal. apply functional_extensionality. intros j.
      unfold put. destruct (Nat.eqb_spec j x) as [->|N].
      * rewrite (step_unit (ls x)) by (auto; exact (C x)). rewrite Ea. destruct Vx as (n & E1 & E2). unfold leaves. rewrite E1, E2.
        unfold shift. rewrite nth_error_map', with_index_nth, E. cbn [option_map fst snd]. rewrite Nat.eqb_refl. reflexivity.
      * unfold rho, leaves. destruct (nth_error g j) as [n|] eqn:E1; auto. destruct (n_var n) as [vj|] eqn:E2; auto.
        unfold shift. rewrite nth_error_map', with_index_nth. destruct (nth_error env vj) as [b|] eqn:E3; cbn [option_map fst snd]; auto.
        destruct (Nat.eqb_spec vj vid) as [->|]; auto. exfalso. apply N. apply (Inj j x vid); [exists n; auto|exact Vx].
Qed.
Print Assumptions C58_accepts_grad.

(** The square of the single element 3 of variable 0 has gradient 6, which
    passes with any positive step and tolerance; gradient 7 passes only with a
    tolerance of at least 1. *)
Definition square0 (env : list (arr R)) : R := match env with a :: _ => nth 0 (a_data a) 0 * nth 0 (a_data a) 0 | [] => 0 end.
Example C58_hypotheses_met : forall eps tol, 0 < eps -> 0 <= tol ->
  let env := [Arr [1%nat] [3]] in let run := fun env => Some (Arr [] [square0 env], env) in
  let ths v := [Some (Arr [1%nat] [v])] in
  (forall vid i t, run (shift env vid i t) = Some (Arr [] [square0 (shift env vid i t)], shift env vid i t)) /\
  matching [0%nat] (ths 6) env /\
  every_element [0%nat] (ths 6) env (fun vid th i => slope_bound square0 env vid i eps 0 (nth i (a_data th) 0)) /\
  check run (ths 6) eps tol [0%nat] env = Passed env /\
  (check run (ths 7) eps tol [0%nat] env = Passed env <-> 1 <= tol).
Proof.
  intros eps tol He Ht env run ths.
  assert (MA : forall v, matching [0%nat] (ths v) env).
  { intros v [|p] vid th Hv Hth; simpl in *; [|destruct p; discriminate]. injection Hv as <-. injection Hth as <-. do 2 eexists. split; [reflexivity|]. split; reflexivity. }
  assert (SB : every_element [0%nat] (ths 6) env (fun vid th i => slope_bound square0 env vid i eps 0 (nth i (a_data th) 0))).
  { intros [|p] vid th a i Hv Hth Ha Hi; simpl in Hv, Hth; [|destruct p; discriminate]. injection Hv as <-. injection Hth as <-. simpl in Ha. injection Ha as <-.
    destruct i as [|i]; [|simpl in Hi; lia]. simpl nth.
    exists (fun t => 2 * (3 + t)), (fun _ => 2), (fun _ => 0). split; [|ring]. intros t _. split; [|split; [|split]].
    - apply (derivable_ext (fun t => (3 + t) * (3 + t))); [intros u; reflexivity|].
      assert (Q : derivable_pt_lim (fun t => 3 + t) t 1).
      { replace 1 with (0 + 1) by ring. apply (derivable_pt_lim_plus (fun _ => 3) (fun t => t)); [apply derivable_pt_lim_const|apply derivable_pt_lim_id]. }
      replace (2 * (3 + t)) with (1 * (3 + t) + (3 + t) * 1) by ring. apply (derivable_pt_lim_mult (fun t => 3 + t) (fun t => 3 + t)); exact Q.
    - assert (Q : derivable_pt_lim (fun t => 3 + t) t 1).
      { replace 1 with (0 + 1) by ring. apply (derivable_pt_lim_plus (fun _ => 3) (fun t => t)); [apply derivable_pt_lim_const|apply derivable_pt_lim_id]. }
      pose proof (derivable_pt_lim_scal (fun t => 3 + t) 2 t 1 Q) as Q2. rewrite Rmult_1_r in Q2. exact Q2.
    - apply derivable_pt_lim_const.
    - rewrite Rabs_R0. lra. }
  split; [reflexivity|]. split; [apply MA|]. split; [exact SB|]. split.
  - apply (C58_exact_gradients_pass run square0 (ths 6) eps tol [0%nat] env 0); auto. lra.
  - destruct (C58_passes_iff_close run square0 (ths 7) eps tol [0%nat] env) as [Q _]; [reflexivity|apply MA|]. rewrite Q.
    assert (N : (square0 (shift env 0 0 eps) - square0 (shift env 0 0 (- eps))) / (2 * eps) = 6).
    { unfold square0, shift. simpl. field. lra. }
    split.
    + intros H. specialize (H 0%nat 0%nat (Arr [1%nat] [7]) (Arr [1%nat] [3]) 0%nat eq_refl eq_refl eq_refl ltac:(simpl; lia)).
      cbv beta in H. rewrite N in H. cbn [a_data nth] in H. rewrite Rabs_left in H; lra.
    + intros H [|p] vid th a i Hv Hth Ha Hi; simpl in Hv, Hth; [|destruct p; discriminate]. injection Hv as <-. injection Hth as <-. simpl in Ha. injection Ha as <-.
      destruct i as [|i]; [|simpl in Hi; lia]. rewrite N. simpl. rewrite Rabs_left; lra.
Qed.

(** [C58_accepts_grad] applies to the sum of the elements of a matrix product:
    the gradient for the left factor passes with every step and tolerance. *)
Example C58_accepts_grad_met : forall a b c d e f eps tol, 0 < eps -> 0 <= tol ->
  let env := [Arr [2%nat; 2%nat] [a; b; c; d]; Arr [2%nat; 1%nat] [e; f]] in
  let base := fun _ : nat => Arr [] [0] in
  let objective := fun env => elements_sum (aval (leaves prod_graph base env) prod_graph 2) in
  check (fun env => Some (Arr [] [objective env], env))
        (map (fun r => Some (aval (leaves prod_graph base env) (res_graph prod_result) (fst r))) (res_tensors prod_result))
        eps tol [0%nat] env = Passed env.
Proof.
  intros a b c d e f eps tol He Ht env base objective.
  assert (OK : exists log, prod_result = Ok (res_tensors prod_result, res_graph prod_result, log)).
  { apply is_ok_sound. vm_compute. reflexivity. }
  destruct OK as [log OK].
  refine (C58_accepts_grad (@max_pop top) true 100 prod_ls 2 [0%nat] [0%nat] prod_graph (res_graph prod_result) (res_tensors prod_result) log base env
    (fun env => Some (Arr [] [objective env], env)) eps tol 0 _ _ _ _ _ _ _ _ OK _ _ _ _ He _ _).
  - apply twf_b_sound. vm_compute. reflexivity.
  - intros. apply max_pop_ok.
  - apply fits_b_sound. vm_compute. reflexivity.
  - exists [2%nat; 1%nat]. vm_compute. reflexivity.
  - repeat constructor. intros [].
  - intros x [<-|[]]. eexists; repeat split; reflexivity.
  - repeat constructor. eexists. split; reflexivity.
  - intros i j vid (n & E1 & E2) (m & E3 & E4).
    assert (B : forall i n vid, nth_error prod_graph i = Some n -> n_var n = Some vid -> i = vid).
    { clear. intros i n vid E V. destruct i as [|[|[|i]]]; cbv in E; try (injection E as <-; simpl in V; congruence). destruct i; discriminate. }
    rewrite (B _ _ _ E1 E2), (B _ _ _ E3 E4). reflexivity.
  - intros [|[|[|i]]]; split; try reflexivity; destruct i; reflexivity.
  - intros x _. apply t_smooth_b_sound. vm_compute. reflexivity.
  - intros vid [<-|[]]. simpl. lia.
  - intros vid i t. reflexivity.
  - lra.
  - intros [|p] vid th x i Hv Hth Ha Hi; [|destruct p; discriminate]. simpl in Hv. injection Hv as <-. simpl in Ha. injection Ha as <-.
    assert (V : forall a b c d, elements_sum (aval (leaves prod_graph base [Arr [2%nat; 2%nat] [a; b; c; d]; Arr [2%nat; 1%nat] [e; f]]) prod_graph 2) = a * e + b * f + (c * e + d * f)).
    { intros a0 b0 c0 d0. destruct (prod_gradient (leaves prod_graph base [Arr [2%nat; 2%nat] [a0; b0; c0; d0]; Arr [2%nat; 1%nat] [e; f]]) a0 b0 c0 d0 e f eq_refl eq_refl) as (_ & _ & -> & _).
      unfold elements_sum. simpl. ring. }
    assert (Q : exists u w, forall t, objective (shift env 0 i t) = u + w * t).
    { clear Hth th. unfold objective. simpl in Hi. destruct i as [|[|[|[|i]]]]; [| | | |lia];
      [exists (a * e + b * f + (c * e + d * f)), e | exists (a * e + b * f + (c * e + d * f)), f | exists (a * e + b * f + (c * e + d * f)), e | exists (a * e + b * f + (c * e + d * f)), f];
      intros t; unfold shift, env; cbn -[prod_graph aval elements_sum leaves Rplus Rmult]; rewrite V; ring. }
    destruct Q as (u & w & Q). exists w, (fun _ => w), (fun _ => 0), (fun _ => 0). split; [|reflexivity].
    intros t _. split; [|split; [apply derivable_pt_lim_const|split; [apply derivable_pt_lim_const|rewrite Rabs_R0; lra]]].
    apply (derivable_ext (fun t => u + w * t)); [intros; symmetry; apply Q|].
    pose proof (derivable_pt_lim_scal (fun t : R => t) w t 1 (derivable_pt_lim_id t)) as D1. rewrite Rmult_1_r in D1.
    pose proof (derivable_pt_lim_plus (fun _ => u) (fun t => w * t) t 0 w (derivable_pt_lim_const u t) D1) as D2. rewrite Rplus_0_l in D2. exact D2.
Qed.
