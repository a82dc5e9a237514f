(** Lemmas about the gradient checker. *)
From Coq Require Import List Arith Bool Reals Lia Lra.
Import ListNotations.
From Verif Require Import Array_Model Check_Model Check_Spec.
Local Open Scope R_scope.

Definition plain (vid i : nat) : nat := i.
Definition rgt (x y : R) : bool := if Rlt_dec y x then true else false.

(** ** Updating one element *)
Lemma set_at_nth {A} (x : A) l : forall k j, (k < length l)%nat -> nth_error (set_at k x l) j = if (j =? k)%nat then Some x else nth_error l j.
Proof.
  induction l as [|a l IH]; intros k j H; simpl in *; [lia|]. destruct k as [|k]; destruct j as [|j]; simpl; auto. apply IH. lia.
Qed.
Lemma set_at_len {A} (x : A) l : forall k, length (set_at k x l) = length l.
Proof. induction l as [|a l IH]; intros [|k]; simpl; auto. Qed.
Lemma nth_ext_error {A} (l : list A) : forall l', (forall k, nth_error l k = nth_error l' k) -> l = l'.
Proof.
  induction l as [|a l IH]; intros [|b l'] H; auto; try (specialize (H 0%nat); discriminate).
  f_equal; [specialize (H 0%nat); simpl in H; congruence|]. apply IH. intros k. exact (H (S k)).
Qed.
Lemma with_index_nth {A} (l : list A) k : nth_error (with_index l) k = option_map (fun x => (k, x)) (nth_error l k).
Proof.
  unfold with_index. assert (H : forall d k, nth_error (combine (seq d (length l)) l) k = option_map (fun x => ((d + k)%nat, x)) (nth_error l k)).
  { clear. induction l as [|a l IH]; intros d [|k]; simpl; auto. - rewrite Nat.add_0_r. reflexivity. - rewrite IH. destruct (nth_error l k); simpl; do 2 f_equal. lia. }
  rewrite H. reflexivity.
Qed.
Lemma nth_error_map' {A B} (f : A -> B) l k : nth_error (map f l) k = option_map f (nth_error l k).
Proof. revert k. induction l as [|a l IH]; intros [|k]; simpl; auto. Qed.

Section Upd.
  Context {F : Type}.
  Notation env_t := (list (arr F)).
  Lemma peek_some (env : env_t) vid i a x : nth_error env vid = Some a -> nth_error (a_data a) i = Some x -> peek plain env vid i = Some x.
  Proof. intros H H'. unfold peek, plain. rewrite H. exact H'. Qed.
  Lemma nth_error_lt {A} (l : list A) k x : nth_error l k = Some x -> (k < length l)%nat.
  Proof. intros H. apply nth_error_Some. congruence. Qed.
  Lemma poke_nth (env : env_t) vid i x a : nth_error env vid = Some a ->
    forall v, nth_error (poke plain env vid i x) v = if (v =? vid)%nat then Some (Arr (a_shape a) (set_at i x (a_data a))) else nth_error env v.
  Proof. intros H v. unfold poke, plain. rewrite H. apply set_at_nth. eapply nth_error_lt; exact H. Qed.
  Lemma arr_eta (a : arr F) : Arr (a_shape a) (a_data a) = a.
  Proof. destruct a; reflexivity. Qed.
  Lemma set_at_twice {A} (x y : A) l : forall k, set_at k y (set_at k x l) = set_at k y l.
  Proof. induction l as [|a l IH]; intros [|k]; simpl; auto. f_equal. apply IH. Qed.
  Lemma set_at_same {A} (x : A) l : forall k, nth_error l k = Some x -> set_at k x l = l.
  Proof. induction l as [|a l IH]; intros [|k] H; simpl in *; try discriminate; [congruence|]. f_equal. apply IH. exact H. Qed.
  Lemma poke_poke (env : env_t) vid i x y : poke plain (poke plain env vid i x) vid i y = poke plain env vid i y.
  Proof.
    destruct (nth_error env vid) as [a|] eqn:E.
    - apply nth_ext_error. intros v.
      assert (E' : nth_error (poke plain env vid i x) vid = Some (Arr (a_shape a) (set_at i x (a_data a)))).
      { rewrite (poke_nth _ _ _ _ _ E), Nat.eqb_refl. reflexivity. }
      rewrite (poke_nth _ _ _ _ _ E'), !(poke_nth _ _ _ _ _ E). cbn [a_shape a_data]. rewrite set_at_twice. destruct (v =? vid)%nat; reflexivity.
    - unfold poke at 2. rewrite E. reflexivity.
  Qed.
  Lemma poke_self (env : env_t) vid i x : peek plain env vid i = Some x -> poke plain env vid i x = env.
  Proof.
    unfold peek, plain. intros H. destruct (nth_error env vid) as [a|] eqn:E; [|discriminate]. apply nth_ext_error. intros v.
    rewrite (poke_nth _ _ _ _ _ E), (set_at_same _ _ _ H), arr_eta. destruct (Nat.eqb_spec v vid) as [->|]; auto.
  Qed.
End Upd.

Lemma poke_shift env vid i x t : peek plain env vid i = Some x -> poke plain env vid i (x + t) = shift env vid i t.
Proof.
  unfold peek, plain. intros H. destruct (nth_error env vid) as [a|] eqn:E; [|discriminate]. apply nth_ext_error. intros v.
  rewrite (poke_nth _ _ _ _ _ E). unfold shift. rewrite nth_error_map', with_index_nth.
  destruct (Nat.eqb_spec v vid) as [->|N].
  - rewrite E. cbn [option_map fst snd]. rewrite Nat.eqb_refl. do 2 f_equal. apply nth_ext_error. intros k.
    rewrite set_at_nth by (eapply nth_error_lt; exact H). rewrite nth_error_map', with_index_nth.
    destruct (Nat.eqb_spec k i) as [->|M].
    + rewrite H. cbn [option_map fst snd]. rewrite Nat.eqb_refl. reflexivity.
    + destruct (nth_error (a_data a) k); cbn [option_map fst snd]; auto. destruct (Nat.eqb_spec k i); [contradiction|reflexivity].
  - destruct (nth_error env v); cbn [option_map fst snd]; auto. destruct (Nat.eqb_spec v vid); [contradiction|reflexivity].
Qed.

(** ** The loops, over the reals *)
Section Real.
  Variable run_objective : list (arr R) -> option (arr R * list (arr R)).
  Variable f : list (arr R) -> R.
  Variables (eps tol : R).
  Variable env : list (arr R).
  Hypothesis Hobj : forall vid i t, run_objective (shift env vid i t) = Some (Arr [] [f (shift env vid i t)], shift env vid i t).
  Notation check_element := (check_element Rplus Rminus Rmult Rdiv Rabs 0 1 rgt run_objective plain eps tol).
  Notation check_elements := (check_elements Rplus Rminus Rmult Rdiv Rabs 0 1 rgt run_objective plain eps tol).
  Notation check_variables := (check_variables Rplus Rminus Rmult Rdiv Rabs 0 1 rgt run_objective plain eps tol).

  Definition numeric (vid i : nat) : R := (f (shift env vid i eps) - f (shift env vid i (- eps))) / (2 * eps).
  Definition close (vid : nat) (th : arr R) (i : nat) : Prop := Rabs (numeric vid i - nth i (a_data th) 0) <= tol.

  Lemma check_element_ok vid th i a : nth_error env vid = Some a -> (i < length (a_data a))%nat -> (i < length (a_data th))%nat ->
    check_element vid th i env = if Rlt_dec tol (Rabs (numeric vid i - nth i (a_data th) 0))
      then Differs env (numeric vid i) (nth i (a_data th) 0) else Passed env.
  Proof.
    intros E Hi Ht. unfold Check_Model.check_element.
    destruct (nth_error (a_data a) i) as [x|] eqn:X; [|apply nth_error_None in X; lia].
    pose proof (peek_some env vid i a x E X) as P. rewrite P.
    rewrite (poke_shift _ _ _ _ eps P), Hobj. cbv beta iota.
    assert (BACK : forall t y, poke plain (shift env vid i t) vid i y = poke plain env vid i y).
    { intros t y. rewrite <- (poke_shift _ _ _ _ t P). apply poke_poke. }
    rewrite BACK. replace (x - eps) with (x + - eps) by ring.
    rewrite (poke_shift _ _ _ _ (- eps) P), Hobj. cbv beta iota zeta. rewrite BACK, (poke_self _ _ _ _ P).
    destruct (nth_error (a_data th) i) as [t|] eqn:T; [|apply nth_error_None in T; lia].
    rewrite (nth_error_nth _ _ 0 T).
    assert (S : slope Rplus Rminus Rmult Rdiv 0 1 eps (Arr [] [f (shift env vid i eps)]) (Arr [] [f (shift env vid i (- eps))]) = numeric vid i).
    { unfold slope, total, numeric. cbn [a_shape a_data map2 fold_left]. rewrite Rplus_0_l. reflexivity. }
    rewrite S. unfold rgt. destruct (Rlt_dec tol _); reflexivity.
  Qed.

  Lemma check_elements_ok vid th a : nth_error env vid = Some a -> forall is,
    (forall i, In i is -> (i < length (a_data a))%nat /\ (i < length (a_data th))%nat) ->
    (check_elements vid th is env = Passed env <-> forall i, In i is -> close vid th i) /\
    (check_elements vid th is env = Passed env \/ exists num t, check_elements vid th is env = Differs env num t).
  Proof.
    intros E is. induction is as [|i is IH]; intros H.
    - simpl. split; [split; auto; intros _ i []|auto].
    - simpl. destruct (H i) as [A B]; [left; reflexivity|]. rewrite (check_element_ok _ _ _ _ E A B).
      destruct IH as [IH1 IH2]; [intros j Hj; apply H; right; exact Hj|].
      destruct (Rlt_dec tol _) as [L|L].
      + split; [|right; eauto]. split; [discriminate|]. intros C. specialize (C i (or_introl eq_refl)). unfold close in C. lra.
      + split; [|exact IH2]. rewrite IH1. split; intros C; [|intros j Hj; apply C; right; exact Hj].
        intros j [<-|Hj]; auto. unfold close. lra.
  Qed.

  Lemma check_variables_ok variables : forall ths, matching variables ths env ->
    (check_variables variables ths env = Passed env <-> every_element variables ths env close) /\
    (check_variables variables ths env = Passed env \/ exists num t, check_variables variables ths env = Differs env num t).
  Proof.
    induction variables as [|vid variables IH]; intros ths M.
    - simpl. split; [split; auto; intros _ p v th a i Q; destruct p; discriminate|auto].
    - destruct ths as [|th ths].
      + simpl. split; [split; auto; intros _ p v t a i _ Q; destruct p; discriminate|auto].
      + destruct (M 0%nat vid th eq_refl eq_refl) as (a & t & E & -> & L).
        destruct (IH ths) as [IH1 IH2]. { intros p v t' Hv Ht. exact (M (S p) v t' Hv Ht). }
        cbn [Check_Model.check_variables]. rewrite E.
        destruct (check_elements_ok vid t a E (seq 0 (length (a_data a)))) as [C1 C2]. { intros i Hi. apply in_seq in Hi. lia. }
        destruct C2 as [C2|(num & u & C2)]; rewrite C2.
        * split; [|exact IH2]. rewrite IH1. assert (K : forall i, In i (seq 0 (length (a_data a))) -> close vid t i) by (apply C1; exact C2).
          split; intros Q.
          -- intros [|p] v t' a' i Hv Ht Ha Hi; simpl in Hv, Ht.
             ++ injection Hv as <-. injection Ht as <-. rewrite E in Ha. injection Ha as <-. apply K. apply in_seq. lia.
             ++ eapply Q; eauto.
          -- intros p v t' a' i Hv Ht Ha Hi. exact (Q (S p) v t' a' i Hv Ht Ha Hi).
        * split; [|right; eauto]. split; [discriminate|]. intros Q. exfalso.
          assert (K : check_elements vid t (seq 0 (length (a_data a))) env = Passed env).
          { apply C1. intros i Hi. apply in_seq in Hi. apply (Q 0%nat vid t a i); auto; lia. }
          congruence.
  Qed.
End Real.

(** ** Central differences *)
Lemma grows (u u' c c' : R -> R) (h : R) : 0 <= h ->
  (forall t, 0 <= t <= h -> derivable_pt_lim u t (u' t)) -> (forall t, 0 <= t <= h -> derivable_pt_lim c t (c' t)) ->
  (forall t, 0 <= t <= h -> Rabs (u' t) <= c' t) -> u 0 = 0 -> c 0 = 0 -> Rabs (u h) <= c h.
Proof.
  intros Hh Du Dc B U0 C0. destruct (Req_dec h 0) as [->|N]; [rewrite U0, C0, Rabs_R0; lra|].
  assert (K : forall s, s = 1 \/ s = - 1 -> s * u h <= c h).
  { intros s Hs.
    destruct (MVT_cor2 (fun t => c t - s * u t) (fun t => c' t - s * u' t) 0 h) as (z & E & Z).
    - lra.
    - intros t Ht. apply (derivable_pt_lim_minus c (fun t => s * u t)); [apply Dc; lra|]. apply derivable_pt_lim_scal. apply Du. lra.
    - assert (P : 0 <= c' z - s * u' z).
      { specialize (B z ltac:(lra)). pose proof (Rle_abs (u' z)). pose proof (Rle_abs (- u' z)) as L. rewrite Rabs_Ropp in L. destruct Hs as [-> | ->]; lra. }
      rewrite U0, C0 in E. nra. }
  apply Rabs_le. pose proof (K 1 (or_introl eq_refl)). pose proof (K (- 1) (or_intror eq_refl)). lra.
Qed.

Lemma central_difference f f1 f2 f3 h M : 0 < h ->
  (forall t, Rabs t <= h -> derivable_pt_lim f t (f1 t) /\ derivable_pt_lim f1 t (f2 t) /\ derivable_pt_lim f2 t (f3 t) /\ Rabs (f3 t) <= M) ->
  Rabs ((f h - f (- h)) / (2 * h) - f1 0) <= M * (h * h) / 6.
Proof.
  intros Hh D.
  assert (In' : forall t, 0 <= t <= h -> Rabs t <= h /\ Rabs (- t) <= h).
  { intros t Ht. rewrite Rabs_Ropp, Rabs_right by lra. lra. }
  assert (Opp : forall (k k' : R -> R) t, derivable_pt_lim k (- t) (k' (- t)) -> derivable_pt_lim (fun t => k (- t)) t (- k' (- t))).
  { intros k k' t H. replace (- k' (- t)) with (k' (- t) * - 1) by ring.
    apply (derivable_pt_lim_comp (fun t => - t) k); [|exact H].
    replace (- 1) with (- (1)) by ring. apply (derivable_pt_lim_opp (fun t => t)). apply derivable_pt_lim_id. }
  (* second derivative of the odd part *)
  assert (S2 : forall t, 0 <= t <= h -> Rabs (f2 t - f2 (- t)) <= 2 * M * t).
  { intros t Ht. apply (grows (fun t => f2 t - f2 (- t)) (fun t => f3 t + f3 (- t)) (fun t => 2 * M * t) (fun _ => 2 * M)); try lra.
    - intros s Hs. destruct (In' s) as [A B]; [lra|]. replace (f3 s + f3 (- s)) with (f3 s - (- f3 (- s))) by ring.
      apply (derivable_pt_lim_minus f2 (fun s => f2 (- s))); [apply D; exact A|]. apply (Opp f2 f3). apply D. exact B.
    - intros s Hs. pose proof (derivable_pt_lim_scal (fun t => t) (2 * M) s 1 (derivable_pt_lim_id s)) as Q. rewrite Rmult_1_r in Q. exact Q.
    - intros s Hs. destruct (In' s) as [A B]; [lra|]. destruct (D _ A) as (_ & _ & _ & P). destruct (D _ B) as (_ & _ & _ & Q).
      eapply Rle_trans; [apply Rabs_triang|]. lra.
    - rewrite Ropp_0. ring. }
  assert (S1 : forall t, 0 <= t <= h -> Rabs (f1 t + f1 (- t) - 2 * f1 0) <= M * (t * t)).
  { intros t Ht. apply (grows (fun t => f1 t + f1 (- t) - 2 * f1 0) (fun t => f2 t - f2 (- t)) (fun t => M * (t * t)) (fun t => 2 * M * t)); try lra.
    - intros s Hs. destruct (In' s) as [A B]; [lra|]. replace (f2 s - f2 (- s)) with (f2 s + - f2 (- s) - 0) by ring.
      apply (derivable_pt_lim_minus (fun s => f1 s + f1 (- s)) (fun _ => 2 * f1 0)); [|apply derivable_pt_lim_const].
      apply (derivable_pt_lim_plus f1 (fun s => f1 (- s))); [apply D; exact A|]. apply (Opp f1 f2). apply D. exact B.
    - intros s Hs. replace (2 * M * s) with (M * (1 * s + s * 1)) by ring. apply (derivable_pt_lim_scal (fun t => t * t)).
      apply (derivable_pt_lim_mult (fun t => t) (fun t => t)); apply derivable_pt_lim_id.
    - intros s Hs. apply S2. lra.
    - rewrite Ropp_0. ring. }
  assert (S0 : Rabs (f h - f (- h) - 2 * f1 0 * h) <= M * (h * h * h) / 3).
  { apply (grows (fun t => f t - f (- t) - 2 * f1 0 * t) (fun t => f1 t + f1 (- t) - 2 * f1 0) (fun t => M * (t * t * t) / 3) (fun t => M * (t * t))); try lra.
    - intros s Hs. destruct (In' s) as [A B]; [lra|]. replace (f1 s + f1 (- s) - 2 * f1 0) with (f1 s - - f1 (- s) - 2 * f1 0 * 1) by ring.
      apply (derivable_pt_lim_minus (fun s => f s - f (- s)) (fun t => 2 * f1 0 * t)).
      + apply (derivable_pt_lim_minus f (fun s => f (- s))); [apply D; exact A|]. apply (Opp f f1). apply D. exact B.
      + apply (derivable_pt_lim_scal (fun t => t)). apply derivable_pt_lim_id.
    - intros s Hs. replace (M * (s * s)) with (M / 3 * ((1 * s + s * 1) * s + s * s * 1)) by field.
      assert (Q : derivable_pt_lim (fun t => M / 3 * (t * t * t)) s (M / 3 * ((1 * s + s * 1) * s + s * s * 1))).
      { apply (derivable_pt_lim_scal (fun t => t * t * t)). apply (derivable_pt_lim_mult (fun t => t * t) (fun t => t)); [|apply derivable_pt_lim_id].
        apply (derivable_pt_lim_mult (fun t => t) (fun t => t)); apply derivable_pt_lim_id. }
      intros e He. destruct (Q e He) as (d & Hd). exists d. intros k K1 K2. specialize (Hd k K1 K2).
      replace (M * ((s + k) * (s + k) * (s + k)) / 3) with (M / 3 * ((s + k) * (s + k) * (s + k))) by field.
      replace (M * (s * s * s) / 3) with (M / 3 * (s * s * s)) by field. exact Hd.
    - intros s Hs. apply S1. lra.
    - rewrite Ropp_0. ring. }
  replace ((f h - f (- h)) / (2 * h) - f1 0) with ((f h - f (- h) - 2 * f1 0 * h) / (2 * h)) by (field; lra).
  unfold Rdiv. rewrite Rabs_mult, (Rabs_right (/ (2 * h))).
  2:{ apply Rle_ge. left. apply Rinv_0_lt_compat. lra. }
  apply (Rmult_le_reg_r (2 * h)); [lra|]. rewrite Rmult_assoc, Rinv_l, Rmult_1_r by lra.
  eapply Rle_trans; [exact S0|]. right. field.
Qed.
