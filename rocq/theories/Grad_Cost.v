(** The size of what gradient construction adds to a graph. *)
From Coq Require Import List Arith Bool Lia Permutation.
Import ListNotations.
From Verif Require Import Graph_Model Eval_Model Eval_Proofs Grad_Model.

(** ** Sums over maps *)
Definition below (f : nat -> nat) (n : nat) : nat := list_sum (map f (seq 0 n)).
Lemma sum_le (f h : nat -> nat) l : (forall x, In x l -> f x <= h x) -> list_sum (map f l) <= list_sum (map h l).
Proof.
  induction l as [|a l IH]; intros H; simpl; [lia|]. pose proof (H a (or_introl eq_refl)).
  specialize (IH (fun x Hx => H x (or_intror Hx))). lia.
Qed.
Lemma sum_incl (f : nat -> nat) l : forall l', NoDup l -> incl l l' -> list_sum (map f l) <= list_sum (map f l').
Proof.
  induction l as [|a l IH]; intros l' N I; simpl; [lia|]. inv N.
  destruct (in_split a l' (I a (or_introl eq_refl))) as (l1 & l2 & ->).
  rewrite map_app, list_sum_app. simpl.
  assert (Hi : incl l (l1 ++ l2)).
  { intros z Hz. specialize (I z (or_intror Hz)). apply in_app_iff in I. apply in_app_iff.
    destruct I as [I|[->|I]]; [auto|contradiction|auto]. }
  specialize (IH (l1 ++ l2) H2 Hi). rewrite map_app, list_sum_app in IH. lia.
Qed.
Lemma sum_in (f : nat -> nat) x l : In x l -> f x <= list_sum (map f l).
Proof. induction l as [|a l IH]; intros H; [destruct H|]. simpl. destruct H as [->|H]; [lia|]. specialize (IH H). lia. Qed.
Lemma sum_bump (f h : nat -> nat) k l : NoDup l -> (forall i, i <> k -> h i <= f i) -> h k <= S (f k) ->
  list_sum (map h l) <= S (list_sum (map f l)).
Proof.
  intros N Ho Hk. induction N as [|a l Ha N IH]; simpl; [lia|]. destruct (Nat.eq_dec a k) as [->|E].
  - assert (list_sum (map h l) <= list_sum (map f l)).
    { apply sum_le. intros z Hz. apply Ho. intros ->. contradiction. }
    lia.
  - specialize (Ho a E). lia.
Qed.

Section Cost.
  Context {O S T : Type}.
  Variable g : graph O.
  Variable opgrad : nat -> T -> S -> option (list (option T) * S).
  Variable addn : list T -> S -> option (T * S).
  Variable one : S -> option (T * S).
  Variable zeros_like : nat -> S -> option (T * S).
  Variable pop : list nat -> option (nat * list nat).
  Variable debug : bool.

  Variable size : S -> nat.
  Variables w A B U Z : nat.
  Hypothesis Hrule : forall y gy s gxs s', opgrad y gy s = Some (gxs, s') -> size s' <= size s + B.
  Hypothesis Hadd : forall l s t s', addn l s = Some (t, s') -> size s' <= size s + A + w * length l.
  Hypothesis Hone : forall s t s', one s = Some (t, s') -> size s' <= size s + U.
  Hypothesis Hzeros : forall x s t s', zeros_like x s = Some (t, s') -> size s' <= size s + Z.

  (** Gradients held for a tensor. *)
  Definition held (m : @gradmap T) (i : nat) : nat := match m i with Some x => length (grads x) | None => 0 end.
  (** Operands of the tensor [i]. *)
  Definition fanin (i : nat) : nat := match nth_error g i with Some n => length (get_backprop_inputs n) | None => 0 end.

  Lemma gradient_cost l s t l' s' : gradient addn l s = Some (t, l', s') ->
    size s' <= size s + A + w * length l /\ length l' = length l.
  Proof.
    unfold gradient. destruct l as [|t0 [|t1 l]]; intros H; [discriminate|inv H; simpl; lia|].
    destruct (addn (t0 :: t1 :: l) s) as [[t2 s2]|] eqn:E; [|discriminate]. inv H. apply Hadd in E. simpl in *. lia.
  Qed.

  Lemma push_held m k t m' : push_grad m k t = Some m' ->
    held m' k = Datatypes.S (held m k) /\ forall i, i <> k -> held m' i = held m i.
  Proof.
    unfold push_grad. destruct (m k) as [x|] eqn:E; [|discriminate]. intros H; inv H. unfold held, gm_set. split.
    - rewrite Nat.eqb_refl, E. cbn [grads]. rewrite app_length. simpl. lia.
    - intros i Hi. apply Nat.eqb_neq in Hi. rewrite Hi. reflexivity.
  Qed.
  Lemma push_sum m k t m' n : push_grad m k t = Some m' ->
    (forall i, held m i <= held m' i) /\ below (held m') n <= Datatypes.S (below (held m) n).
  Proof.
    intros H. destruct (push_held _ _ _ _ H) as [H1 H2]. split.
    - intros i. destruct (Nat.eq_dec i k) as [->|E]; [lia|rewrite H2; auto].
    - apply (sum_bump _ _ k); [apply seq_NoDup| |lia]. intros i Hi. rewrite H2; auto.
  Qed.
  Lemma register_cost : forall cs gxs m heap m' heap', register g cs gxs m heap = Some (m', heap') ->
    (forall i, held m i <= held m' i) /\ forall n, below (held m') n <= below (held m) n + length cs.
  Proof.
    induction cs as [|c cs IH]; intros gxs m heap m' heap' H; cbn [register] in H; [inv H; split; intros; simpl; lia|].
    destruct gxs as [|gx gxs]; [inv H; split; intros; simpl; lia|].
    destruct (nth_error g (in_id c)) as [nd|]; [|discriminate]. destruct (m (in_id c)) as [x|] eqn:Em; [|discriminate].
    assert (Q : forall m1 hp, register g cs gxs m1 hp = Some (m', heap') -> (forall i, held m i <= held m1 i) ->
      (forall n, below (held m1) n <= below (held m) n + 1) ->
      (forall i, held m i <= held m' i) /\ forall n, below (held m') n <= below (held m) n + length (c :: cs)).
    { intros m1 hp E L1 L2. apply IH in E. destruct E as [E1 E2]. split.
      - intros i. specialize (L1 i). specialize (E1 i). lia.
      - intros n. specialize (L2 n). specialize (E2 n). simpl. lia. }
    destruct (on_path x); [destruct gx as [t|]|].
    - destruct (push_grad m (in_id c) t) as [m1|] eqn:Ep; [|discriminate]. apply (Q _ _ H).
      + apply (push_sum _ _ _ _ 0 Ep).
      + intros n. destruct (push_sum _ _ _ _ n Ep). lia.
    - apply (Q _ _ H); intros; lia.
    - apply (Q _ _ H); intros; lia.
  Qed.

  (** What the main loop has spent, in terms of the tensors processed. *)
  Definition spent (s0 : nat) (st : @gstate S T) : Prop :=
    size (gs_s st) <= s0 + (A + B) * length (gs_log st) + w * list_sum (map (held (gs_map st)) (gs_log st)).
  Definition bounded (h0 : nat) (st : @gstate S T) : Prop :=
    forall n, below (held (gs_map st)) n <= h0 + list_sum (map fanin (gs_log st)).

  Lemma step_cost st st' s0 h0 : back_step g opgrad addn pop debug st = Ok (Some st') ->
    spent s0 st -> bounded h0 st -> spent s0 st' /\ bounded h0 st'.
  Proof.
    unfold back_step. destruct (pop (gs_heap st)) as [[y heap]|]; [|discriminate].
    destruct (nth_error g y) as [n|] eqn:En; [|discriminate]. destruct (gs_map st y) as [x|] eqn:Em; [|discriminate].
    destruct (gradient addn (grads x) (gs_s st)) as [[[gy l'] s1]|] eqn:Eg; [|discriminate].
    destruct (opgrad y gy s1) as [[gxs s2]|] eqn:Eo; [|discriminate]. destruct (debug && _); [discriminate|].
    destruct (register g _ gxs _ heap) as [[m' heap']|] eqn:Er; [|discriminate]. intros H Hs Hb. inv H.
    apply gradient_cost in Eg. destruct Eg as [Eg1 Eg2]. apply Hrule in Eo. apply register_cost in Er. destruct Er as [Er1 Er2].
    assert (Hsame : forall i, held (gm_set (gs_map st) y (Info (on_path x) l')) i = held (gs_map st) i).
    { intros i. unfold held, gm_set. destruct (i =? y) eqn:Ei; [|reflexivity]. apply Nat.eqb_eq in Ei. subst i. rewrite Em. exact Eg2. }
    assert (Hsum : forall k, below (held (gm_set (gs_map st) y (Info (on_path x) l'))) k = below (held (gs_map st)) k).
    { intros k. unfold below. f_equal. apply map_ext. exact Hsame. }
    unfold spent, bounded in *. cbn [gs_s gs_log gs_map map list_sum fold_right length]. split.
    - assert (L1 : list_sum (map (held (gs_map st)) (gs_log st)) <= list_sum (map (held m') (gs_log st))).
      { apply sum_le. intros i _. rewrite <- Hsame. apply Er1. }
      assert (L2 : length (grads x) <= held m' y).
      { rewrite <- (Er1 y), Hsame. unfold held. rewrite Em. lia. }
      change (fold_right Nat.add 0 (map (held m') (gs_log st))) with (list_sum (map (held m') (gs_log st))). nia.
    - intros k. specialize (Er2 k). specialize (Hb k). rewrite Hsum in Er2. unfold fanin at 1. rewrite En.
      change (fold_right Nat.add 0 (map fanin (gs_log st))) with (list_sum (map fanin (gs_log st))). lia.
  Qed.
  Lemma loop_cost s0 h0 : forall fuel st st', back_loop g opgrad addn pop debug fuel st = Ok st' ->
    spent s0 st -> bounded h0 st -> spent s0 st' /\ bounded h0 st'.
  Proof.
    induction fuel as [|fuel IH]; intros st st' H Hs Hb; cbn [back_loop] in H; [discriminate|].
    destruct (back_step g opgrad addn pop debug st) as [[st1|]| |] eqn:E; try discriminate.
    - destruct (step_cost _ _ _ _ E Hs Hb). eauto.
    - inv H. auto.
  Qed.

  Lemma seeds_cost : forall ys gys m m', push_seeds ys gys m = Some m' ->
    forall n, below (held m') n <= below (held m) n + length ys.
  Proof.
    induction ys as [|y ys IH]; intros gys m m' H n; cbn [push_seeds] in H; [inv H; lia|].
    destruct gys as [|gy gys]; [inv H; lia|]. destruct (push_grad m y gy) as [m1|] eqn:E; [|discriminate].
    destruct (push_sum _ _ _ _ n E) as [_ L]. specialize (IH _ _ _ H n). simpl. lia.
  Qed.
  Lemma init_held pm n : below (held (@gm_init T pm)) n = 0.
  Proof.
    unfold below. assert (E : forall l, list_sum (map (held (@gm_init T pm)) l) = 0).
    { induction l as [|a l IH]; [reflexivity|]. simpl. unfold held at 1, gm_init. destruct (pm a); simpl; exact IH. }
    apply E.
  Qed.

  Lemma extract_cost : forall xs m s l s', extract_all addn zeros_like xs m s = Some (l, s') ->
    size s' <= size s + (A + Z) * length xs + w * list_sum (map (held m) xs).
  Proof.
    induction xs as [|x xs IH]; intros m s l s' H; cbn [extract_all] in H; [inv H; simpl; lia|].
    destruct (extract_grad addn m x s) as [[[[t|] m1] s1]|] eqn:E; [| |discriminate].
    - destruct (extract_all addn zeros_like xs m1 s1) as [[l2 s2]|] eqn:E2; [|discriminate]. inv H. apply IH in E2.
      unfold extract_grad in E. destruct (m x) as [inf|] eqn:Em; [|discriminate]. destruct (on_path inf); [|discriminate].
      destruct (gradient addn (grads inf) s) as [[[t0 l'] s0]|] eqn:Eg; [|discriminate]. inv E.
      apply gradient_cost in Eg. destruct Eg as [Eg1 Eg2].
      assert (Hsame : forall i, held (gm_set m x (Info true l')) i = held m i).
      { intros i. unfold held, gm_set. destruct (i =? x) eqn:Ei; [|reflexivity]. apply Nat.eqb_eq in Ei. subst i. rewrite Em. exact Eg2. }
      rewrite (map_ext _ _ Hsame) in E2. cbn [map list_sum fold_right length].
      change (fold_right Nat.add 0 (map (held m) xs)) with (list_sum (map (held m) xs)).
      assert (Hx : held m x = length (grads inf)) by (unfold held; rewrite Em; reflexivity). nia.
    - destruct (zeros_like x s1) as [[t s2]|] eqn:Ez; [|discriminate]. apply Hzeros in Ez.
      destruct (extract_all addn zeros_like xs m1 s2) as [[l2 s3]|] eqn:E2; [|discriminate]. inv H. apply IH in E2.
      assert (Em : m1 = m /\ s1 = s).
      { unfold extract_grad in E. destruct (m x) as [inf|]; [|inv E; auto]. destruct (on_path inf); [|inv E; auto].
        destruct (gradient addn (grads inf) s) as [[[t0 l'] s0]|]; discriminate. }
      destruct Em as [-> ->]. cbn [map list_sum fold_right length].
      change (fold_right Nat.add 0 (map (held m) xs)) with (list_sum (map (held m) xs)). nia.
  Qed.

  (** Whenever gradients are returned, with [log] the tensors whose rules were called. *)
  Theorem gradient_cost_bound fuel ys xs gys s l s' log :
    grad_with_default g opgrad addn one zeros_like pop debug fuel ys xs gys s = Ok (l, s', log) ->
    (w = 0 \/ (NoDup log /\ NoDup xs)) ->
    size s' <= size s + U + (A + B) * length log + (A + Z) * length xs +
               2 * w * (length ys + list_sum (map fanin log)).
  Proof.
    unfold grad_with_default, compute_gradients. destruct (no_outputs ys); [discriminate|].
    destruct (init_path_map g fuel ys xs) as [pm| |]; try discriminate. intros H Hw.
    assert (Q : forall s1 l1, size s1 <= size s + U ->
      match match push_seeds ys l1 (gm_init pm) with
            | Some m => back_loop g opgrad addn pop debug fuel (GState m ys s1 [])
            | None => Panic end with
      | Ok st => match extract_all addn zeros_like xs (gs_map st) (gs_s st) with Some (l, s') => Ok (l, s', gs_log st) | None => Panic end
      | Panic => Panic
      | OutOfFuel => OutOfFuel
      end = Ok (l, s', log) ->
      size s' <= size s + U + (A + B) * length log + (A + Z) * length xs + 2 * w * (length ys + list_sum (map fanin log))).
    { intros s1 l1 Hs1 E. destruct (push_seeds ys l1 (gm_init pm)) as [m|] eqn:Ep; [|discriminate].
      destruct (back_loop _ _ _ _ _ _ _) as [st| |] eqn:El; try discriminate.
      destruct (extract_all _ _ _ _ _) as [[l2 s2]|] eqn:Ee; [|discriminate]. inv E.
      pose proof (seeds_cost _ _ _ _ Ep) as Hseed.
      destruct (loop_cost (size s + U) (length ys) _ _ _ El) as [Hs Hb].
      { unfold spent. cbn [gs_s gs_log length map list_sum fold_right]. lia. }
      { intros n. cbn [gs_map gs_log map list_sum fold_right]. specialize (Hseed n). rewrite init_held in Hseed. lia. }
      apply extract_cost in Ee. unfold spent in Hs.
      destruct Hw as [->|[Nl Nx]]; [lia|].
      assert (K : forall ids, NoDup ids -> list_sum (map (held (gs_map st)) ids) <= length ys + list_sum (map fanin (gs_log st))).
      { intros ids N. etransitivity; [|apply (Hb (Datatypes.S (list_max ids)))]. apply sum_incl; [exact N|].
        intros i Hi. apply in_seq. split; [lia|]. simpl.
        assert (i <= list_max ids).
        { pose proof (proj1 (list_max_le ids (list_max ids)) (le_n _)) as F. rewrite Forall_forall in F. apply F; exact Hi. }
        lia. }
      pose proof (K _ Nl). pose proof (K _ Nx). nia. }
    destruct gys as [l0|].
    - destruct (length ys =? length l0)%nat; [|discriminate]. apply (Q s l0); [lia|exact H].
    - destruct (one s) as [[t s1]|] eqn:E1; [|discriminate]. apply Hone in E1. apply (Q s1 (map (fun _ => t) ys)); auto.
  Qed.
End Cost.
