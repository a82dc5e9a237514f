(** Finite sums over a commutative ring, and sums of array elements along a map
    of indices. *)
From Coq Require Import List Arith Bool Lia Permutation Ring_theory Ring.
Import ListNotations.
From Verif Require Import Eval_Proofs Array_Model Array_Proofs.

Section Sum.
  Context {A : Type} (rO rI : A) (radd rmul rsub : A -> A -> A) (ropp : A -> A).
  Hypothesis RT : ring_theory rO rI radd rmul rsub ropp eq.
  Add Ring Aring : RT.
  Infix "+!" := radd (at level 50, left associativity).
  Infix "*!" := rmul (at level 40, left associativity).

  Definition sumf {I} (l : list I) (f : I -> A) : A := fold_right (fun i s => f i +! s) rO l.

  Lemma sum_ext {I} (l : list I) f g : (forall i, In i l -> f i = g i) -> sumf l f = sumf l g.
  Proof. induction l as [|x l IH]; intros H; simpl; [reflexivity|]. rewrite IH by (intros; apply H; simpl; auto). rewrite H by (simpl; auto). reflexivity. Qed.
  Lemma sum_app {I} (l l' : list I) f : sumf (l ++ l') f = sumf l f +! sumf l' f.
  Proof. induction l as [|x l IH]; simpl; [ring|]. rewrite IH. ring. Qed.
  Lemma sum_add {I} (l : list I) f g : sumf l (fun i => f i +! g i) = sumf l f +! sumf l g.
  Proof. induction l as [|x l IH]; simpl; [ring|]. rewrite IH. ring. Qed.
  Lemma sum_scale {I} (l : list I) c f : sumf l (fun i => c *! f i) = c *! sumf l f.
  Proof. induction l as [|x l IH]; simpl; [ring|]. rewrite IH. ring. Qed.
  Lemma sum_scale_r {I} (l : list I) c f : sumf l (fun i => f i *! c) = sumf l f *! c.
  Proof. induction l as [|x l IH]; simpl; [ring|]. rewrite IH. ring. Qed.
  Lemma sum_opp {I} (l : list I) f : sumf l (fun i => ropp (f i)) = ropp (sumf l f).
  Proof. induction l as [|x l IH]; simpl; [ring|]. rewrite IH. ring. Qed.
  Lemma sum_zero {I} (l : list I) f : (forall i, In i l -> f i = rO) -> sumf l f = rO.
  Proof. induction l as [|x l IH]; intros H; simpl; [ring|]. rewrite H, IH; [ring| |simpl; auto]. intros; apply H; simpl; auto. Qed.
  Lemma sum_map {I J} (l : list I) (h : I -> J) f : sumf (map h l) f = sumf l (fun i => f (h i)).
  Proof. induction l as [|x l IH]; simpl; [reflexivity|]. rewrite IH. reflexivity. Qed.
  Lemma sum_flat_map {I J} (l : list I) (h : I -> list J) f : sumf (flat_map h l) f = sumf l (fun i => sumf (h i) f).
  Proof. induction l as [|x l IH]; simpl; [reflexivity|]. rewrite sum_app, IH. reflexivity. Qed.
  Lemma sum_perm {I} (l l' : list I) f : Permutation l l' -> sumf l f = sumf l' f.
  Proof. induction 1; simpl; try reflexivity; [rewrite IHPermutation; reflexivity|ring|congruence]. Qed.
  Lemma sum_swap {I J} (l : list I) (m : list J) f : sumf l (fun i => sumf m (fun j => f i j)) = sumf m (fun j => sumf l (fun i => f i j)).
  Proof.
    induction l as [|x l IH]; simpl.
    - symmetry. apply sum_zero. reflexivity.
    - rewrite IH, <- sum_add. reflexivity.
  Qed.
  Lemma sum_filter {I} (l : list I) b f : sumf (filter b l) f = sumf l (fun i => if b i then f i else rO).
  Proof. induction l as [|x l IH]; simpl; [reflexivity|]. destruct (b x); simpl; rewrite IH; ring. Qed.
  Lemma sum_one {I} (l : list I) (b : I -> bool) f j : NoDup l -> In j l -> b j = true ->
    (forall i, In i l -> b i = true -> i = j) -> sumf l (fun i => if b i then f i else rO) = f j.
  Proof.
    intros ND Hj Bj U. induction l as [|x l IH]; [inversion Hj|]. inv ND. simpl in *. destruct Hj as [->|Hj].
    - rewrite Bj. rewrite sum_zero; [ring|]. intros i Hi. destruct (b i) eqn:E; [|reflexivity]. exfalso.
      apply H1. rewrite (U i) in Hi; auto.
    - destruct (b x) eqn:E; [exfalso; apply H1; rewrite (U x); auto|]. rewrite IH by auto. ring.
  Qed.
  Lemma sum_fold_left {I} (l : list I) f acc : fold_left (fun s i => s +! f i) l acc = acc +! sumf l f.
  Proof. revert acc. induction l as [|x l IH]; intros acc; simpl; [ring|]. rewrite IH. ring. Qed.
  Lemma sum_list (l : list A) acc : fold_left radd l acc = acc +! sumf l (fun x => x).
  Proof. apply (sum_fold_left l (fun x => x)). Qed.

  (** ** Sums over indices *)
  Definition idx_eqb : list nat -> list nat -> bool := shape_eqb.
  Definition get := aget rO.

  (** [b] holds the sums of [a]'s elements over the fibres of [p]. *)
  Definition sums_along (p : list nat -> list nat) (a b : arr A) : Prop :=
    forall j, in_bounds (a_shape b) j ->
      get b j = sumf (filter (fun i => idx_eqb (p i) j) (indices (a_shape a))) (get a).

  Definition maps_into (p : list nat -> list nat) (sh sh' : list nat) : Prop :=
    forall i, in_bounds sh i -> in_bounds sh' (p i).

  (** The inner product of two arrays of the same shape. *)
  Definition dotp (sh : list nat) (f g : list nat -> A) : A := sumf (indices sh) (fun i => f i *! g i).

  Lemma sum_fibres sh sh' p f : maps_into p sh sh' ->
    sumf (indices sh) f = sumf (indices sh') (fun j => sumf (filter (fun i => idx_eqb (p i) j) (indices sh)) f).
  Proof.
    intros M. symmetry.
    rewrite (sum_ext _ _ (fun j => sumf (indices sh) (fun i => if idx_eqb (p i) j then f i else rO)))
      by (intros; apply sum_filter).
    rewrite sum_swap. apply sum_ext. intros i Hi. apply indices_in in Hi.
    apply (sum_one (indices sh') (fun j => idx_eqb (p i) j) (fun _ => f i) (p i)).
    - apply indices_nodup.
    - apply indices_in. apply M. exact Hi.
    - apply shape_eqb_ok. reflexivity.
    - intros j _ E. apply shape_eqb_ok in E. congruence.
  Qed.

  (** Summing along [p] is adjoint to reading through [p]. *)
  Lemma sums_along_adjoint p a b v : maps_into p (a_shape a) (a_shape b) -> sums_along p a b ->
    dotp (a_shape b) (get b) v = dotp (a_shape a) (get a) (fun i => v (p i)).
  Proof.
    intros M S. unfold dotp. rewrite (sum_fibres (a_shape a) (a_shape b) p) by exact M.
    apply sum_ext. intros j Hj. rewrite S by (apply indices_in; exact Hj). rewrite <- sum_scale_r.
    apply sum_ext. intros i Hi. apply filter_In in Hi. destruct Hi as [_ E]. apply shape_eqb_ok in E. rewrite E. reflexivity.
  Qed.

  Lemma sums_along_compose p q a b c : maps_into p (a_shape a) (a_shape b) ->
    sums_along p a b -> sums_along q b c -> sums_along (fun i => q (p i)) a c.
  Proof.
    intros M S1 S2 j Hj. rewrite S2 by exact Hj. rewrite !sum_filter.
    rewrite (sum_fibres (a_shape a) (a_shape b) p) by exact M. apply sum_ext. intros k Hk. apply indices_in in Hk.
    rewrite S1 by exact Hk. destruct (idx_eqb (q k) j) eqn:E.
    - apply sum_ext. intros i Hi. apply filter_In in Hi. destruct Hi as [_ E2]. apply shape_eqb_ok in E2. rewrite E2, E. reflexivity.
    - symmetry. apply sum_zero. intros i Hi. apply filter_In in Hi. destruct Hi as [_ E2]. apply shape_eqb_ok in E2. rewrite E2, E. reflexivity.
  Qed.
  Lemma sums_along_ext p q a b : (forall i, in_bounds (a_shape a) i -> p i = q i) -> sums_along p a b -> sums_along q a b.
  Proof.
    intros H S j Hj. rewrite S by exact Hj. rewrite !sum_filter. apply sum_ext. intros i Hi. rewrite H by (apply indices_in; exact Hi). reflexivity.
  Qed.
  (** A one-to-one [p]: the elements are only renamed. *)
  Lemma sums_along_bijection p q a b : maps_into q (a_shape b) (a_shape a) ->
    (forall j, in_bounds (a_shape b) j -> p (q j) = j) ->
    (forall i, in_bounds (a_shape a) i -> q (p i) = i) ->
    (forall j, in_bounds (a_shape b) j -> get b j = get a (q j)) -> sums_along p a b.
  Proof.
    intros M PQ QP H j Hj. rewrite H by exact Hj. rewrite sum_filter. symmetry.
    apply (sum_one (indices (a_shape a)) (fun i => idx_eqb (p i) j) (get a) (q j)).
    - apply indices_nodup.
    - apply indices_in. auto.
    - apply shape_eqb_ok. auto.
    - intros i Hi E. apply indices_in in Hi. apply shape_eqb_ok in E. rewrite <- E. symmetry. auto.
  Qed.
  Lemma sums_along_id a : sums_along (fun i => i) a a.
  Proof. apply (sums_along_bijection _ (fun i => i)); auto. intros i Hi. exact Hi. Qed.

  (** ** [fold_axis] with addition *)
  Lemma fold_axis_sum a k b : fold_axis rO a k rO radd = Some b ->
    a_shape b = remove_at k (a_shape a) /\ wf b /\ sums_along (remove_at k) a b.
  Proof.
    unfold fold_axis. destruct (nth_error (a_shape a) k) as [n|] eqn:En; [|discriminate]. intros H. inv H.
    split; [reflexivity|]. split; [apply tab_wf|]. intros j Hj. simpl in Hj. unfold get. rewrite aget_tab by exact Hj.
    rewrite sum_list. rewrite sum_map.
    assert (Hk : k < length (a_shape a)) by (apply nth_error_Some; congruence).
    assert (Ln : nth k (a_shape a) 0 = n) by (apply nth_error_nth; exact En).
    transitivity (sumf (map (fun i => insert_at k i j) (seq 0 n)) (aget rO a)); [rewrite sum_map; ring|].
    apply sum_perm.
    assert (Lj : length j = length (remove_at k (a_shape a))) by (apply in_bounds_length; exact Hj).
    assert (Lr : length (a_shape a) = S (length (remove_at k (a_shape a)))).
    { rewrite <- (insert_remove_nth k 0 (a_shape a) Hk) at 1. apply insert_length. }
    apply NoDup_Permutation.
    - apply (NoDup_map_inv (fun i => nth k i 0)). rewrite map_map. rewrite (map_ext_in _ (fun x => x)).
      + rewrite map_id. apply seq_NoDup.
      + intros x _. apply nth_insert_eq. lia.
    - apply NoDup_filter. apply indices_nodup.
    - intros i. rewrite filter_In, indices_in, in_map_iff. split.
      + intros (x & <- & Hx). apply in_seq in Hx. split.
        * rewrite <- (insert_remove_nth k 0 (a_shape a) Hk). rewrite Ln. apply in_bounds_insert; [lia|]. split; [lia|exact Hj].
        * apply shape_eqb_ok. apply insert_remove. lia.
      + intros [Hi E]. apply shape_eqb_ok in E. exists (nth k i 0). split.
        * rewrite <- E. apply insert_remove_nth. rewrite (in_bounds_length _ _ Hi). exact Hk.
        * apply in_seq. pose proof (in_bounds_nth _ _ k Hi Hk). lia.
  Qed.
  Lemma fold_axis_defined {B C} (d : B) (a : arr B) k (x : C) f : (exists b, fold_axis d a k x f = Some b) <-> k < length (a_shape a).
  Proof.
    unfold fold_axis. rewrite <- nth_error_Some. destruct (nth_error (a_shape a) k); split; try congruence; eauto.
    intros [b H]. discriminate.
  Qed.
End Sum.
