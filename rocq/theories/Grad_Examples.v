(** A concrete family of gradient problems over Z: linear operations, whose
    rules multiply by constants (or yield nothing).  It shows that the
    hypotheses of the gradient theorems can be met, and provides witnesses. *)
From Coq Require Import String List Arith ZArith Bool Permutation Lia.
Import ListNotations.
From Verif Require Import Graph_Model Eval_Model Eval_Proofs Grad_Model Grad_Spec Grad_Path_Proofs.
Local Open Scope Z_scope.

Section Pop.
  Context {O : Type}.
  Variable g : graph O.
  (** Popping the entry of largest rank. *)
  Fixpoint best (b : nat) (l : list nat) : nat :=
    match l with
    | [] => b
    | a :: l => if (rank_of g b <? rank_of g a)%nat then best a l else best b l
    end.
  Fixpoint remove_one (y : nat) (l : list nat) : list nat :=
    match l with
    | [] => []
    | a :: l => if (a =? y)%nat then l else a :: remove_one y l
    end.
  Definition max_pop (l : list nat) : option (nat * list nat) :=
    match l with
    | [] => None
    | a :: l' => Some (best a l', remove_one (best a l') (a :: l'))
    end.
  Lemma best_in l : forall b, In (best b l) (b :: l).
  Proof.
    induction l as [|a l IH]; intros b; simpl; auto. destruct (rank_of g b <? rank_of g a)%nat.
    - right. apply IH.
    - destruct (IH b) as [H|H]; auto. 
  Qed.
  Lemma best_max l : forall b z, In z (b :: l) -> (rank_of g z <= rank_of g (best b l))%nat.
  Proof.
    induction l as [|a l IH]; intros b z Hz; simpl.
    - destruct Hz as [->|[]]; auto.
    - destruct (rank_of g b <? rank_of g a)%nat eqn:E.
      + apply Nat.ltb_lt in E. destruct Hz as [->|Hz]; [|apply IH; auto].
        pose proof (IH a a (or_introl eq_refl)). lia.
      + apply Nat.ltb_ge in E. destruct Hz as [->|[->|Hz]]; [apply IH; left; auto | | apply IH; right; auto].
        pose proof (IH b b (or_introl eq_refl)). lia.
  Qed.
  Lemma remove_one_perm y l : In y l -> Permutation l (y :: remove_one y l).
  Proof.
    induction l as [|a l IH]; intros H; [destruct H|]. simpl.
    destruct (a =? y)%nat eqn:E; [apply Nat.eqb_eq in E; subst; auto|].
    apply Nat.eqb_neq in E. destruct H as [H|H]; [congruence|].
    rewrite perm_swap. constructor. auto.
  Qed.
  Lemma max_pop_ok : heap_pop g max_pop.
  Proof.
    constructor.
    - reflexivity.
    - intros a l. simpl. eauto.
    - intros l y rest H. destruct l as [|a l]; [discriminate|]. inv H. apply (remove_one_perm _ (a :: l)). apply best_in.
    - intros l y rest z H Hz. destruct l as [|a l]; [discriminate|]. inv H. apply best_max; auto.
  Qed.

End Pop.

(** The operation of a tensor: its partial derivatives, [None] where the rule
    yields no gradient.  [add] is [[Some 1; Some 1]]. *)
Definition lin := list (option Z).

Section Lin.
  Variable g : graph lin.
  Definition lin_opgrad (y : nat) (gy : Z) (s : unit) : option (list (option Z) * unit) :=
    match nth_error g y with
    | Some n => Some (map (option_map (Z.mul gy)) (n_op n), s)
    | None => None
    end.
  Definition lin_addn (l : list Z) (s : unit) : option (Z * unit) := Some (fold_right Z.add 0 l, s).
  Definition lin_one (s : unit) : option (Z * unit) := Some (1, s).
  Definition lin_zeros (x : nat) (s : unit) : option (Z * unit) := Some (0, s).
  Definition lin_vjp (y p : nat) (m : Z) : Z :=
    match nth_error g y with
    | Some n => match nth_error (n_op n) p with Some (Some c) => m * c | _ => 0 end
    | None => 0
    end.
  Definition lin_passes (y p : nat) : Prop :=
    exists n c, nth_error g y = Some n /\ nth_error (n_op n) p = Some (Some c).

  Lemma lin_denotes : denotes g 0 Z.add lin_vjp (fun _ : unit => True) (fun _ _ _ => True) (fun _ t => t)
                        (fun _ _ => True) lin_passes lin_opgrad lin_addn.
  Proof.
    constructor; auto; try (intros; ring).
    - intros y p a b. unfold lin_vjp. destruct (nth_error g y) as [n|]; [|ring].
      destruct (nth_error (n_op n) p) as [[c|]|]; ring.
    - intros y p. unfold lin_vjp. destruct (nth_error g y) as [n|]; [|ring].
      destruct (nth_error (n_op n) p) as [[c|]|]; ring.
    - intros x l s t s' _ _ _ H. inv H. repeat split. rewrite map_id. reflexivity.
    - intros y gy s gxs s' _ _ H. unfold lin_opgrad in H. destruct (nth_error g y) as [n|] eqn:Hn; inv H.
      split; auto. split; auto. intros p. rewrite nth_error_map. split.
      + split.
        * intros (n' & c & Hn' & Hc). rewrite Hn in Hn'; inv Hn'. rewrite Hc. simpl. eauto.
        * intros (t & Ht). destruct (nth_error (n_op n) p) as [[c|]|] eqn:Hc; simpl in Ht; try discriminate.
          exists n, c. auto.
      + intros t Ht. split; auto. unfold lin_vjp. rewrite Hn.
        destruct (nth_error (n_op n) p) as [[c|]|]; simpl in Ht; inv Ht. reflexivity.
  Qed.

  Definition lin_grad (ys xs : list nat) (gys : option (list Z)) : res (list (Z * bool) * unit * list nat) :=
    grad_with_default g lin_opgrad lin_addn lin_one lin_zeros (max_pop g) true 100 ys xs gys tt.
End Lin.

(** Nodes built with the ranks the builder would give them. *)
Definition lbuild (g : graph lin) (ins : list nat) (diff : bool) (op : lin) : graph lin :=
  match build g (Builder None (map (fun i => Incoming i false 0) ins) diff None None None None) op with
  | Some (g', _) => g' | None => g
  end.
Definition add2 : lin := [Some 1; Some 1].
Definition mulc (c : Z) : lin := [Some c].

(** 0: x, 1: w (leaves), 2 = 3x, 3 = x + 2, 4 = stop(2), 5 = 3 + 4, 6 = 5 + w, 7 = 6 + 3 *)
Definition g_lin : graph lin :=
  let g := lbuild [] [] true [] in
  let g := lbuild g [] true [] in
  let g := lbuild g [0]%nat true (mulc 3) in
  let g := lbuild g [0;2]%nat true add2 in
  let g := lbuild g [2]%nat false [None] in
  let g := lbuild g [3;4]%nat true add2 in
  let g := lbuild g [5;1]%nat true add2 in
  lbuild g [6;3]%nat true add2.

(** Checking [ranked] by computation. *)
Definition ranked_b {O} (g : graph O) : bool :=
  forallb (fun n => forallb (fun inc => (in_id inc <? length g)%nat && (rank_of g (in_id inc) <? n_rank n)%nat)
                      (get_backprop_inputs n) &&
                    match n_inputs n with [] => match get_backprop_inputs n with [] => true | _ => false end | _ => true end) g.
Lemma ranked_b_sound {O} (g : graph O) : ranked_b g = true -> ranked g.
Proof.
  unfold ranked_b. rewrite forallb_forall. intros H. constructor.
  - intros y p x (n & inc & Hn & Hp & <-). pose proof (H n (nth_error_In _ _ Hn)) as Hb.
    apply andb_true_iff in Hb. destruct Hb as [Hb _]. rewrite forallb_forall in Hb.
    specialize (Hb inc (nth_error_In _ _ Hp)). apply andb_true_iff in Hb. destruct Hb as [A B].
    apply Nat.ltb_lt in A. apply Nat.ltb_lt in B. split; auto. unfold rank_of at 2. rewrite Hn. exact B.
  - intros y p x (n & Hn & Hi) (n' & inc & Hn' & Hp & _). rewrite Hn in Hn'; inv Hn'.
    pose proof (H n' (nth_error_In _ _ Hn)) as Hb. apply andb_true_iff in Hb. destruct Hb as [_ Hb].
    rewrite Hi in Hb. destruct (get_backprop_inputs n'); [destruct p; discriminate | discriminate].
Qed.
Definition diff_b {O} (g : graph O) (y : nat) : bool :=
  match nth_error g y with Some n => n_diff n | None => false end.
Lemma diff_b_sound {O} (g : graph O) y : diff_b g y = true -> differentiable g y.
Proof. unfold diff_b. destruct (nth_error g y) as [n|] eqn:H; [|discriminate]. intros; exists n; auto. Qed.

(** Checking a statement about all edges by computation. *)
Definition edges_b {O} (g : graph O) (P : nat -> nat -> nat -> bool) : bool :=
  forallb (fun y => match nth_error g y with
    | Some n => forallb (fun p => match nth_error (get_backprop_inputs n) p with
                                  | Some inc => P y p (in_id inc) | None => true end)
                  (seq 0 (length (get_backprop_inputs n)))
    | None => true end) (seq 0 (length g)).
Lemma edges_b_sound {O} (g : graph O) P : edges_b g P = true -> forall y p x, edge g y p x -> P y p x = true.
Proof.
  intros H y p x (n & inc & Hn & Hp & <-). unfold edges_b in H. rewrite forallb_forall in H.
  assert (Hy : In y (seq 0 (length g))).
  { apply in_seq. assert (y < length g)%nat by (apply nth_error_Some; congruence). lia. }
  specialize (H y Hy). rewrite Hn in H. rewrite forallb_forall in H.
  assert (Hq : In p (seq 0 (length (get_backprop_inputs n)))).
  { apply in_seq. assert (p < length (get_backprop_inputs n))%nat by (apply nth_error_Some; congruence). lia. }
  specialize (H p Hq). rewrite Hp in H. exact H.
Qed.
