(** Properties C10 (gradient part), C11, C13-C17: building gradients. *)
From Coq Require Import String List Arith ZArith Bool Permutation Lia.
Import ListNotations.
From Verif Require Import Graph_Model Eval_Model Eval_Spec Eval_Proofs Graph_Proofs Eval_Proofs2 Depends_Proofs
  Grad_Model Grad_Spec Grad_Path_Proofs Grad_Proofs Grad_Final Grad_Frame Grad_Examples.

(** ** C11: the returned tensors denote sums over paths *)
Theorem C11_gradient_is_path_sum :
  forall (O S T M : Type) (g : graph O) (zero one_val : M) (add : M -> M -> M) (vjp : nat -> nat -> M -> M)
    (good : S -> Prop) (valid : nat -> S -> T -> Prop) (den : S -> T -> M) (ext : S -> S -> Prop)
    (passes : nat -> nat -> Prop) (opgrad : nat -> T -> S -> option (list (option T) * S))
    (addn : list T -> S -> option (T * S)) (one : S -> option (T * S))
    (zeros_like : nat -> S -> option (T * S)) (pop : list nat -> option (nat * list nat)) (debug : bool)
    (ys xs : list nat) (fuel : nat) (gys : option (list T)) (s s' : S) (seeds : list M)
    (l : list (T * bool)) (log : list nat),
  problem g zero one_val add vjp good valid den ext passes opgrad addn one zeros_like pop ys ->
  good s -> seed_values valid den one_val ys gys s seeds ->
  NoDup xs -> (forall x, In x xs -> accum_once g ys x) ->
  grad_with_default g opgrad addn one zeros_like pop debug fuel ys xs gys s = Ok (l, s', log) ->
  Forall2 (fun x r => valid x s' (fst r) /\
                      is_path_sum g zero add vjp passes ys seeds x (den s' (fst r)))
    xs l.
Proof.
  intros O S T M g zero one_val add vjp good valid den ext passes opgrad addn one zeros_like pop debug
    ys xs fuel gys s s' seeds l log [H1 H2 H3 H4 H5 H6 H7] Hg Hs Hn Ha He.
  pose proof (grad_path_sum g zero one_val add vjp good valid den ext passes opgrad addn one zeros_like pop
                debug ys xs H1 H2 H3 H4 H5 H6 H7 fuel gys s seeds l s' log Hg Hs Hn Ha He) as HF.
  eapply Forall2_impl'; [|exact HF]. intros a b _ (A & B & _). auto.
Qed.
Print Assumptions C11_gradient_is_path_sum.

(** Such a sum is uniquely determined. *)
Theorem C11_path_sum_unique :
  forall (O M : Type) (g : graph O) (zero : M) (add : M -> M -> M) (vjp : nat -> nat -> M -> M)
    (passes : nat -> nat -> Prop) (ys : list nat) (seeds : list M) (x : nat) (a b : M),
  (forall u v, add u v = add v u) -> (forall u v w, add u (add v w) = add (add u v) w) ->
  is_path_sum g zero add vjp passes ys seeds x a ->
  is_path_sum g zero add vjp passes ys seeds x b -> a = b.
Proof.
  exact @path_sum_unique.
Qed.
Print Assumptions C11_path_sum_unique.

(** A request succeeds as long as no rule panics and every target that lies on
    a differentiable path actually receives a gradient. *)
Theorem C11_gradient_exists :
  forall (O S T M : Type) (g : graph O) (zero one_val : M) (add : M -> M -> M) (vjp : nat -> nat -> M -> M)
    (good : S -> Prop) (valid : nat -> S -> T -> Prop) (den : S -> T -> M) (ext : S -> S -> Prop)
    (passes : nat -> nat -> Prop) (opgrad : nat -> T -> S -> option (list (option T) * S))
    (addn : list T -> S -> option (T * S)) (one : S -> option (T * S))
    (zeros_like : nat -> S -> option (T * S)) (pop : list nat -> option (nat * list nat)) (debug : bool)
    (ys xs : list nat) (fuel : nat) (gys : option (list T)) (s : S) (seeds : list M),
  problem g zero one_val add vjp good valid den ext passes opgrad addn one zeros_like pop ys ->
  ys <> [] -> good s -> seed_values valid den one_val ys gys s seeds ->
  2 * (length ys + list_sum (map (fun n => length (get_backprop_inputs n)) g)) < fuel -> length g < fuel ->
  NoDup xs -> (forall x, In x xs -> accum_once g ys x) ->
  (forall s, good s -> one s <> None) ->
  (forall x s, In x xs -> good s -> zeros_like x s <> None) ->
  (forall x l s, good s -> Forall (valid x s) l -> 2 <= length l -> addn l s <> None) ->
  (forall y gy s, good s -> valid y s gy -> differentiable g y -> (In y ys \/ ~ leaf g y) ->
     exists gxs s', opgrad y gy s = Some (gxs, s') /\
       (debug = true -> gxs <> [] /\ forall n, nth_error g y = Some n -> length (get_backprop_inputs n) = length gxs)) ->
  (forall x, In x xs -> reached g ys x -> live g passes ys x) ->
  exists l s' log, grad_with_default g opgrad addn one zeros_like pop debug fuel ys xs gys s = Ok (l, s', log).
Proof.
  intros O S T M g zero one_val add vjp good valid den ext passes opgrad addn one zeros_like pop debug
    ys xs fuel gys s seeds [H1 H2 H3 H4 H5 H6 H7] Hne Hg Hs Hf1 Hf2 Hn Ha Ho Hz Had Hr Hl.
  apply (grad_succeeds g zero one_val add vjp good valid den ext passes opgrad addn one zeros_like pop
                debug ys xs H1 H2 H3 H4 H5 H6 H7 fuel gys s seeds); auto.
  - split; auto.
  - intros x Hx [Hd _] Hy. apply Hl; auto. split; auto.
Qed.
Print Assumptions C11_gradient_exists.

(** Without outputs the request panics, even if nothing is asked for. *)
Theorem C11_no_output_panics :
  forall (O S T : Type) (g : graph O) (opgrad : nat -> T -> S -> option (list (option T) * S))
    (addn : list T -> S -> option (T * S)) (one : S -> option (T * S))
    (zeros_like : nat -> S -> option (T * S)) (pop : list nat -> option (nat * list nat)) (debug : bool)
    (xs : list nat) (fuel : nat) (gys : option (list T)) (s : S),
  grad_with_default g opgrad addn one zeros_like pop debug fuel [] xs gys s = Panic.
Proof. reflexivity. Qed.
Print Assumptions C11_no_output_panics.

(** The example graph meets all hypotheses; the gradients are 8 and 1. *)
Example C11_hypotheses_met :
  problem g_lin 0%Z 1%Z Z.add (lin_vjp g_lin) (fun _ : unit => True) (fun _ _ _ => True) (fun _ t => t)
    (fun _ _ => True) (lin_passes g_lin) (lin_opgrad g_lin) lin_addn lin_one lin_zeros (max_pop g_lin) [7] /\
  (forall x, In x [0; 1] -> accum_once g_lin [7] x) /\
  lin_grad g_lin [7] [0; 1] None = Ok ([(8%Z, true); (1%Z, true)], tt, [2; 3; 5; 6; 7]) /\
  lin_grad g_lin [7] [0; 1] (Some [5%Z]) = Ok ([(40%Z, true); (5%Z, true)], tt, [2; 3; 5; 6; 7]).
Proof.
  split; [|split; [|split; reflexivity]].
  - constructor.
    + apply ranked_b_sound. reflexivity.
    + intros y [<-|[]]. apply diff_b_sound. reflexivity.
    + constructor; [intros [] | constructor].
    + apply max_pop_ok.
    + apply lin_denotes.
    + intros s t s' _ H. inv H. repeat split.
    + intros x s t s' _ H. inv H. repeat split.
  - intros x Hx. left. split.
    + destruct Hx as [<-|[<-|[]]]; eexists; split; reflexivity.
    + intros [H|[]]. subst. simpl in Hx. lia.
Qed.

(** ** C13: each rule once, consumers first *)
Theorem C13_rules_called_once_in_order :
  forall (O S T M : Type) (g : graph O) (zero one_val : M) (add : M -> M -> M) (vjp : nat -> nat -> M -> M)
    (good : S -> Prop) (valid : nat -> S -> T -> Prop) (den : S -> T -> M) (ext : S -> S -> Prop)
    (passes : nat -> nat -> Prop) (opgrad : nat -> T -> S -> option (list (option T) * S))
    (addn : list T -> S -> option (T * S)) (one : S -> option (T * S))
    (zeros_like : nat -> S -> option (T * S)) (pop : list nat -> option (nat * list nat)) (debug : bool)
    (ys xs : list nat) (fuel : nat) (gys : option (list T)) (s s' : S) (seeds : list M)
    (l : list (T * bool)) (log : list nat),
  problem g zero one_val add vjp good valid den ext passes opgrad addn one zeros_like pop ys ->
  good s -> seed_values valid den one_val ys gys s seeds ->
  grad_with_default g opgrad addn one zeros_like pop debug fuel ys xs gys s = Ok (l, s', log) ->
  (* [log]: the tensors whose rule was called, latest first *)
  NoDup log /\ length log <= length g /\
  (forall z, In z log <-> In z ys \/ (~ leaf g z /\ leads_to g xs z /\ live g passes ys z)) /\
  (forall y p z, In y log -> In z log -> edge g y p z -> exists l1 l2 l3, log = l1 ++ z :: l2 ++ y :: l3).
Proof.
  intros O S T M g zero one_val add vjp good valid den ext passes opgrad addn one zeros_like pop debug
    ys xs fuel gys s s' seeds l log [H1 H2 H3 H4 H5 H6 H7] Hg Hs He.
  destruct (rules_called g zero one_val add vjp good valid den ext passes opgrad addn one zeros_like pop
                debug ys xs H1 H2 H3 H4 H5 H6 fuel gys s seeds l s' log Hg Hs He) as (A & B & C & D).
  auto.
Qed.
Print Assumptions C13_rules_called_once_in_order.

Theorem C13_terminates :
  forall (O S T M : Type) (g : graph O) (zero one_val : M) (add : M -> M -> M) (vjp : nat -> nat -> M -> M)
    (good : S -> Prop) (valid : nat -> S -> T -> Prop) (den : S -> T -> M) (ext : S -> S -> Prop)
    (passes : nat -> nat -> Prop) (opgrad : nat -> T -> S -> option (list (option T) * S))
    (addn : list T -> S -> option (T * S)) (one : S -> option (T * S))
    (zeros_like : nat -> S -> option (T * S)) (pop : list nat -> option (nat * list nat)) (debug : bool)
    (ys xs : list nat) (fuel : nat) (gys : option (list T)) (s : S) (seeds : list M),
  problem g zero one_val add vjp good valid den ext passes opgrad addn one zeros_like pop ys ->
  good s -> seed_values valid den one_val ys gys s seeds ->
  2 * (length ys + list_sum (map (fun n => length (get_backprop_inputs n)) g)) < fuel -> length g < fuel ->
  grad_with_default g opgrad addn one zeros_like pop debug fuel ys xs gys s <> OutOfFuel.
Proof.
  intros O S T M g zero one_val add vjp good valid den ext passes opgrad addn one zeros_like pop debug
    ys xs fuel gys s seeds [H1 H2 H3 H4 H5 H6 H7] Hg Hs Hf1 Hf2.
  apply (grad_terminates g zero one_val add vjp good valid den ext passes opgrad addn one zeros_like pop
                debug ys xs H1 H2 H3 H4 H5 H6 fuel gys s seeds); auto. split; auto.
Qed.
Print Assumptions C13_terminates.

Example C13_hypotheses_met :
  2 * (length [7] + list_sum (map (fun n => length (get_backprop_inputs n)) g_lin)) < 100 /\
  edge g_lin 7 1 3 /\ edge g_lin 5 0 3 /\
  lin_grad g_lin [7] [0; 1] None = Ok ([(8%Z, true); (1%Z, true)], tt, [2; 3; 5; 6; 7]).
Proof.
  split; [vm_compute; lia|]. split; [|split; [|reflexivity]]; eexists; eexists; repeat split; reflexivity.
Qed.

(** ** C14: unreached targets *)
Theorem C14_unreached_gives_zeros :
  forall (O S T M : Type) (g : graph O) (zero one_val : M) (add : M -> M -> M) (vjp : nat -> nat -> M -> M)
    (good : S -> Prop) (valid : nat -> S -> T -> Prop) (den : S -> T -> M) (ext : S -> S -> Prop)
    (passes : nat -> nat -> Prop) (opgrad : nat -> T -> S -> option (list (option T) * S))
    (addn : list T -> S -> option (T * S)) (one : S -> option (T * S))
    (zeros_like : nat -> S -> option (T * S)) (pop : list nat -> option (nat * list nat)) (debug : bool)
    (ys xs : list nat) (fuel : nat) (gys : option (list T)) (s s' : S) (seeds : list M)
    (l : list (T * bool)) (log : list nat),
  problem g zero one_val add vjp good valid den ext passes opgrad addn one zeros_like pop ys ->
  good s -> seed_values valid den one_val ys gys s seeds ->
  NoDup xs -> (forall x, In x xs -> accum_once g ys x) ->
  grad_with_default g opgrad addn one zeros_like pop debug fuel ys xs gys s = Ok (l, s', log) ->
  (* the flag: taken from the accumulated gradients (true) or fresh zeros (false) *)
  Forall2 (fun x r => (snd r = true <-> reached g ys x) /\
                      (~ reached g ys x -> den s' (fst r) = zero) /\
                      (reached g ys x -> live g passes ys x))
    xs l.
Proof.
  intros O S T M g zero one_val add vjp good valid den ext passes opgrad addn one zeros_like pop debug
    ys xs fuel gys s s' seeds l log [H1 H2 H3 H4 H5 H6 H7] Hg Hs Hn Ha He.
  pose proof (grad_path_sum g zero one_val add vjp good valid den ext passes opgrad addn one zeros_like pop
                debug ys xs H1 H2 H3 H4 H5 H6 H7 fuel gys s seeds l s' log Hg Hs Hn Ha He) as HF.
  eapply Forall2_impl'; [|exact HF]. intros x r Hx (A & B & C). split; [exact C|]. split.
  - intros Hnr. eapply path_sum_unique; [| |exact B|].
    + apply (add_comm _ _ _ _ _ _ _ _ _ _ _ H5).
    + apply (add_assoc _ _ _ _ _ _ _ _ _ _ _ H5).
    + apply unreached_sum; auto.
  - intros [Hd Hr]. eapply (blocked_panics g zero one_val add vjp good valid den ext passes opgrad addn one zeros_like pop
                debug ys xs); eauto.
Qed.
Print Assumptions C14_unreached_gives_zeros.

(** A target on a differentiable path to which no rule propagates anything
    makes the request panic (whatever else is asked for). *)
Theorem C14_starved_target_panics :
  forall (O S T M : Type) (g : graph O) (zero one_val : M) (add : M -> M -> M) (vjp : nat -> nat -> M -> M)
    (good : S -> Prop) (valid : nat -> S -> T -> Prop) (den : S -> T -> M) (ext : S -> S -> Prop)
    (passes : nat -> nat -> Prop) (opgrad : nat -> T -> S -> option (list (option T) * S))
    (addn : list T -> S -> option (T * S)) (one : S -> option (T * S))
    (zeros_like : nat -> S -> option (T * S)) (pop : list nat -> option (nat * list nat)) (debug : bool)
    (ys xs : list nat) (fuel : nat) (gys : option (list T)) (s : S) (seeds : list M) (x : nat),
  problem g zero one_val add vjp good valid den ext passes opgrad addn one zeros_like pop ys ->
  good s -> seed_values valid den one_val ys gys s seeds ->
  2 * (length ys + list_sum (map (fun n => length (get_backprop_inputs n)) g)) < fuel -> length g < fuel ->
  In x xs -> reached g ys x -> ~ live g passes ys x ->
  grad_with_default g opgrad addn one zeros_like pop debug fuel ys xs gys s = Panic.
Proof.
  intros O S T M g zero one_val add vjp good valid den ext passes opgrad addn one zeros_like pop debug
    ys xs fuel gys s seeds x [H1 H2 H3 H4 H5 H6 H7] Hg Hs Hf1 Hf2 Hx [Hd Hr] Hnl.
  destruct (grad_with_default g opgrad addn one zeros_like pop debug fuel ys xs gys s) as [[[l s'] log]| |] eqn:E; auto.
  - exfalso. apply Hnl. eapply (blocked_panics g zero one_val add vjp good valid den ext passes opgrad addn one zeros_like pop
                debug ys xs); eauto.
  - exfalso. revert E. apply (grad_terminates g zero one_val add vjp good valid den ext passes opgrad addn one zeros_like pop
                debug ys xs H1 H2 H3 H4 H5 H6 fuel gys s seeds); auto. split; auto.
Qed.
Print Assumptions C14_starved_target_panics.

(** 0: x, 1: w, 2 = f(x) whose rule yields nothing, 3 = 2 + w *)
Definition g_starve : graph lin :=
  let g := lbuild [] [] true [] in
  let g := lbuild g [] true [] in
  let g := lbuild g [0] true [None] in
  lbuild g [2;1] true add2.
Example C14_hypotheses_met :
  (* unreached: tensor 4 (a stop) of g_lin, and a leaf behind it *)
  lin_grad g_lin [6] [1; 4] None = Ok ([(1%Z, true); (0%Z, false)], tt, [6]) /\
  ~ reached g_lin [6] 4 /\
  (* starved *)
  reached g_starve [3] 0 /\ ~ live g_starve (lin_passes g_starve) [3] 0 /\
  lin_grad g_starve [3] [1] None = Ok ([(1%Z, true)], tt, [3]) /\
  lin_grad g_starve [3] [1; 0] None = Panic.
Proof.
  split; [reflexivity|]. split; [|split; [|split; [|split; reflexivity]]].
  - intros [(n & Hn & Hd) _]. inv Hn. discriminate.
  - split; [apply diff_b_sound; reflexivity|]. exists 3. split; [left; auto|]. exists [(3, 0); (2, 0)].
    econstructor; [eexists; eexists; repeat split; reflexivity | exact I | apply diff_b_sound; reflexivity|].
    econstructor; [eexists; eexists; repeat split; reflexivity | exact I | apply diff_b_sound; reflexivity|].
    constructor.
  - intros (y & es & [<-|[]] & Hp).
    assert (Hgen : forall y es, path g_starve (lin_passes g_starve) y es 0 -> y = 0).
    { clear. intros y es H. remember 0 as z. induction H as [y|y p z es x He (n & c & Hn & Hc) _ Hp IH]; auto.
      specialize (IH Heqz). subst.
      apply (edges_b_sound g_starve (fun y p z => negb (z =? 0) || (y =? 2)) eq_refl) in He.
      simpl in He. apply Nat.eqb_eq in He. subst y. inv Hn. destruct p as [|[|p]]; discriminate. }
    apply Hgen in Hp. discriminate.
Qed.

(** ** C15: repeated and intermediate targets are double counted *)

(** z = y + y with y = x + x: the derivative of z by y is 2, and 3 is returned.
    Asking twice for x in y = x + x returns 2 and 3; passing the output twice
    with gradients 1 and 1 returns 10 instead of 4. *)
Definition g_twice : graph lin :=
  let g := lbuild [] [] true [] in
  let g := lbuild g [0;0] true add2 in
  lbuild g [1;1] true add2.
Theorem C15_intermediate_target_refuted :
  exists (g : graph lin) (y x : nat) (r : Z) (log : list nat),
    ranked g /\ differentiable g y /\ y <> x /\
    lin_grad g [y] [x] None = Ok ([(r, true)], tt, log) /\
    ~ is_path_sum g 0%Z Z.add (lin_vjp g) (lin_passes g) [y] [1%Z] x r /\
    is_path_sum g 0%Z Z.add (lin_vjp g) (lin_passes g) [y] [1%Z] x 2%Z.
Proof.
  exists g_twice, 2, 1, 3%Z, [1; 2].
  assert (Hs : is_path_sum g_twice 0%Z Z.add (lin_vjp g_twice) (lin_passes g_twice) [2] [1%Z] 1 2%Z).
  { exists [(0, [(2, 0)]); (0, [(2, 1)])]. split; [|split; [|reflexivity]].
    - constructor; [intros [H|[]]; discriminate|]. constructor; [intros [] | constructor].
    - assert (Hedge : forall y p z, edge g_twice y p z -> (p = 0 \/ p = 1) /\ ((y = 1 /\ z = 0) \/ (y = 2 /\ z = 1))).
      { intros y p z (n & inc & Hn & Hp & <-).
        destruct y as [|[|[|y]]]; simpl in Hn; [inv Hn; destruct p; discriminate | | | destruct y; discriminate];
          inv Hn; destruct p as [|[|p]]; simpl in Hp; try (inv Hp; auto); destruct p; discriminate. }
      intros k es. split.
      + assert (Hok : forall p, p = 0 \/ p = 1 -> path g_twice (lin_passes g_twice) 2 [(2, p)] 1).
        { intros p Hp. apply (path_cons g_twice (lin_passes g_twice) 2 p 1 [] 1); [| | apply diff_b_sound; reflexivity | constructor].
          - destruct Hp as [->| ->]; eexists; eexists; repeat split; reflexivity.
          - destruct Hp as [->| ->]; eexists; eexists; split; reflexivity. }
        intros [H|[H|[]]]; inv H; exists 2; split; auto.
      + intros (y & Hy & Hp). destruct k as [|[|k]]; simpl in Hy; try discriminate. inv Hy.
        inversion Hp as [|y p z es' x' He _ _ Hp']; subst.
        destruct (Hedge _ _ _ He) as (Hpp & [[A B]|[A B]]); [discriminate|]. subst z.
        inversion Hp' as [|y p' z es'' x' He' _ _ Hp'']; subst.
        * destruct Hpp as [->| ->]; simpl; auto.
        * exfalso. destruct (Hedge _ _ _ He') as (_ & [[_ A']|[A' _]]); [|discriminate]. subst z.
          inversion Hp'' as [|y p'' z es3 x' He'' _ _ Hp3]; subst.
          destruct (Hedge _ _ _ He'') as (_ & [[A' _]|[A' _]]); discriminate. }
  split; [apply ranked_b_sound; reflexivity|]. split; [apply diff_b_sound; reflexivity|]. split; [discriminate|].
  split; [reflexivity|]. split; [|exact Hs].
  intros H. assert (3 = 2)%Z; [|discriminate].
  eapply (path_sum_unique g_twice 0%Z Z.add); [intros; ring | intros; ring | exact H | exact Hs].
Qed.
Print Assumptions C15_intermediate_target_refuted.

Theorem C15_repeated_target_refuted :
  exists (g : graph lin) (y x : nat) (a b : Z) (log log' : list nat),
    ranked g /\ differentiable g y /\ leaf g x /\
    lin_grad g [y] [x] None = Ok ([(a, true)], tt, log) /\
    lin_grad g [y] [x; x] None = Ok ([(a, true); (b, true)], tt, log') /\ a <> b.
Proof.
  exists g_twice, 1, 0, 2%Z, 3%Z, [1], [1].
  split; [apply ranked_b_sound; reflexivity|]. split; [apply diff_b_sound; reflexivity|].
  split; [eexists; split; reflexivity|]. split; [reflexivity|]. split; [reflexivity | discriminate].
Qed.
Print Assumptions C15_repeated_target_refuted.

Theorem C15_repeated_output_refuted :
  exists (g : graph lin) (y x : nat) (a b : Z) (log log' : list nat),
    ranked g /\ differentiable g y /\ leaf g x /\
    lin_grad g [y] [x] (Some [1%Z]) = Ok ([(a, true)], tt, log) /\
    lin_grad g [y; y] [x] (Some [1%Z; 1%Z]) = Ok ([(b, true)], tt, log') /\ b <> (a + a)%Z.
Proof.
  exists g_twice, 1, 0, 2%Z, 10%Z, [1], [1; 1].
  split; [apply ranked_b_sound; reflexivity|]. split; [apply diff_b_sound; reflexivity|].
  split; [eexists; split; reflexivity|]. split; [reflexivity|]. split; [reflexivity | discriminate].
Qed.
Print Assumptions C15_repeated_output_refuted.

(** Intermediate targets with a single use are fine (C11 covers them through
    [single_use]). *)
Example C15_hypotheses_met :
  single_use g_lin [7] 5 /\
  lin_grad g_lin [7] [5; 1] None = Ok ([(1%Z, true); (1%Z, true)], tt, [5; 6; 7]).
Proof.
  split; [|reflexivity]. split.
  - assert (H : forall y p, edge g_lin y p 5 -> y = 6 /\ p = 0).
    { intros y p He. apply (edges_b_sound g_lin (fun y p z => negb (z =? 5) || ((y =? 6) && (p =? 0))) eq_refl) in He.
      simpl in He. apply andb_true_iff in He. destruct He as [A B]. apply Nat.eqb_eq in A. apply Nat.eqb_eq in B. auto. }
    intros y p y' p' H1 H2. apply H in H1. apply H in H2. lia.
  - intros [H|[]]. discriminate.
Qed.

(** ** C16: only new tensors *)

(** Rules that act on the graph through the tensor builder (or fetch variables
    and placeholders) only append to it, for all outputs and targets. *)
Theorem C16_gradients_only_append :
  forall (O T : Type) (var_op ph_op ctrl_op : O) (const_op : list Z -> O) (g : graph O)
    (opgrad : nat -> T -> context O -> option (list (option T) * context O))
    (addn : list T -> context O -> option (T * context O)) (one : context O -> option (T * context O))
    (zeros_like : nat -> context O -> option (T * context O))
    (pop : list nat -> option (nat * list nat)) (debug : bool) (fuel : nat) (ys xs : list nat)
    (gys : option (list T)) (c c' : context O) (l : list (T * bool)) (log : list nat),
  let appends c c' := exists ks, Forall extends_cmd ks /\ run_cmds var_op ph_op ctrl_op const_op c ks = Some c' in
  (forall y gy c r c', opgrad y gy c = Some (r, c') -> appends c c') ->
  (forall l c r c', addn l c = Some (r, c') -> appends c c') ->
  (forall c r c', one c = Some (r, c') -> appends c c') ->
  (forall x c r c', zeros_like x c = Some (r, c') -> appends c c') ->
  grad_with_default g opgrad addn one zeros_like pop debug fuel ys xs gys c = Ok (l, c', log) ->
  exists new, c_graph c' = c_graph c ++ new.
Proof.
  intros O T var_op ph_op ctrl_op const_op g opgrad addn one zeros_like pop debug fuel ys xs gys c c' l log
    appends H1 H2 H3 H4 He.
  assert (Hx : forall a b, appends a b -> exists new, c_graph b = c_graph a ++ new).
  { intros a b (ks & Hk & Hr). eapply run_cmds_extends; eauto. }
  refine (grad_frame g (fun a b => exists new, c_graph b = c_graph a ++ new) _ _ opgrad addn one zeros_like pop debug
           _ _ _ _ fuel ys xs gys c l c' log He); eauto.
  - intros s. exists []. symmetry. apply app_nil_r.
  - intros a b d [n1 E1] [n2 E2]. exists (n1 ++ n2). rewrite E2, E1. apply app_assoc_reverse.
Qed.
Print Assumptions C16_gradients_only_append.

(** Existing tensors keep their values when the graph is extended. *)
Theorem C16_values_unchanged :
  forall (O V E : Type) (shape_of : V -> list nat) (compute : O -> list (opin V) -> cout V E) (debug : bool)
    (feeds : list (ph_key * V)) (env : list V) (g new : graph O) (t : nat) (r : V + E),
  wf_graph g -> t < length g ->
  (tensor_value shape_of compute debug (g ++ new) feeds env t r <->
   tensor_value shape_of compute debug g feeds env t r).
Proof.
  intros; apply ext_tensor_value_iff; assumption.
Qed.
Print Assumptions C16_values_unchanged.

(** ** C17: stop_gradient *)
Theorem C17_identity_forward :
  forall (O V E : Type) (shape_of : V -> list nat) (compute : O -> list (opin V) -> cout V E) (debug : bool)
    (feeds : list (ph_key * V)) (env : list V) (stop_op : O) (g g' : graph O) (x t : nat) (v : V),
  (forall v, compute stop_op [NonVar v] = CRet [] [v] None /\ compute stop_op [RdOnly v] = CRet [] [v] None) ->
  x < length g -> (forall i n, nth_error g i = Some n -> n_var n <> None -> n_ph n = None) ->
  stop_gradient stop_op g x = Some (g', t) ->
  (tensor_value shape_of compute debug g' feeds env t (inl v) <->
   tensor_value shape_of compute debug g' feeds env x (inl v)).
Proof.
  intros; eapply stop_gradient_identity; eauto.
Qed.
Print Assumptions C17_identity_forward.

(** The tensor made by [stop_gradient] is never on a gradient path, in any
    later graph. *)
Theorem C17_never_on_a_path :
  forall (O : Type) (stop_op : O) (g g' new : graph O) (x t : nat),
  stop_gradient stop_op g x = Some (g', t) ->
  forall (ok : nat -> nat -> Prop) (y : nat) (es : list (nat * nat)) (z : nat),
  path (g' ++ new) ok y es z -> y <> t -> z <> t /\ forall q, ~ In (t, q) es.
Proof.
  intros O stop_op g g' new x t Hs ok y es z Hp Hy.
  assert (Ht : ~ differentiable (g' ++ new) t).
  { destruct (stop_node _ _ _ _ _ Hs) as (-> & n & -> & _ & _ & _ & _ & Hd & _).
    intros (m & Hm & Hdm). rewrite nth_error_app1 in Hm by (rewrite app_length; simpl; lia).
    rewrite nth_error_app2, Nat.sub_diag in Hm by lia. simpl in Hm. congruence. }
  destruct (path_avoids (g' ++ new) ok y es z t Hp Ht) as [A B].
  split; [intros H; apply Hy; auto | intros q Hq; apply Hy; eauto].
Qed.
Print Assumptions C17_never_on_a_path.

(** Tensors that are only used behind non-differentiable tensors get zeros. *)
Theorem C17_behind_stop_gets_zeros :
  forall (O S T M : Type) (g : graph O) (zero one_val : M) (add : M -> M -> M) (vjp : nat -> nat -> M -> M)
    (good : S -> Prop) (valid : nat -> S -> T -> Prop) (den : S -> T -> M) (ext : S -> S -> Prop)
    (passes : nat -> nat -> Prop) (opgrad : nat -> T -> S -> option (list (option T) * S))
    (addn : list T -> S -> option (T * S)) (one : S -> option (T * S))
    (zeros_like : nat -> S -> option (T * S)) (pop : list nat -> option (nat * list nat)) (debug : bool)
    (ys xs : list nat) (fuel : nat) (gys : option (list T)) (s s' : S) (seeds : list M)
    (l : list (T * bool)) (log : list nat) (behind : nat -> Prop),
  problem g zero one_val add vjp good valid den ext passes opgrad addn one zeros_like pop ys ->
  good s -> seed_values valid den one_val ys gys s seeds ->
  NoDup xs -> (forall x, In x xs -> accum_once g ys x) ->
  (forall z, behind z \/ ~ behind z) ->
  (forall u p z, behind z -> edge g u p z -> behind u \/ ~ differentiable g u) ->
  (forall y, In y ys -> ~ behind y) ->
  grad_with_default g opgrad addn one zeros_like pop debug fuel ys xs gys s = Ok (l, s', log) ->
  Forall2 (fun x r => behind x -> snd r = false /\ den s' (fst r) = zero) xs l.
Proof.
  intros O S T M g zero one_val add vjp good valid den ext passes opgrad addn one zeros_like pop debug
    ys xs fuel gys s s' seeds l log behind Hpb Hg Hs Hn Ha Hdec Hb Hyb He.
  pose proof (C14_unreached_gives_zeros O S T M g zero one_val add vjp good valid den ext passes opgrad addn one
     zeros_like pop debug ys xs fuel gys s s' seeds l log Hpb Hg Hs Hn Ha He) as HF.
  eapply Forall2_impl'; [|exact HF]. intros x r Hx (A & B & _) Hbx.
  assert (Hnr : ~ reached g ys x).
  { intros (_ & y & Hy & Hr). revert Hr. apply (behind_unreached g behind); auto.
    apply (pb_diff _ _ _ _ _ _ _ _ _ _ _ _ _ _ _ _ Hpb); auto. }
  split; auto. destruct (snd r); auto. exfalso. apply Hnr. apply A. auto.
Qed.
Print Assumptions C17_behind_stop_gets_zeros.

(** In 3 = stop(2x) + w nothing reaches x. *)
Definition g_stop : graph lin :=
  let g := lbuild [] [] true [] in
  let g := lbuild g [] true [] in
  let g := lbuild g [0] true (mulc 2) in
  let g := lbuild g [2] false [None] in
  lbuild g [3;1] true add2.
Example C17_hypotheses_met :
  stop_gradient [None] (firstn 3 g_stop) 2 = Some (firstn 4 g_stop, 3) /\
  lin_grad g_stop [4] [0; 1] None = Ok ([(0%Z, false); (1%Z, true)], tt, [4]) /\
  (forall u p z, (z = 0 \/ z = 2) -> edge g_stop u p z -> (u = 0 \/ u = 2) \/ ~ differentiable g_stop u).
Proof.
  split; [reflexivity|]. split; [reflexivity|].
  intros u p z Hz (n & inc & Hn & Hp & Hid).
  destruct u as [|[|[|[|[|u]]]]]; simpl in Hn; auto; inv Hn.
  - destruct p; discriminate.
  - right. intros (n & Hn & Hd). inv Hn. discriminate.
  - exfalso. destruct p as [|[|p]]; simpl in Hp; [inv Hp; simpl in Hz; lia | inv Hp; simpl in Hz; lia | destruct p; discriminate].
  - destruct u; discriminate.
Qed.

(** ** C10: the gradient part of depends_on *)

(** After [x.depends_on(deps)], a path along which gradients flow and that uses
    the first operand of [x] ends at the control node: the original operand
    gets nothing from it. *)
Theorem C10_first_operand_gradient_dropped :
  forall (O : Type) (ctrl_op : O) (g g' : graph O) (x : nat) (deps : list nat) (n : node O)
    (passes : nat -> nat -> Prop),
  control_dependencies ctrl_op g x deps = Some g' ->
  (forall p, ~ passes (length g) p) ->
  nth_error g x = Some n -> n_backprop n = None ->
  forall (y : nat) (es1 es2 : list (nat * nat)) (z : nat),
  path g' passes y (es1 ++ (x, 0) :: es2) z -> es2 = [] /\ z = length g.
Proof.
  intros; eapply first_operand_cut; eauto.
Qed.
Print Assumptions C10_first_operand_gradient_dropped.

(** 0: x, 1: w, 2 = 3x, 3 = 2 + x; then [3.depends_on([w])] changes the gradient
    of x from 4 to 1; with only one use of x the request panics. *)
Definition g_dep0 : graph lin :=
  let g := lbuild [] [] true [] in
  let g := lbuild g [] true [] in
  let g := lbuild g [0] true (mulc 3) in
  lbuild g [2;0] true add2.
Definition g_dep : graph lin :=
  match control_dependencies [None; None] g_dep0 3 [1] with Some g => g | None => [] end.
Definition g_dep1 : graph lin :=
  match control_dependencies [None; None] g_dep0 2 [1] with Some g => g | None => [] end.
Theorem C10_gradient_changes_refuted :
  exists (g g' : graph lin) (y x d : nat) (a b : Z) (log log' : list nat),
    control_dependencies [None; None] g y [d] = Some g' /\ d <> x /\
    lin_grad g [y] [x] None = Ok ([(a, true)], tt, log) /\
    lin_grad g' [y] [x] None = Ok ([(b, true)], tt, log') /\ a <> b.
Proof.
  exists g_dep0, g_dep, 3, 0, 1, 4%Z, 1%Z, [2; 3], [4; 3].
  split; [reflexivity|]. split; [discriminate|]. split; [reflexivity|]. split; [reflexivity | discriminate].
Qed.
Print Assumptions C10_gradient_changes_refuted.
Example C10_gradient_hypotheses_met :
  control_dependencies [None; None] g_dep0 3 [1] = Some g_dep /\
  (forall p, ~ lin_passes g_dep (length g_dep0) p) /\
  lin_grad g_dep0 [2] [0] None = Ok ([(3%Z, true)], tt, [2]) /\
  lin_grad g_dep1 [2] [0] None = Panic.
Proof.
  split; [reflexivity|]. split; [|split; reflexivity].
  intros p (n & c & Hn & Hc). inv Hn. destruct p as [|[|p]]; try discriminate. destruct p; discriminate.
Qed.
