(** A small concrete set of operations and graphs, used only to show that the
    hypotheses of the evaluator theorems are met by non-trivial cases. *)
From Coq Require Import String List Arith ZArith Bool Relations Lia.
Import ListNotations.
From Verif Require Import Graph_Model Eval_Model Eval_Spec Eval_Proofs Graph_Proofs.
Local Open Scope Z_scope.

(** Scalars stand for arrays; an array [z] has shape [[Z.to_nat z]] so that
    shape declarations can be exercised. *)
Definition ex_shape (z : Z) : list nat := [Z.to_nat z].
Inductive ex_op := XVar | XPh | XConst (s : list Z) | XAdd | XNeg | XFail | XAddAssign | XCtrl.
Definition payload (x : opin Z) : Z := match x with NonVar v | RdOnly v | RdWr v => v end.
Definition ex_compute (o : ex_op) (xs : list (opin Z)) : cout Z string :=
  match o, xs with
  | XAdd, [a; b] => CRet [] [payload a + payload b] None
  | XNeg, [a] => CRet [] [- payload a] None
  | XFail, _ => CRet [] [0] (Some "bad"%string)
  | XAddAssign, [RdWr a; b] => CRet [(0%nat, a + payload b)] [0] None
  | XCtrl, a :: _ => CRet [] [payload a] None
  | XConst s, [] => CRet [] [1] None
  | _, _ => CPanic
  end.

Definition plain (op : ex_op) (ins : list nat) : node ex_op :=
  Node op (map (fun i => Incoming i false 0) ins) 0 None None true None None None.
Definition var_node (vid : nat) : node ex_op := Node XVar [] 0 None None true None None (Some vid).
Definition ph_node (name : string) (k : list Z) : node ex_op :=
  Node XPh [] 0 None (Some name) true None (Some k) None.

(** 0: variable, 1: placeholder, 2 = 0+1, 3 = 2+2, 4 = -2, 5 = 3+4 *)
Definition g_pure : graph ex_op :=
  [var_node 0; ph_node "x" [-1]%Z; plain XAdd [0;1]; plain XAdd [2;2]; plain XNeg [2]; plain XAdd [3;4]]%nat.
(** ... 6 fails on 2, 7 = 6+5, 8 adds 2 to the variable in place *)
Definition g_full : graph ex_op :=
  g_pure ++ [plain XFail [2]; plain XAdd [6;5];
             Node XAddAssign [Incoming 0 true 0; Incoming 2 false 0] 0 None None true None None None]%nat.
Definition ex_feeds : list (ph_key * Z) := [(KName "y", 9); (KId 1, 5); (KName "x", 4)].

Definition wf_b {O} (g : graph O) : bool :=
  forallb (fun n => forallb (fun inc => (in_id inc <? length g)%nat) (n_inputs n) &&
                    (negb (is_variable n || is_placeholder n) || match n_inputs n with [] => true | _ => false end)) g.
Lemma wf_b_sound {O} (g : graph O) : wf_b g = true -> wf_graph g.
Proof.
  unfold wf_b. rewrite forallb_forall. intros H. split.
  - intros i j (n & inc & Hn & Hin & <-). apply nth_error_In in Hn. specialize (H n Hn).
    apply andb_true_iff in H. destruct H as [H _]. rewrite forallb_forall in H.
    apply Nat.ltb_lt. auto.
  - intros i n Hn Hs. apply nth_error_In in Hn. specialize (H n Hn).
    apply andb_true_iff in H. destruct H as [_ H]. rewrite Hs in H. simpl in H.
    destruct (n_inputs n); auto. discriminate.
Qed.

Fixpoint ids_before_b {O} (k : nat) (g : graph O) : bool :=
  match g with
  | [] => true
  | n :: g => forallb (fun inc => (in_id inc <? k)%nat) (n_inputs n) && ids_before_b (S k) g
  end.
Lemma ids_before_sound {O} (g : graph O) k : ids_before_b k g = true ->
  forall i n inc, nth_error g i = Some n -> In inc (n_inputs n) -> (in_id inc < k + i)%nat.
Proof.
  revert k; induction g as [|a g IH]; intros k H i n inc Hn Hin; [destruct i; discriminate|].
  simpl in H. apply andb_true_iff in H. destruct H as [H1 H2]. destruct i as [|i]; simpl in Hn.
  - inv Hn. rewrite forallb_forall in H1. specialize (H1 inc Hin). apply Nat.ltb_lt in H1. lia.
  - specialize (IH (S k) H2 i n inc Hn Hin). lia.
Qed.
Lemma acyclic_b {O} (g : graph O) : ids_before_b 0 g = true -> acyclic g.
Proof.
  intros H. apply (acyclic_by_rank g (fun i => i)).
  intros i j (n & inc & Hn & Hin & <-). pose proof (ids_before_sound g 0 H i n inc Hn Hin). lia.
Qed.

Lemma no_inplace_b {O} (g : graph O) targets :
  forallb (fun n => forallb (fun inc => negb (in_mut inc)) (n_inputs n)) g = true -> no_inplace g targets.
Proof.
  rewrite forallb_forall. intros H i n p vid _ Hn (inc & m & Hp & Hm & _).
  apply nth_error_In in Hn. apply nth_error_In in Hp. specialize (H n Hn).
  rewrite forallb_forall in H. specialize (H inc Hp). rewrite Hm in H. discriminate.
Qed.

Lemma g_pure_wf : wf_graph g_pure.
Proof. apply wf_b_sound. reflexivity. Qed.
Lemma g_pure_acyclic : acyclic g_pure.
Proof. apply acyclic_b. reflexivity. Qed.
Lemma g_full_wf : wf_graph g_full.
Proof. apply wf_b_sound. reflexivity. Qed.
Lemma g_full_acyclic : acyclic g_full.
Proof. apply acyclic_b. reflexivity. Qed.

(** A cycle made with [depends_on]: 0 variable, 1 = -0, 2 = -1, then
    [1.depends_on([2])]. *)
Definition g_cycle0 : graph ex_op := [var_node 0; plain XNeg [0]; plain XNeg [1]]%nat.
Definition g_cycle : graph ex_op :=
  match control_dependencies XCtrl g_cycle0 1 [2%nat] with Some g => g | None => [] end.

Lemma cycle_diverges :
  control_dependencies XCtrl g_cycle0 1 [2%nat] = Some g_cycle /\ wf_graph g_cycle /\
  forall fuel, eval ex_shape ex_compute true g_cycle [] fuel [1%nat] [3] = OutOfFuel.
Proof.
  split; [reflexivity|]. split; [apply wf_b_sound; reflexivity|].
  assert (H : forall fuel stack,
    loop ex_shape ex_compute true g_cycle [] fuel
      (State ((1%nat, false) :: stack) (fun _ => None) [3] []) = OutOfFuel /\
    loop ex_shape ex_compute true g_cycle [] fuel
      (State ((3%nat, false) :: (1%nat, true) :: stack) (fun _ => None) [3] []) = OutOfFuel /\
    loop ex_shape ex_compute true g_cycle [] fuel
      (State ((2%nat, false) :: (3%nat, true) :: (1%nat, true) :: stack) (fun _ => None) [3] []) = OutOfFuel).
  { induction fuel as [|fuel IH]; intros stack; [repeat split; reflexivity|].
    repeat split.
    - exact (proj1 (proj2 (IH stack))).
    - exact (proj2 (proj2 (IH stack))).
    - exact (proj1 (IH ((2%nat, true) :: (3%nat, true) :: (1%nat, true) :: stack))). }
  intros fuel. unfold eval.
  replace (loop ex_shape ex_compute true g_cycle [] fuel (init_state [1%nat] [3]))
    with (@OutOfFuel (@state Z string)); auto.
  symmetry. exact (proj1 (H fuel [])).
Qed.
