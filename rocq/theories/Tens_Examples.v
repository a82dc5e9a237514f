(** A small network as an array graph, and checkers for the hypotheses on it. *)
From Coq Require Import String List Arith ZArith Bool Reals Lra Lia.
Import ListNotations.
From Verif Require Import Graph_Model Eval_Model Eval_Spec Eval_Proofs Graph_Proofs Grad_Model Grad_Spec Grad_Examples
  Scalar_Model Scalar_Spec.
From Verif Require Import Array_Model Array_Proofs Vjp_Spec Vjp_Proofs Reduce_Model Tens_Model Tens_Spec.
Local Open Scope R_scope.
Local Set Bullet Behavior "Strict Subproofs".

Definition is_leaf_op (o : top) : bool := match o with TLeaf => true | _ => false end.
Definition holds_shape (t : option (option ty)) (sh : list nat) : bool :=
  match t with Some (Some (TyI l)) => if list_eq_dec Z.eq_dec l (shape_vec sh) then true else false | _ => false end.
Definition twf_node_b (ls : nat -> list nat) (g : tgraph) (ts : list (option ty)) (i : nat) (n : node top) : bool :=
  match nth_error ts i, n_shape n with
  | Some (Some (TyA sh)), Some t => holds_shape (nth_error ts t) sh
  | _, _ => true
  end &&
  (if is_leaf_op (n_op n)
   then match n_inputs n with [] => true | _ => false end && (is_variable n || is_placeholder n)
   else match n_var n, n_ph n with None, None => true | _, _ => false end) &&
  match n_backprop n with None => true | _ => false end &&
  forallb (fun inc => (in_id inc <? i)%nat && (rank_of g (in_id inc) <? n_rank n)%nat && negb (in_mut inc)) (n_inputs n).
Definition on_nodes (g : tgraph) (f : nat -> node top -> bool) : bool :=
  forallb (fun i => match nth_error g i with Some n => f i n | None => true end) (seq 0 (length g)).
Definition twf_b (ls : nat -> list nat) (g : tgraph) : bool := let ts := ttypes ls g in on_nodes g (twf_node_b ls g ts).

Lemma on_nodes_sound g f : on_nodes g f = true -> forall i n, nth_error g i = Some n -> f i n = true.
Proof.
  intros H i n Hn. unfold on_nodes in H. rewrite forallb_forall in H. specialize (H i). rewrite Hn in H. apply H.
  apply in_seq. assert (i < length g)%nat by (apply nth_error_Some; congruence). lia.
Qed.
Lemma twf_b_sound ls g : twf_b ls g = true -> twf ls g.
Proof.
  intros H. pose proof (on_nodes_sound _ _ H) as HN. clear H.
  assert (HS : forall i n, nth_error g i = Some n ->
     match nth_error (ttypes ls g) i, n_shape n with
     | Some (Some (TyA sh)), Some t => holds_shape (nth_error (ttypes ls g) t) sh | _, _ => true end = true /\
     (if is_leaf_op (n_op n)
      then match n_inputs n with [] => true | _ => false end && (is_variable n || is_placeholder n)
      else match n_var n, n_ph n with None, None => true | _, _ => false end) = true /\
     match n_backprop n with None => true | _ => false end = true /\
     forallb (fun inc => (in_id inc <? i)%nat && (rank_of g (in_id inc) <? n_rank n)%nat && negb (in_mut inc)) (n_inputs n) = true).
  { intros i n Hn. specialize (HN i n Hn). unfold twf_node_b in HN. rewrite !andb_true_iff in HN. tauto. }
  clear HN.
  assert (HI : forall i n inc, nth_error g i = Some n -> In inc (n_inputs n) ->
    (in_id inc < i)%nat /\ (rank_of g (in_id inc) < n_rank n)%nat /\ in_mut inc = false).
  { intros i n inc Hn Hin. destruct (HS i n Hn) as (_ & _ & _ & A). rewrite forallb_forall in A. specialize (A inc Hin).
    rewrite !andb_true_iff, !Nat.ltb_lt, negb_true_iff in A. tauto. }
  constructor; try (intros; eapply HI; eauto; fail).
  - intros i n sh t Hn Hsh Ht. destruct (HS i n Hn) as (A & _). unfold shaped in Hsh. rewrite Hsh, Ht in A.
    unfold holds_shape in A. destruct (nth_error (ttypes ls g) t) as [[[|l]|]|]; try discriminate.
    destruct (list_eq_dec Z.eq_dec l (shape_vec sh)); [congruence|discriminate].
  - intros i n Hn Ho. destruct (HS i n Hn) as (_ & A & _). rewrite Ho in A. simpl in A. apply andb_prop in A.
    destruct A as [A B]. split; auto. destruct (n_inputs n); [auto|discriminate].
  - intros i n Hn Ho. destruct (HS i n Hn) as (_ & A & _).
    destruct (n_op n); try congruence; simpl in A; destruct (n_var n), (n_ph n); try discriminate; auto.
  - intros i n Hn. destruct (HS i n Hn) as (_ & _ & A & _). destruct (n_backprop n); [discriminate|auto].
Qed.

(** Every use fits. *)
Definition fits_b (ls : nat -> list nat) (g : tgraph) : bool :=
  let tys := ttypes ls g in
  on_nodes g (fun _ n => match lookups tys (n_inputs n) with Some ts => op_fit (n_op n) ts | None => true end).
Lemma fits_b_sound ls g y : fits_b ls g = true -> fits ls g y.
Proof.
  intros H i n ts _ Hn HL. pose proof (on_nodes_sound _ _ H i n Hn) as A. cbv beta in A. rewrite HL in A. exact A.
Qed.

(** Operations differentiable everywhere. *)
Definition t_total_op (o : top) : bool :=
  match o with
  | TStop | TReduceProd _ | TReduceExt _ _ _ | TSigmoidXent | TPool _ _ _ _ _ _ => false
  | TUn u => match u with
             | Sin | Cos | Atan | Sinh | Cosh | Tanh | Asinh | Exp | Exp2 | Exp10 | Square | Neg | Sigmoid | Softplus | Identity => true
             | _ => false end
  | TBin b => match b with Add | Sub | Mul => true | _ => false end
  | _ => true
  end.
Lemma t_total_dom o vs : t_total_op o = true -> t_dom o vs.
Proof.
  destruct o; simpl; try discriminate; auto; intros H.
  - destruct vs as [|[x|] [|? ?]]; auto. apply Forall_forall. intros e _. destruct u; simpl in *; auto; discriminate.
  - destruct vs as [|[x|] [|[y|] [|? ?]]]; auto. intros r i _ _. destruct b; simpl in *; auto; discriminate.
Qed.
Definition t_smooth_b (ls : nat -> list nat) (g : tgraph) : bool :=
  let tys := ttypes ls g in
  on_nodes g (fun i n => match nth_error tys i with Some (Some (TyA _)) =>
                           match n_op n with TSize => true | _ => n_diff n && t_total_op (n_op n) end | _ => true end).
Lemma t_smooth_b_sound ls g rho x y : t_smooth_b ls g = true -> t_smooth ls g rho x y.
Proof.
  intros H i n sh _ _ _ Hn Hty Hsz. pose proof (on_nodes_sound _ _ H i n Hn) as A. cbv beta in A. unfold shaped in Hty. rewrite Hty in A.
  assert (B : n_diff n && t_total_op (n_op n) = true) by (destruct (n_op n); auto; congruence).
  apply andb_prop in B. destruct B as [B1 B2]. split; auto. split; [left; apply t_total_dom; auto|]. intros p inc _ Hz. destruct (n_op n); discriminate.
Qed.

(** ** A layer with weights, bias and sigmoid, and the sums of squares of its rows *)
Definition t_var (vid : nat) : node top := Node TLeaf [] 0 None None true None None (Some vid).
(** Variables 0 (inputs), 1 (weights), 2 (bias). *)
Definition net_ls (i : nat) : list nat := match i with 0%nat => [2%nat; 3%nat] | 1%nat => [3%nat; 2%nat] | 2%nat => [1%nat; 2%nat] | _ => [] end.
Definition net_build : tbld nat :=
  tbind (tmk [0%nat; 1%nat] None true (TMatMul false false)) (fun h =>
  tbind (a_bin Add h 2) (fun z =>
  tbind (a_un Sigmoid z) (fun s =>
  tbind (a_un Square s) (fun q =>
  tbind (a_ints [(-1)%Z]) (fun ax =>
  tmk [q; ax] None true (TReduceSum false)))))).
Definition net_start : tgraph := [t_var 0; t_var 1; t_var 2].
Definition net_graph : tgraph := match net_build net_start with Some (_, g) => g | None => [] end.
Definition net_y : nat := match net_build net_start with Some (y, _) => y | None => 0%nat end.
Definition net_result := t_grad (@max_pop top) true 200 [net_y] [1%nat; 2%nat] net_graph.
Definition res_tensors (r : Eval_Model.res (list (nat * bool) * tgraph * list nat)) : list (nat * bool) :=
  match r with Ok (l, _, _) => l | _ => [] end.
Definition res_graph (r : Eval_Model.res (list (nat * bool) * tgraph * list nat)) : tgraph :=
  match r with Ok (_, g, _) => g | _ => [] end.
Definition is_ok (r : Eval_Model.res (list (nat * bool) * tgraph * list nat)) : bool :=
  match r with Ok _ => true | _ => false end.
Lemma is_ok_sound r : is_ok r = true -> exists log, r = Ok (res_tensors r, res_graph r, log).
Proof. destruct r as [[[l g] log]| |]; try discriminate. intros _. exists log. reflexivity. Qed.

Lemma net_twf : twf net_ls net_graph.
Proof. apply twf_b_sound. vm_compute. reflexivity. Qed.
Lemma net_fits : fits net_ls net_graph net_y.
Proof. apply fits_b_sound. vm_compute. reflexivity. Qed.
Lemma net_shaped : shaped net_ls net_graph net_y [2%nat].
Proof. vm_compute. reflexivity. Qed.
Lemma net_smooth rho x : t_smooth net_ls net_graph rho x net_y.
Proof. apply t_smooth_b_sound. vm_compute. reflexivity. Qed.
Lemma net_ok : exists log, t_grad (@max_pop top) true 200 [net_y] [1%nat; 2%nat] net_graph
  = Ok (res_tensors net_result, res_graph net_result, log).
Proof.
  assert (B : is_ok net_result = true) by (vm_compute; reflexivity).
  assert (Q : net_result = t_grad (@max_pop top) true 200 [net_y] [1%nat; 2%nat] net_graph) by reflexivity.
  rewrite <- Q. apply is_ok_sound. exact B.
Qed.
(** The variables 0, 1, 2 at nodes 0, 1, 2 are the only leaves. *)
Definition var_leaves_b (k : nat) (g : tgraph) : bool :=
  on_nodes g (fun i n => match n_op n with
    | TLeaf => (i <? k)%nat && match n_var n, n_ph n with Some v, None => (v =? i)%nat | _, _ => false end
    | _ => true end).
Lemma var_leaves_sound k g rho : var_leaves_b k g = true -> t_leaf_values g [] (map (fun i => TA (rho i)) (seq 0 k)) rho.
Proof.
  intros H i n Hn Ho. pose proof (on_nodes_sound _ _ H i n Hn) as A. cbv beta in A. rewrite Ho in A.
  apply andb_prop in A. destruct A as [A B]. apply Nat.ltb_lt in A.
  destruct (n_var n) as [v|]; [|discriminate]. destruct (n_ph n); [discriminate|]. apply Nat.eqb_eq in B. subst v.
  left. exists i. split; auto. split; auto. rewrite nth_error_map.
  rewrite (nth_error_nth' (seq 0 k) 0%nat) by (rewrite seq_length; exact A). rewrite seq_nth by exact A. reflexivity.
Qed.
Lemma net_leaves rho : t_leaf_values (res_graph net_result) [] (map (fun i => TA (rho i)) (seq 0 3)) rho.
Proof. apply var_leaves_sound. vm_compute. reflexivity. Qed.

(** Sum of all elements of a product of two matrices: the gradient with respect
    to the left factor holds the row sums of the right one. *)
Definition prod_ls (i : nat) : list nat := match i with 0%nat => [2%nat; 2%nat] | 1%nat => [2%nat; 1%nat] | _ => [] end.
Definition prod_graph : tgraph := match tmk [0%nat; 1%nat] None true (TMatMul false false) [t_var 0; t_var 1] with Some (_, g) => g | None => [] end.
Definition prod_result := t_grad (@max_pop top) true 100 [2%nat] [0%nat] prod_graph.
Lemma prod_gradient rho a b c d e f : rho 0%nat = Arr [2%nat; 2%nat] [a; b; c; d] -> rho 1%nat = Arr [2%nat; 1%nat] [e; f] ->
  exists t, res_tensors prod_result = [(t, true)] /\
    aval rho prod_graph 2 = Arr [2%nat; 1%nat] [a * e + b * f; c * e + d * f] /\
    aval rho (res_graph prod_result) t = Arr [2%nat; 2%nat] [e; f; e; f].
Proof.
  intros H0 H1. exists (match res_tensors prod_result with (t, _) :: _ => t | _ => 0%nat end).
  split; [vm_compute; reflexivity|].
  split; cbv -[Rplus Rmult IZR]; rewrite ?H0, ?H1; cbv -[Rplus Rmult IZR]; f_equal; repeat (apply f_equal2; [ring|]); reflexivity.
Qed.
