(** Concrete scalar graphs and checkers for their well-formedness. *)
From Coq Require Import String List Arith ZArith Bool Reals Lra Lia.
Import ListNotations.
From Verif Require Import Graph_Model Eval_Model Eval_Spec Eval_Proofs Graph_Proofs Grad_Model Grad_Spec Grad_Examples
  Scalar_Model Scalar_Spec Scalar_Rules.
Local Open Scope R_scope.
Local Set Bullet Behavior "Strict Subproofs".

Definition is_num (t : option (option sty)) : bool := match t with Some (Some TNum) => true | _ => false end.
Definition is_shp (t : option (option sty)) : bool := match t with Some (Some TShp) => true | _ => false end.
Definition is_leaf_op (o : sop) : bool := match o with OLeaf => true | _ => false end.
Definition swf_node_b (g : sgraph) (i : nat) (n : node sop) : bool :=
  let ts := types g in
  match nth_error ts i with Some (Some _) => true | _ => false end &&
  (if is_num (nth_error ts i) then match n_shape n with Some sh => is_shp (nth_error ts sh) | None => true end else true) &&
  (if is_leaf_op (n_op n)
   then match n_inputs n with [] => true | _ => false end && (is_variable n || is_placeholder n)
   else match n_var n, n_ph n with None, None => true | _, _ => false end) &&
  match n_backprop n with None => true | _ => false end &&
  forallb (fun inc => (rank_of g (in_id inc) <? n_rank n)%nat && negb (in_mut inc)) (n_inputs n).
Definition swf_b (g : sgraph) : bool :=
  forallb (fun i => match nth_error g i with Some n => swf_node_b g i n | None => true end) (seq 0 (length g)).

Lemma swf_b_sound g : swf_b g = true -> swf g.
Proof.
  intros H. assert (HN : forall i n, nth_error g i = Some n -> swf_node_b g i n = true).
  { intros i n Hn. unfold swf_b in H. rewrite forallb_forall in H. specialize (H i). rewrite Hn in H. apply H.
    apply in_seq. assert (i < length g)%nat by (apply nth_error_Some; congruence). lia. }
  clear H.
  assert (HS : forall i n, nth_error g i = Some n ->
     match nth_error (types g) i with Some (Some _) => true | _ => false end = true /\
     (if is_num (nth_error (types g) i) then match n_shape n with Some sh => is_shp (nth_error (types g) sh) | None => true end else true) = true /\
     (if is_leaf_op (n_op n)
      then match n_inputs n with [] => true | _ => false end && (is_variable n || is_placeholder n)
      else match n_var n, n_ph n with None, None => true | _, _ => false end) = true /\
     match n_backprop n with None => true | _ => false end = true /\
     forallb (fun inc => (rank_of g (in_id inc) <? n_rank n)%nat && negb (in_mut inc)) (n_inputs n) = true).
  { intros i n Hn. specialize (HN i n Hn). unfold swf_node_b in HN. cbv zeta in HN. rewrite !andb_true_iff in HN. tauto. }
  clear HN. constructor.
  - intros i n Hn. destruct (HS i n Hn) as (A & _). destruct (nth_error (types g) i) as [[t|]|]; try discriminate. eauto.
  - intros i n sh Hn Hnum Hsh. destruct (HS i n Hn) as (_ & A & _). unfold numeric in Hnum. rewrite Hnum in A. simpl in A.
    rewrite Hsh in A. unfold is_shp in A. unfold shapely. destruct (nth_error (types g) sh) as [[[]|]|]; try discriminate. auto.
  - intros i n Hn Ho. destruct (HS i n Hn) as (_ & _ & A & _). rewrite Ho in A. simpl in A. apply andb_prop in A.
    destruct A as [A B]. split; auto. destruct (n_inputs n); [auto|discriminate].
  - intros i n Hn Ho. destruct (HS i n Hn) as (_ & _ & A & _).
    destruct (n_op n); try congruence; simpl in A; destruct (n_var n), (n_ph n); try discriminate; auto.
  - intros i n Hn. destruct (HS i n Hn) as (_ & _ & _ & A & _). destruct (n_backprop n); [discriminate|auto].
  - intros i n inc Hn Hin. destruct (HS i n Hn) as (_ & _ & _ & _ & A). rewrite forallb_forall in A.
    specialize (A inc Hin). apply andb_prop in A. apply Nat.ltb_lt. tauto.
  - intros i n inc Hn Hin. destruct (HS i n Hn) as (_ & _ & _ & _ & A). rewrite forallb_forall in A.
    specialize (A inc Hin). apply andb_prop in A. apply negb_true_iff. tauto.
Qed.

(** Operations differentiable everywhere. *)
Definition total_op (o : sop) : bool :=
  match o with
  | OStop => false
  | OUn u => match u with
             | Sin | Cos | Atan | Sinh | Cosh | Tanh | Asinh | Exp | Exp2 | Exp10 | Square | Neg | Sigmoid | Softplus | Identity => true
             | _ => false end
  | OBin b => match b with Add | Sub | Mul => true | _ => false end
  | _ => true
  end.
Lemma total_op_dom o vs : total_op o = true -> op_dom o vs.
Proof.
  destruct o; simpl; try discriminate; auto; intros H.
  - destruct vs as [|x [|? ?]]; auto. destruct u; simpl in *; auto; discriminate.
  - destruct vs as [|x [|y [|? ?]]]; auto. destruct b; simpl in *; auto; discriminate.
Qed.
Lemma smooth_total g rho x y :
  forallb (fun n => n_diff n && total_op (n_op n) || negb (n_diff n) && match n_op n with OShape => true | _ => false end) g = true ->
  swf g -> (forall i n, nth_error g i = Some n -> n_op n = OShape -> ~ numeric g i) -> smooth g rho x y.
Proof.
  intros H W Hsh i n _ _ _ Hn Hnum. rewrite forallb_forall in H. specialize (H n (nth_error_In _ _ Hn)).
  apply orb_prop in H. destruct H as [H|H]; apply andb_prop in H; destruct H as [A B].
  - split; auto. apply total_op_dom. auto.
  - exfalso. destruct (n_op n) eqn:E; try discriminate. apply (Hsh i n); auto.
Qed.

(** A graph holding one variable, extended by a builder action. *)
Definition var_node (vid : nat) : node sop := Node OLeaf [] 0 None None true None None (Some vid).
Definition ph_node (name : string) : node sop := Node OLeaf [] 0 None (Some name) true None (Some []) None.

(** x * sin x + exp x, with x the variable 0. *)
Definition ex_build : bld nat :=
  bind (t_un Sin 0) (fun s => bind (t_bin Mul 0 s) (fun p => bind (t_un Exp 0) (fun e => t_bin Add p e))).
Definition ex_graph : sgraph := match ex_build [var_node 0] with Some (_, g) => g | None => [] end.
Definition ex_y : nat := match ex_build [var_node 0] with Some (y, _) => y | None => 0%nat end.
Definition ex_fuel : nat := 200.
Definition ex_result := s_grad (@max_pop sop) true ex_fuel [ex_y] [0%nat] ex_graph.

Definition grad_tensor (r : res (list (nat * bool) * sgraph * list nat)) : nat :=
  match r with Ok ((t, _) :: _, _, _) => t | _ => 0%nat end.
Definition grad_graph (r : res (list (nat * bool) * sgraph * list nat)) : sgraph :=
  match r with Ok (_, g, _) => g | _ => [] end.

Definition single_b (r : res (list (nat * bool) * sgraph * list nat)) : bool :=
  match r with Ok ([(_, true)], _, _) => true | _ => false end.
Lemma single_b_sound r : single_b r = true -> exists log, r = Ok ([(grad_tensor r, true)], grad_graph r, log).
Proof.
  destruct r as [[[l g] log]| |]; try discriminate. destruct l as [|[t []] [|? ?]]; try discriminate.
  intros _. exists log. reflexivity.
Qed.

Lemma ex_swf : swf ex_graph.
Proof. apply swf_b_sound. vm_compute. reflexivity. Qed.
Lemma ex_value rho : val rho ex_graph ex_y = rho 0%nat * sin (rho 0%nat) + exp (rho 0%nat).
Proof. cbv - [Rplus Rmult sin exp IZR]. reflexivity. Qed.
Lemma ex_smooth rho x : smooth ex_graph rho x ex_y.
Proof.
  apply smooth_total; [vm_compute; reflexivity | exact ex_swf |].
  assert (H : forallb (fun i => match nth_error ex_graph i with
                                | Some n => match n_op n with OShape => negb (is_num (nth_error (types ex_graph) i)) | _ => true end
                                | None => true end) (seq 0 (length ex_graph)) = true) by (vm_compute; reflexivity).
  intros i n Hn Ho Hnum. rewrite forallb_forall in H. specialize (H i). rewrite Hn, Ho in H.
  unfold numeric in Hnum. rewrite Hnum in H.
  assert (Hl : (i < length ex_graph)%nat) by (apply nth_error_Some; congruence).
  assert (Hin : In i (seq 0 (length ex_graph))) by (apply in_seq; lia). specialize (H Hin). discriminate H.
Qed.
(** Only leaf: variable 0 at node 0. *)
Definition one_leaf_b (g : sgraph) : bool :=
  forallb (fun n => match n_op n with
                    | OLeaf => match n_var n, n_ph n with Some 0%nat, None => true | _, _ => false end
                    | _ => true end) g &&
  forallb (fun i => match nth_error g i with Some n => match n_op n with OLeaf => (i =? 0)%nat | _ => true end | None => true end)
    (seq 0 (length g)).
Lemma one_leaf_sound g rho : one_leaf_b g = true -> leaf_values g [] [Num (rho 0%nat)] rho.
Proof.
  intros H. apply andb_prop in H. destruct H as [Q Q2]. intros i n Hn Ho. rewrite forallb_forall in Q, Q2.
  specialize (Q n (nth_error_In _ _ Hn)). rewrite Ho in Q. destruct (n_var n) as [[|v]|] eqn:Ev; try discriminate.
  destruct (n_ph n) eqn:Ep; try discriminate. left. exists 0%nat. split; auto. split; auto. simpl.
  specialize (Q2 i). rewrite Hn, Ho in Q2.
  assert (i < length g)%nat by (apply nth_error_Some; congruence).
  rewrite (proj1 (Nat.eqb_eq i 0) (Q2 ltac:(apply in_seq; lia))). reflexivity.
Qed.
Lemma ex_leaves rho : leaf_values (grad_graph ex_result) [] [Num (rho 0%nat)] rho.
Proof. apply one_leaf_sound. vm_compute. reflexivity. Qed.
Lemma ex_ok : exists log, s_grad (@max_pop sop) true ex_fuel [ex_y] [0%nat] ex_graph
  = Ok ([(grad_tensor ex_result, true)], grad_graph ex_result, log).
Proof.
  assert (B : single_b ex_result = true) by (vm_compute; reflexivity).
  assert (Q : ex_result = s_grad (@max_pop sop) true ex_fuel [ex_y] [0%nat] ex_graph) by reflexivity.
  rewrite <- Q. apply single_b_sound. exact B.
Qed.
Lemma ex_grad_value rho : val rho (grad_graph ex_result) (grad_tensor ex_result)
  = exp (rho 0%nat) + (sin (rho 0%nat) + rho 0%nat * cos (rho 0%nat)).
Proof. cbv - [Rplus Rmult sin cos exp IZR]. ring. Qed.

(** max(x, x), built by hand: both positions receive the full gradient. *)
Definition tie_graph : sgraph := match t_bin Maximum 0 0 [var_node 0] with Some (_, g) => g | None => [] end.
Definition tie_result := s_grad (@max_pop sop) true ex_fuel [1%nat] [0%nat] tie_graph.
Lemma tie_swf : swf tie_graph.
Proof. apply swf_b_sound. vm_compute. reflexivity. Qed.
Lemma tie_ok : exists log, s_grad (@max_pop sop) true ex_fuel [1%nat] [0%nat] tie_graph
  = Ok ([(grad_tensor tie_result, true)], grad_graph tie_result, log).
Proof.
  assert (B : single_b tie_result = true) by (vm_compute; reflexivity).
  assert (Q : tie_result = s_grad (@max_pop sop) true ex_fuel [1%nat] [0%nat] tie_graph) by reflexivity.
  rewrite <- Q. apply single_b_sound. exact B.
Qed.
Lemma tie_grad_value rho : val rho (grad_graph tie_result) (grad_tensor tie_result) = 2.
Proof.
  cbv - [Rplus Rmult IZR Rmax reqb b2r]. unfold reqb.
  destruct (Req_EM_T (rho 0%nat) (Rmax (rho 0%nat) (rho 0%nat))) as [_|n].
  - unfold b2r. lra.
  - exfalso. apply n. unfold Rmax. destruct (Rle_dec _ _); reflexivity.
Qed.

Lemma forward_functions :
  (forall x, un Sigmoid x = / (1 + exp (- x))) /\
  (forall x, 1 <= x -> cosh (un Acosh x) = x /\ 0 <= un Acosh x) /\
  (forall x, -1 < x < 1 -> tanh (un Atanh x) = x) /\
  (forall x, sinh (un Asinh x) = x) /\
  (forall x n, un (Pow (INR n)) x = x ^ n) /\
  (forall x a, 0 < x -> un (Pow a) x = Rpower x a) /\
  (forall x, exp (un Softplus x) = 1 + exp x).
Proof.
  repeat split.
  - intros x. simpl. unfold tanh, sinh, cosh.
    assert (E1 : exp x = exp (x * (1 / 2)) * exp (x * (1 / 2))) by (rewrite <- exp_plus; f_equal; lra).
    rewrite !exp_Ropp. rewrite E1. pose proof (exp_pos (x * (1 / 2))) as H. set (e := exp (x * (1 / 2))) in *.
    field. split; nra.
  - simpl. unfold cosh.
    assert (Hs : 0 <= x * x - 1) by nra. pose proof (sqrt_pos (x * x - 1)) as Hp. pose proof (sqrt_sqrt _ Hs) as Hq.
    set (q := sqrt (x * x - 1)) in *. rewrite exp_Ropp, exp_ln by lra.
    apply (Rmult_eq_reg_r (2 * (x + q))); [|nra]. field_simplify; [|nra]. nra.
  - simpl. assert (Hs : 0 <= x * x - 1) by nra. pose proof (sqrt_pos (x * x - 1)) as Hp.
    rewrite <- ln_1. destruct (Req_dec (x + sqrt (x * x - 1)) 1) as [->|Hne]; [lra|].
    left. apply ln_increasing; lra.
  - intros x Hx. simpl. unfold tanh, sinh, cosh.
    assert (Hpos : 0 < (1 + x) / (1 - x)) by (apply Rdiv_lt_0_compat; lra).
    rewrite exp_Ropp. set (l := ln ((1 + x) / (1 - x))).
    assert (El : exp (l / 2) * exp (l / 2) = (1 + x) / (1 - x)).
    { rewrite <- exp_plus. replace (l / 2 + l / 2) with l by lra. unfold l. apply exp_ln. auto. }
    pose proof (exp_pos (l / 2)) as He. set (e := exp (l / 2)) in *.
    assert (El2 : e * e * (1 - x) = 1 + x) by (rewrite El; field; lra).
    replace ((e - / e) / 2 / ((e + / e) / 2)) with ((e * e - 1) / (e * e + 1)) by (field; split; nra).
    apply (Rmult_eq_reg_r (e * e + 1)); [|nra]. unfold Rdiv. rewrite Rmult_assoc, Rinv_l by nra. nra.
  - intros x. apply sinh_arcsinh.
  - intros x n. apply powf_nat.
  - intros x a. apply powf_pos.
  - intros x. simpl. rewrite exp_ln; [lra|]. pose proof (exp_pos x). lra.
Qed.
