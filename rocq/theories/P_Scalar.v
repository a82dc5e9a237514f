(** Properties C12 and C20: scalar graphs and derivatives. *)
From Coq Require Import String List Arith ZArith Bool Reals Lra Lia Relations.
From Coquelicot Require Import Coquelicot.
Import ListNotations.
From Verif Require Import Graph_Model Eval_Model Eval_Spec Eval_Proofs Eval_Proofs2 Graph_Proofs Grad_Model Grad_Spec
  Grad_Examples Scalar_Model Scalar_Spec Scalar_Rules Scalar_Proofs Scalar_Grad Scalar_Final Scalar_Examples P_Eval.
Local Open Scope R_scope.
Local Set Bullet Behavior "Strict Subproofs".

(** ** C12: gradients of scalar graphs are derivatives *)

(** Public [grad]: the derivative of the sum of the outputs, at all leaf values
    at which the operations between [x] and the outputs are differentiable. *)
Theorem C12_grad_is_derivative :
  forall (pop : sgraph -> list nat -> option (nat * list nat)) (debug : bool) (fuel : nat)
    (ys xs : list nat) (g g' : sgraph) (l : list (nat * bool)) (log : list nat),
  swf g -> (forall g, heap_pop g (pop g)) ->
  (forall y, In y ys -> numeric g y) ->
  NoDup xs -> (forall x, In x xs -> input_leaf g x) ->
  s_grad pop debug fuel ys xs g = Ok (l, g', log) ->
  swf g' /\ (exists new, g' = g ++ new) /\
  Forall2 (fun x r => numeric g' (fst r) /\
     forall rho, (forall y, In y ys -> smooth g rho x y) ->
       derivable_pt_lim (fun v => fold_right Rplus 0 (map (val (set_leaf rho x v) g) ys))
         (rho x) (val rho g' (fst r)))
    xs l.
Proof.
  intros. eapply grad_derivative; eauto.
Qed.
Print Assumptions C12_grad_is_derivative.

(** [grad_with_default]: outputs weighted by the given gradients. *)
Theorem C12_grad_with_default_is_derivative :
  forall (pop : sgraph -> list nat -> option (nat * list nat)) (debug : bool) (fuel : nat)
    (ys xs gys : list nat) (g g' : sgraph) (l : list (nat * bool)) (log : list nat),
  swf g -> heap_pop g (pop g) ->
  NoDup ys -> (forall y, In y ys -> differentiable g y /\ numeric g y) ->
  NoDup xs -> (forall x, In x xs -> input_leaf g x /\ ~ In x ys) ->
  length gys = length ys -> List.Forall (numeric g) gys ->
  s_grad_with_default pop debug fuel ys xs (Some gys) g = Ok (l, g', log) ->
  swf g' /\ (exists new, g' = g ++ new) /\
  Forall2 (fun x r => numeric g' (fst r) /\
     forall rho, (forall y, In y ys -> smooth g rho x y) ->
       derivable_pt_lim
         (fun v => fold_right Rplus 0
            (map (fun '(gy, y) => val rho g gy * val (set_leaf rho x v) g y) (combine gys ys)))
         (rho x) (val rho g' (fst r)))
    xs l.
Proof.
  intros pop debug fuel ys xs gys g g' l log W Hp Ny Hy Nx Hx Hl Hn H.
  destruct (grad_with_default_derivative pop debug fuel ys xs (Some gys) g l g' log W Hp Ny Hy Nx Hx) as (A & B & C); auto.
  { intros t E. inv E. auto. }
  split; auto. split; auto. eapply Forall2_imp; [|exact C]. intros x r [D E]. split; auto. intros rho Hs.
  specialize (E rho Hs). cbv zeta in E. apply is_derive_Reals in E. apply is_derive_Reals.
  eapply is_derive_ext; [|exact E]. intros v. cbv beta.
  assert (Q : forall (a b : list R) k pre, length pre = k -> length a = length b ->
     wsum (fun j => nth j (pre ++ a) 0) k b = fold_right Rplus 0 (map (fun '(u, w) => u * w) (combine a b))).
  { clear. induction a as [|u a IH]; intros [|w b] k pre Hk Hl; try discriminate; simpl; [reflexivity|].
    rewrite app_nth2 by lia. rewrite Hk, Nat.sub_diag. simpl. f_equal.
    replace (pre ++ u :: a) with ((pre ++ [u]) ++ a) by (rewrite <- app_assoc; reflexivity).
    apply IH; [rewrite app_length; simpl; lia|injection Hl; auto]. }
  rewrite (Q (map (val rho g) gys) _ 0%nat []); [|reflexivity|rewrite !map_length; auto].
  clear -Hl. f_equal. revert ys Hl. induction gys as [|gy gys IH]; intros [|y ys] Hl; try discriminate; simpl; [reflexivity|].
  f_equal. apply IH. injection Hl; auto.
Qed.
Print Assumptions C12_grad_with_default_is_derivative.

(** Gradients of gradients: second derivatives. *)
Theorem C12_second_derivative :
  forall (pop : sgraph -> list nat -> option (nat * list nat)) (debug : bool) (fuel fuel2 : nat)
    (y x t t2 : nat) (b b2 : bool) (g g1 g2 : sgraph) (log log2 : list nat) (rho : nat -> R) (eps : R),
  swf g -> (forall g, heap_pop g (pop g)) -> numeric g y -> input_leaf g x ->
  s_grad pop debug fuel [y] [x] g = Ok ([(t, b)], g1, log) ->
  s_grad pop debug fuel2 [t] [x] g1 = Ok ([(t2, b2)], g2, log2) ->
  0 < eps -> (forall v, Rabs (v - rho x) < eps -> smooth g (set_leaf rho x v) x y) ->
  smooth g1 rho x t ->
  exists f' : R -> R,
    (forall v, Rabs (v - rho x) < eps -> derivable_pt_lim (fun u => val (set_leaf rho x u) g y) v (f' v)) /\
    derivable_pt_lim f' (rho x) (val rho g2 t2).
Proof.
  intros pop debug fuel fuel2 y x t t2 b b2 g g1 g2 log log2 rho eps W Hp Hy Hx H1 H2 He Hs Hs1.
  apply grad_derivative in H1; auto.
  2: { intros z [<-|[]]; auto. }
  2: { constructor; [intros []|constructor]. }
  2: { intros z [<-|[]]; auto. }
  destruct H1 as (W1 & G1 & F1). inversion F1 as [|? ? ? ? [N1 D1] _]; subst. simpl in N1.
  apply grad_derivative in H2; auto.
  2: { intros z [<-|[]]; auto. }
  2: { constructor; [intros []|constructor]. }
  2: { intros z [<-|[]]. destruct Hx as (n & Hn & A). exists n. split; auto. eapply grows_nth; eauto. }
  destruct H2 as (W2 & G2 & F2). inversion F2 as [|? ? ? ? [N2 D2] _]; subst.
  exists (fun v => val (set_leaf rho x v) g1 t). split.
  - intros v Hv. specialize (D1 (set_leaf rho x v)). simpl in D1.
    assert (E : set_leaf rho x v x = v) by (unfold set_leaf; rewrite Nat.eqb_refl; reflexivity).
    rewrite E in D1. apply is_derive_Reals. eapply is_derive_ext; [|apply is_derive_Reals, D1].
    + intros u. cbv beta. rewrite Rplus_0_r. rewrite !val_sv. unfold sv. erewrite values_ext; [reflexivity|].
      intros i. unfold set_leaf. destruct (i =? x)%nat; reflexivity.
    + intros z [<-|[]]. apply Hs. auto.
  - specialize (D2 rho). simpl in D2. apply is_derive_Reals. eapply is_derive_ext; [|apply is_derive_Reals, D2].
    + intros u. cbv beta. apply Rplus_0_r.
    + intros z [<-|[]]. auto.
Qed.
Print Assumptions C12_second_derivative.

(** Running an evaluation on the extended graph returns the derivative. *)
Theorem C12_evaluated_gradient :
  forall (pop : sgraph -> list nat -> option (nat * list nat)) (debug : bool) (fuel fuel2 : nat)
    (ys : list nat) (x t : nat) (b : bool) (g g' : sgraph) (log : list nat)
    (feeds : list (ph_key * sval)) (env : list sval) (rho : nat -> R) (oc : @outcome sval unit),
  swf g -> (forall g, heap_pop g (pop g)) ->
  (forall y, In y ys -> numeric g y) -> input_leaf g x ->
  s_grad pop debug fuel ys [x] g = Ok ([(t, b)], g', log) ->
  (forall y, In y ys -> smooth g rho x y) ->
  leaf_values g' feeds env rho ->
  eval sval_shape scalar_compute debug g' feeds fuel2 [t] env = Ok oc ->
  exists d, oc_results oc = [inl (Num d)] /\
    derivable_pt_lim (fun v => fold_right Rplus 0 (map (val (set_leaf rho x v) g) ys)) (rho x) d.
Proof.
  intros pop debug fuel fuel2 ys x t b g g' log feeds env rho oc W Hp Hy Hx H Hs HL He.
  apply grad_derivative in H; auto.
  2: { constructor; [intros []|constructor]. }
  2: { intros z [<-|[]]; auto. }
  destruct H as (W1 & G1 & F1). inversion F1 as [|? ? ? ? [N1 D1] _]; subst. simpl in N1, D1.
  exists (val rho g' t). split; auto.
  destruct (swf_graph g' W1) as [Wg Ac].
  apply eval_only_values in He; auto.
  - destruct He as (HF & _). inversion HF as [|? r ? l Hr Hl]; subst. inversion Hl; subst. f_equal.
    eapply tensor_value_fun; [exact Hr|]. apply scalar_tensor_value; auto.
  - intros z [<-|[]]. apply numeric_lt. auto.
  - intros i n p vid _ Hn (inc & m & Hi & Hm & _).
    rewrite (swf_mut g' W1 i n inc Hn (nth_error_In _ _ Hi)) in Hm. discriminate.
Qed.
Print Assumptions C12_evaluated_gradient.

(** Evaluation of any number tensor returns the value assigned to it here. *)
Theorem C12_values_are_evaluated :
  forall (debug : bool) (g : sgraph) (feeds : list (ph_key * sval)) (env : list sval) (rho : nat -> R) (i : nat),
  swf g -> leaf_values g feeds env rho -> numeric g i ->
  tensor_value sval_shape scalar_compute debug g feeds env i (inl (Num (val rho g i))).
Proof.
  intros. apply scalar_tensor_value; auto.
Qed.
Print Assumptions C12_values_are_evaluated.

(** y = x * sin x + exp x: the gradient tensor exists, its value is the
    derivative, and the operations are differentiable everywhere. *)
Example C12_hypotheses_met :
  swf ex_graph /\ (forall g : sgraph, heap_pop g (max_pop g)) /\ numeric ex_graph ex_y /\ input_leaf ex_graph 0 /\
  (exists log, s_grad (@max_pop sop) true ex_fuel [ex_y] [0%nat] ex_graph
               = Ok ([(grad_tensor ex_result, true)], grad_graph ex_result, log)) /\
  (forall rho, smooth ex_graph rho 0 ex_y) /\
  (forall rho, leaf_values (grad_graph ex_result) [] [Num (rho 0%nat)] rho) /\
  (forall rho, val rho ex_graph ex_y = rho 0%nat * sin (rho 0%nat) + exp (rho 0%nat) /\
               val rho (grad_graph ex_result) (grad_tensor ex_result)
               = exp (rho 0%nat) + (sin (rho 0%nat) + rho 0%nat * cos (rho 0%nat))).
Proof.
  split; [exact ex_swf|]. split; [apply max_pop_ok|]. split; [reflexivity|]. split.
  { exists (var_node 0). repeat split. }
  split; [exact ex_ok|]. split; [intros; apply ex_smooth|]. split.
  - intros rho. apply ex_leaves.
  - intros rho. split; [apply ex_value|apply ex_grad_value].
Qed.

(** ** C20: elementwise rules *)

(** One argument: the tensor the rule builds has the value of the incoming
    gradient times the derivative (no tensor: the derivative is 0). *)
Theorem C20_unary_rules :
  forall (g s s' : sgraph) (y x gy : nat) (n : node sop) (u : uop) (gxs : list (option nat)) (rho : nat -> R),
  swf g -> nth_error g y = Some n -> n_op n = OUn u -> map in_id (n_inputs n) = [x] ->
  swf s -> (exists new, s = g ++ new) -> numeric s gy ->
  s_opgrad g y gy s = Some (gxs, s') -> un_dom u (val rho g x) ->
  exists d, derivable_pt_lim (un u) (val rho g x) d /\
    match gxs with
    | [Some t] => numeric s' t /\ val rho s' t = val rho s gy * d
    | [None] => d = 0
    | _ => False
    end.
Proof.
  intros g s s' y x gy n u gxs rho W Hn Ho Hi Ws G Hgy H Hdom.
  pose proof (opgrad_ok _ _ _ _ _ _ _ _ _ _ _ (s_denotes g W rho) y gy s gxs s' (conj Ws G) Hgy H) as (_ & _ & P).
  assert (Hlen : length gxs = 1%nat).
  { unfold s_opgrad in H. rewrite Hn, Ho, Hi in H. cbn [rule build_rules] in H.
    destruct (un_rule u) as [e|].
    - bindH H. simpl in H. inv H. reflexivity.
    - simpl in H. inv H. reflexivity. }
  assert (Hval : val rho g y = un u (val rho g x)).
  { destruct (swf_typed g W y n Hn) as (ty & Hty).
    destruct (typed_inputs g y n ty Hn Hty) as [[Eo _]|(Ho' & ts & HT & Hop)]; [congruence|].
    pose proof (sv_eq rho g y n ts ty Hn Ho' HT Hty) as E. rewrite !val_sv. rewrite Ho in E.
    destruct (n_inputs n) as [|inc [|? ?]]; try discriminate. simpl in Hi. inv Hi. simpl in E.
    destruct (sv rho g (in_id inc)); try discriminate. inv E. reflexivity. }
  destruct (un_rule_correct u (val rho g x) Hdom) as (d & D & V).
  exists d. split; [apply is_derive_Reals; exact D|].
  specialize (P 0%nat). destruct P as [P1 P2].
  assert (Hv : forall m, s_vjp g rho y 0 m = m * d \/ un_rule u = None).
  { intros m. unfold s_vjp. rewrite Hn, Ho. destruct (n_inputs n) as [|inc [|? ?]]; try discriminate. simpl in Hi. inv Hi.
    unfold op_vjp. cbn [map length rule nth_error]. specialize (V m). unfold rule_value in V.
    destruct (un_rule u) as [e|]; [left|right; auto]. rewrite Hval. exact V. }
  destruct gxs as [|[t|] [|? ?]]; try discriminate.
  - destruct (P2 t eq_refl) as [A B]. split.
    { destruct (n_inputs n) as [|inc [|? ?]] eqn:Hin; try discriminate. apply (A (in_id inc)). exists n, inc.
      rewrite (s_backprop g W n y Hn), Hin. auto. }
    rewrite B. destruct (Hv (val rho s gy)) as [E|E]; auto.
    exfalso. destruct (proj2 P1 (ex_intro _ t eq_refl)) as (n' & rs & e & Hn' & Hr & He).
    assert (n' = n) by congruence. subst n'. rewrite Ho in Hr. cbn [rule] in Hr. inv Hr. simpl in He. congruence.
  - specialize (V 1). unfold rule_value in V. destruct (un_rule u) as [e|] eqn:Eu; [|lra].
    exfalso. destruct (proj1 P1) as (t & Ht); [|discriminate].
    exists n, [Some e], e. split; auto. split; [|reflexivity]. rewrite Ho. cbn [rule]. rewrite Eu. reflexivity.
Qed.
Print Assumptions C20_unary_rules.

(** Two arguments: both partial derivatives.  (Comparisons propagate nothing;
    where they are differentiable their derivatives are 0.) *)
Theorem C20_binary_rules :
  forall (g s s' : sgraph) (y x1 x2 gy : nat) (n : node sop) (b : bop) (gxs : list (option nat)) (rho : nat -> R),
  swf g -> nth_error g y = Some n -> n_op n = OBin b -> map in_id (n_inputs n) = [x1; x2] ->
  swf s -> (exists new, s = g ++ new) -> numeric s gy ->
  s_opgrad g y gy s = Some (gxs, s') -> bin_dom b (val rho g x1) (val rho g x2) ->
  exists d1 d2,
    derivable_pt_lim (fun t => bin b t (val rho g x2)) (val rho g x1) d1 /\
    derivable_pt_lim (fun t => bin b (val rho g x1) t) (val rho g x2) d2 /\
    forall p d, nth_error [d1; d2] p = Some d ->
      match nth_error gxs p with
      | Some (Some t) => numeric s' t /\ val rho s' t = val rho s gy * d
      | _ => d = 0
      end.
Proof.
  intros g s s' y x1 x2 gy n b gxs rho W Hn Ho Hi Ws G Hgy H Hdom.
  pose proof (opgrad_ok _ _ _ _ _ _ _ _ _ _ _ (s_denotes g W rho) y gy s gxs s' (conj Ws G) Hgy H) as (_ & _ & P).
  assert (Hval : val rho g y = bin b (val rho g x1) (val rho g x2)).
  { destruct (swf_typed g W y n Hn) as (ty & Hty).
    destruct (typed_inputs g y n ty Hn Hty) as [[Eo _]|(Ho' & ts & HT & Hop)]; [congruence|].
    pose proof (sv_eq rho g y n ts ty Hn Ho' HT Hty) as E. rewrite !val_sv. rewrite Ho in E.
    destruct (n_inputs n) as [|inc [|inc2 [|? ?]]]; try discriminate. simpl in Hi. inv Hi. simpl in E.
    destruct (sv rho g (in_id inc)); try discriminate. destruct (sv rho g (in_id inc2)); try discriminate.
    inv E. reflexivity. }
  set (a := val rho g x1) in *. set (c := val rho g x2) in *.
  pose proof (bin_rule_correct b (fun t => t) (fun _ => c) a 1 0 (is_derive_id a) (is_derive_const c a) Hdom) as D1.
  pose proof (bin_rule_correct b (fun _ => a) (fun t => t) c 0 1 (is_derive_const a c) (is_derive_id c) Hdom) as D2.
  exists (s_vjp g rho y 0 1), (s_vjp g rho y 1 1).
  assert (Hv : forall p, s_vjp g rho y p 1 = op_vjp (OBin b) [a; c] (bin b a c) p 1).
  { intros p. unfold s_vjp. rewrite Hn, Ho, Hval. f_equal.
    destruct (n_inputs n) as [|inc [|inc2 [|? ?]]]; try discriminate. simpl in Hi. inv Hi. reflexivity. }
  split; [|split].
  - apply is_derive_Reals. evar_last; [exact D1|]. rewrite Hv. cbv beta. rring.
  - apply is_derive_Reals. evar_last; [exact D2|]. rewrite Hv. cbv beta. rring.
  - intros p d Hd.
    assert (Hdp : d = s_vjp g rho y p 1).
    { destruct p as [|[|p]]; simpl in Hd; [inv Hd; auto|inv Hd; auto|destruct p; discriminate]. }
    specialize (P p). destruct P as [P1 P2].
    destruct (nth_error gxs p) as [[t|]|] eqn:Et.
    + destruct (P2 t eq_refl) as [A B]. split; [|rewrite B, s_vjp_linear, Hdp; ring].
      destruct (n_inputs n) as [|inc [|inc2 [|? ?]]] eqn:Hin; try discriminate.
      destruct p as [|[|p]]; [apply (A (in_id inc)); exists n, inc|apply (A (in_id inc2)); exists n, inc2|destruct p; discriminate];
        rewrite (s_backprop g W n y Hn), Hin; auto.
    + rewrite Hdp. unfold s_vjp, op_vjp. rewrite Hn, map_length.
      destruct (rule (n_op n) (length (n_inputs n))) as [rs|] eqn:Er; auto.
      destruct (nth_error rs p) as [[e|]|] eqn:Ep; auto. exfalso.
      destruct (proj1 P1) as (t & Ht); [exists n, rs, e; auto|discriminate].
    + rewrite Hdp. unfold s_vjp, op_vjp. rewrite Hn, map_length.
      destruct (rule (n_op n) (length (n_inputs n))) as [rs|] eqn:Er; auto.
      destruct (nth_error rs p) as [[e|]|] eqn:Ep; auto. exfalso.
      destruct (proj1 P1) as (t & Ht); [exists n, rs, e; auto|discriminate].
Qed.
Print Assumptions C20_binary_rules.

(** The forward functions that are not primitive are the intended ones. *)
Theorem C20_forward_functions :
  (forall x, un Sigmoid x = / (1 + exp (- x))) /\
  (forall x, 1 <= x -> cosh (un Acosh x) = x /\ 0 <= un Acosh x) /\
  (forall x, -1 < x < 1 -> tanh (un Atanh x) = x) /\
  (forall x, sinh (un Asinh x) = x) /\
  (forall x n, un (Pow (INR n)) x = x ^ n) /\
  (forall x a, 0 < x -> un (Pow a) x = Rpower x a) /\
  (forall x, exp (un Softplus x) = 1 + exp x).
Proof.
  exact forward_functions.
Qed.
Print Assumptions C20_forward_functions.

(** At ties the rule of [maximum] passes the full gradient to both sides:
    the gradient of max(x, x) is 2, not the derivative 1. *)
Theorem C20_maximum_tie_refuted :
  exists (g g' : sgraph) (x y t : nat) (log : list nat),
    swf g /\ input_leaf g x /\
    s_grad (@max_pop sop) true ex_fuel [y] [x] g = Ok ([(t, true)], g', log) /\
    forall rho, derivable_pt_lim (fun v => val (set_leaf rho x v) g y) (rho x) 1 /\ val rho g' t = 2.
Proof.
  exists tie_graph, (grad_graph tie_result), 0%nat, 1%nat, (grad_tensor tie_result).
  destruct tie_ok as (log & E). exists log.
  split; [exact tie_swf|]. split; [exists (var_node 0); repeat split|].
  split; [exact E|]. intros rho. split; [|apply tie_grad_value].
  apply is_derive_Reals. apply is_derive_ext with (f := fun v => v); [|apply @is_derive_id].
  intros v. cbv - [Rmax]. unfold Rmax. destruct (Rle_dec v v); reflexivity.
Qed.
Print Assumptions C20_maximum_tie_refuted.

(** Node 2 of [ex_graph] is sin x and node 5 is x * sin x; the incoming
    gradient is node 7, exp x. *)
Definition after (r : option (list (option nat) * sgraph)) : sgraph := match r with Some (_, g) => g | None => [] end.
Example C20_hypotheses_met :
  swf ex_graph /\ numeric ex_graph 7 /\
  (exists n, nth_error ex_graph 2 = Some n /\ n_op n = OUn Sin /\ map in_id (n_inputs n) = [0%nat]) /\
  (exists n, nth_error ex_graph 5 = Some n /\ n_op n = OBin Mul /\ map in_id (n_inputs n) = [0%nat; 2%nat]) /\
  option_map fst (s_opgrad ex_graph 2 7 ex_graph) = Some [Some 13%nat] /\
  option_map fst (s_opgrad ex_graph 5 7 ex_graph) = Some [Some 13%nat; Some 17%nat] /\
  (forall rho, un_dom Sin (val rho ex_graph 0) /\ bin_dom Mul (val rho ex_graph 0) (val rho ex_graph 2)) /\
  (forall rho, val rho (after (s_opgrad ex_graph 2 7 ex_graph)) 13 = exp (rho 0%nat) * cos (rho 0%nat)).
Proof.
  split; [exact ex_swf|]. split; [reflexivity|].
  split; [eexists; repeat split; reflexivity|]. split; [eexists; repeat split; reflexivity|].
  split; [vm_compute; reflexivity|]. split; [vm_compute; reflexivity|].
  split; [intros rho; split; exact I|].
  intros rho. cbv - [Rplus Rmult sin cos exp IZR]. ring.
Qed.

(** C16: the graph after [grad] is the old one followed by new tensors. *)
Example C16_hypotheses_met :
  (exists log, s_grad (@max_pop sop) true ex_fuel [ex_y] [0%nat] ex_graph
               = Ok ([(grad_tensor ex_result, true)], grad_graph ex_result, log)) /\
  (exists new, grad_graph ex_result = ex_graph ++ new /\ new <> []).
Proof.
  split; [exact ex_ok|]. destruct ex_ok as (log & E).
  destruct (grad_derivative (@max_pop sop) true ex_fuel [ex_y] [0%nat] ex_graph
    [(grad_tensor ex_result, true)] (grad_graph ex_result) log) as (_ & (new & H) & _);
    [exact ex_swf|apply max_pop_ok| | | |exact E|].
  { intros y [<-|[]]. reflexivity. }
  { constructor; [intros []|constructor]. }
  { intros x [<-|[]]. exists (var_node 0). repeat split. }
  exists new. split; auto.
  intros ->. rewrite app_nil_r in H. apply (f_equal (@length _)) in H. vm_compute in H. discriminate.
Qed.
