(** Property C54: gradients of array graphs. *)
From Coq Require Import String List Arith ZArith Bool Reals Lra Lia Relations.
From Coquelicot Require Import Coquelicot.
Import ListNotations.
From Verif Require Import Graph_Model Eval_Model Eval_Spec Eval_Proofs Eval_Proofs2 Graph_Proofs Grad_Model Grad_Spec
  Grad_Examples Scalar_Model Scalar_Spec Scalar_Proofs P_Eval.
From Verif Require Import Array_Model Array_Proofs Arith_Final Vjp_Spec Vjp_Proofs Tens_Model Tens_Spec Tens_Build Tens_Final Tens_Rules Tens_Examples.
Local Open Scope R_scope.
Local Set Bullet Behavior "Strict Subproofs".

(** ** C54: gradients of array graphs are vector-Jacobian products *)

(** Public [grad]: moving the leaf [x] in any direction [v] changes the sum of
    all elements of the outputs at the rate [dot (gradient of x) v]. *)
Theorem C54_grad_is_vjp :
  forall (pop : tgraph -> list nat -> option (nat * list nat)) (debug : bool) (fuel : nat)
    (ls : nat -> list nat) (ys xs : list nat) (g g' : tgraph) (l : list (nat * bool)) (log : list nat),
  twf ls g -> (forall g, heap_pop g (pop g)) ->
  (forall y, In y ys -> fits ls g y /\ exists sh, shaped ls g y sh) ->
  NoDup xs -> (forall x, In x xs -> t_input_leaf g x) ->
  t_grad pop debug fuel ys xs g = Ok (l, g', log) ->
  twf ls g' /\ (exists new, g' = g ++ new) /\
  Forall2 (fun x r => shaped ls g' (fst r) (ls x) /\
     forall rho v, conform ls rho -> has_shape (ls x) v -> (forall y, In y ys -> t_smooth ls g rho x y) ->
       derivable_pt_lim
         (fun t => fold_right Rplus 0 (map (fun y => elements_sum (aval (put rho x (step (rho x) v t)) g y)) ys))
         0 (dot (aval rho g' (fst r)) v))
    xs l.
Proof.
  intros pop debug fuel ls ys xs g g' l log W Hp Hy Nx Hx H.
  exact (tgrad_derivative pop debug fuel ys xs ls g l g' log W Hp Hy Nx Hx H).
Qed.
Print Assumptions C54_grad_is_vjp.

(** [grad_with_default]: every output is weighted by the gradient given for it. *)
Theorem C54_grad_with_default_is_vjp :
  forall (pop : tgraph -> list nat -> option (nat * list nat)) (debug : bool) (fuel : nat)
    (ls : nat -> list nat) (ys xs gys : list nat) (g g' : tgraph) (l : list (nat * bool)) (log : list nat),
  twf ls g -> heap_pop g (pop g) ->
  NoDup ys -> (forall y, In y ys -> differentiable g y /\ fits ls g y) ->
  NoDup xs -> (forall x, In x xs -> t_input_leaf g x /\ ~ In x ys) ->
  Forall2 (fun y gy => exists sh, shaped ls g y sh /\ shaped ls g gy sh) ys gys ->
  t_grad_with_default pop debug fuel ys xs (Some gys) g = Ok (l, g', log) ->
  twf ls g' /\ (exists new, g' = g ++ new) /\
  Forall2 (fun x r => shaped ls g' (fst r) (ls x) /\
     forall rho v, conform ls rho -> has_shape (ls x) v -> (forall y, In y ys -> t_smooth ls g rho x y) ->
       derivable_pt_lim
         (fun t => fold_right Rplus 0
            (map (fun '(gy, y) => dot (aval rho g gy) (aval (put rho x (step (rho x) v t)) g y)) (combine gys ys)))
         0 (dot (aval rho g' (fst r)) v))
    xs l.
Proof.
  intros pop debug fuel ls ys xs gys g g' l log W Hp Ny Hy Nx Hx Hg H.
  destruct (tgrad_with_default pop debug fuel ys xs (Some gys) ls g l g' log W Hp Ny Hy Nx Hx Hg H) as (A & B & D).
  split; auto. split; auto. eapply Forall2_imp; [|exact D]. intros x r [E F]. split; auto. intros rho v C Hv Hs.
  specialize (F rho v C Hv Hs). apply is_derive_Reals in F. apply is_derive_Reals.
  eapply is_derive_fext; [|exact F]. intros t. cbv beta. unfold seed_arrays. f_equal.
  clear. revert ys. induction gys as [|gy gys IH]; intros [|y ys]; simpl; try reflexivity. f_equal. apply IH.
Qed.
Print Assumptions C54_grad_with_default_is_vjp.

(** Running an evaluation on the extended graph returns that array, in the
    shape of [x]. *)
Theorem C54_evaluated_gradient :
  forall (pop : tgraph -> list nat -> option (nat * list nat)) (debug : bool) (fuel fuel2 : nat)
    (ls : nat -> list nat) (ys : list nat) (x t : nat) (b : bool) (g g' : tgraph) (log : list nat)
    (feeds : list (ph_key * tv)) (env : list tv) (rho : nat -> arr R) (oc : @outcome tv unit),
  twf ls g -> (forall g, heap_pop g (pop g)) ->
  (forall y, In y ys -> fits ls g y /\ exists sh, shaped ls g y sh) -> t_input_leaf g x ->
  t_grad pop debug fuel ys [x] g = Ok ([(t, b)], g', log) ->
  (forall y, In y ys -> t_smooth ls g rho x y) ->
  conform ls rho -> t_leaf_values g' feeds env rho ->
  eval tv_shape tens_compute debug g' feeds fuel2 [t] env = Ok oc ->
  exists gx, oc_results oc = [inl (TA gx)] /\ has_shape (ls x) gx /\
    forall v, has_shape (ls x) v ->
      derivable_pt_lim
        (fun t => fold_right Rplus 0 (map (fun y => elements_sum (aval (put rho x (step (rho x) v t)) g y)) ys))
        0 (dot gx v).
Proof.
  intros pop debug fuel fuel2 ls ys x t b g g' log feeds env rho oc W Hp Hy Hx H Hs C HL He.
  apply (tgrad_derivative pop debug fuel ys [x] ls) in H; auto.
  2: { constructor; [intros []|constructor]. }
  2: { intros z [<-|[]]; auto. }
  destruct H as (W1 & G1 & F1). inversion F1 as [|? ? ? ? [N1 D1] _]; subst. simpl in N1, D1.
  exists (aval rho g' t). split; [|split].
  - destruct (twf_graph ls g' W1) as [Wg Ac]. apply eval_only_values in He; auto.
    + destruct He as (HF & _). inversion HF as [|? r ? l Hr Hl]; subst. inversion Hl; subst. f_equal.
      eapply tensor_value_fun; [exact Hr|]. apply (tens_tensor_value ls g' W1 debug feeds env rho C HL t (ls x) N1).
    + intros z [<-|[]]. eapply typed_lt; exact N1.
    + intros i n p vid _ Hn (inc & m & Hi & Hm & _).
      rewrite (twf_mut ls g' W1 i n inc Hn (nth_error_In _ _ Hi)) in Hm. discriminate.
  - apply (typed_aval ls rho g' t (ls x) C N1).
  - intros v Hv. apply D1; auto.
Qed.
Print Assumptions C54_evaluated_gradient.

(** Evaluation of any array tensor returns the value assigned to it here, and
    the shape is the one derived from the shapes of the leaves. *)
Theorem C54_values_are_evaluated :
  forall (debug : bool) (ls : nat -> list nat) (g : tgraph) (feeds : list (ph_key * tv)) (env : list tv)
    (rho : nat -> arr R) (i : nat) (sh : list nat),
  twf ls g -> conform ls rho -> t_leaf_values g feeds env rho -> shaped ls g i sh ->
  tensor_value tv_shape tens_compute debug g feeds env i (inl (TA (aval rho g i))) /\ has_shape sh (aval rho g i).
Proof.
  intros debug ls g feeds env rho i sh W C HL Hs. split.
  - exact (tens_tensor_value ls g W debug feeds env rho C HL i sh Hs).
  - apply (typed_aval ls rho g i sh C Hs).
Qed.
Print Assumptions C54_values_are_evaluated.

(** A layer [sum over the columns of sigmoid(x w + b)^2]: gradients with respect
    to the weights and the bias.  Second conjunct group: the sum of the elements
    of [A b] has the gradient [e f e f] with respect to [A] when [b] is [e f]. *)
Example C54_hypotheses_met :
  twf net_ls net_graph /\ (forall g : tgraph, heap_pop g (max_pop g)) /\
  fits net_ls net_graph net_y /\ shaped net_ls net_graph net_y [2%nat] /\
  t_input_leaf net_graph 1 /\ t_input_leaf net_graph 2 /\
  (exists log, t_grad (@max_pop top) true 200 [net_y] [1%nat; 2%nat] net_graph
               = Ok (res_tensors net_result, res_graph net_result, log)) /\
  (forall rho x, t_smooth net_ls net_graph rho x net_y) /\
  (forall rho, t_leaf_values (res_graph net_result) [] (map (fun i => TA (rho i)) (seq 0 3)) rho) /\
  (forall (rho : nat -> arr R) a b c d e f,
     rho 0%nat = Arr [2%nat; 2%nat] [a; b; c; d] -> rho 1%nat = Arr [2%nat; 1%nat] [e; f] ->
     exists t, res_tensors prod_result = [(t, true)] /\
       aval rho prod_graph 2 = Arr [2%nat; 1%nat] [a * e + b * f; c * e + d * f] /\
       aval rho (res_graph prod_result) t = Arr [2%nat; 2%nat] [e; f; e; f]).
Proof.
  split; [exact net_twf|]. split; [intros; apply max_pop_ok|]. split; [exact net_fits|]. split; [exact net_shaped|].
  split; [eexists; repeat split; reflexivity|]. split; [eexists; repeat split; reflexivity|].
  split; [exact net_ok|]. split; [exact net_smooth|]. split; [exact net_leaves|]. exact prod_gradient.
Qed.
