(** C73: [grad_helper], gradients with respect to the variables of a namespace. *)
From Coq Require Import String List Arith ZArith Bool Reals Lra Lia.
From Coquelicot Require Import Coquelicot.
Import ListNotations.
From Verif Require Import Graph_Model Eval_Model Eval_Spec Eval_Proofs Graph_Proofs Grad_Model Grad_Spec Grad_Examples
  Scalar_Model Scalar_Spec Var_Model Helper_Model Helper_Proofs.
From Verif Require Import Array_Model Array_Proofs Vjp_Spec Tens_Model Tens_Spec Tens_Lax Tens_Examples Helper_Tens.
Local Open Scope R_scope.
Local Set Bullet Behavior "Strict Subproofs".

(** The result is that of [grad] on exactly those variables of the namespace that some
    differentiable path leads to from a loss, in the order of the namespace; the graph
    after the call and the rules called are those of that [grad]. *)
Theorem C73_is_grad_of_reached_variables :
  forall (A O : Type) (var_op : O) (sum_alls : list nat -> graph O -> option (list nat * graph O))
    (opgrad : graph O -> nat -> nat -> graph O -> option (list (option nat) * graph O))
    (addn : list nat -> graph O -> option (nat * graph O)) (one : graph O -> option (nat * graph O))
    (zeros_like : nat -> graph O -> option (nat * graph O))
    (pop : graph O -> list nat -> option (nat * list nat)) (debug : bool) (fuel : nat)
    (losses ys : list nat) (e : env A) (ns : string) (c c2 : context O) (g1 : graph O) (tensors : list (string * nat)),
  losses <> [] -> ys <> [] -> sum_alls losses (c_graph c) = Some (ys, g1) ->
  var_tensors_by_name var_op e (Context g1 (c_vars c)) ns = Some (c2, tensors) ->
  ranked (c_graph c2) -> (forall y, In y ys -> differentiable (c_graph c2) y) ->
  forall vs ts g' log,
  grad_helper var_op sum_alls opgrad addn one pop debug fuel losses e ns c = Ok (vs, ts, Context g' (c_vars c2), log) <->
  chosen (reached (c_graph c2) ys) (map snd tensors) vs /\
  grad_with_default (c_graph c2) (opgrad (c_graph c2)) addn one zeros_like (pop (c_graph c2)) debug fuel ys vs None (c_graph c2)
    = Ok (map (fun t => (t, true)) ts, g', log).
Proof.
  intros A O var_op sum_alls opgrad addn one zeros_like pop debug fuel losses ys e ns c c2 g1 tensors Hl Hy Hs Hv Hr Hd vs ts g' log.
  rewrite <- (diff_vars_grad (c_graph c2) (opgrad (c_graph c2)) addn one zeros_like (pop (c_graph c2)) debug fuel ys
                (map snd tensors) (c_graph c2) vs ts g' log Hy Hr Hd).
  unfold grad_helper. destruct losses as [|y0 losses]; [congruence|]. rewrite Hs, Hv.
  destruct (diff_vars _ _ _ _ _ _ _ _ _ _) as [[[[vs0 ts0] g0] log0]| |]; split; intros H; try discriminate; injection H as -> -> -> ->; reflexivity.
Qed.
Print Assumptions C73_is_grad_of_reached_variables.

(** On array graphs: every variable of the namespace has a tensor afterwards; those that
    some loss depends on through differentiable tensors are returned, in order, each with
    the gradient of the sum of all elements of the losses. *)
Theorem C73_gradients :
  forall (A : Type) (pop : tgraph -> list nat -> option (nat * list nat)) (debug : bool) (fuel : nat)
    (ls : nat -> list nat) (losses : list nat) (e : env A) (ns : string) (c c' : context top) (vs ts log : list nat),
  twf ls (c_graph c) -> var_leaves c -> (forall g, heap_pop g (pop g)) ->
  (forall y, In y losses -> fits ls (c_graph c) y /\ exists sh, shaped ls (c_graph c) y sh) ->
  NoDup (current_var_ids e ns) ->
  t_grad_helper pop debug fuel losses e ns c = Ok (vs, ts, c', log) ->
  twf ls (c_graph c') /\ (exists new, c_graph c' = c_graph c ++ new) /\ var_leaves c' /\
  (exists tensors, Forall2 (fun vid t => find_var vid (c_vars c') = Some t) (current_var_ids e ns) tensors /\
     chosen (matters (c_graph c) losses) tensors vs) /\
  Forall2 (fun x t => shaped ls (c_graph c') t (ls x) /\
     forall rho v, conform ls rho -> has_shape (ls x) v -> (forall y, In y losses -> t_smooth ls (c_graph c) rho x y) ->
       derivable_pt_lim
         (fun t => fold_right Rplus 0 (map (fun y => elements_sum (aval (put rho x (step (rho x) v t)) (c_graph c) y)) losses))
         0 (dot (aval rho (c_graph c') t) v))
    vs ts.
Proof.
  intros A pop debug fuel ls losses e ns c c' vs ts log W V Hp Hl Hn H.
  destruct (grad_helper_x false pop debug fuel ls losses e ns c c' vs ts log (conj W (fun E => False_ind _ (diff_false_true E))) V Hp Hl Hn H)
    as ((W' & _) & G & V' & T & F).
  split; [exact W'|]. split; [exact G|]. split; [exact V'|]. split; [exact T|exact F].
Qed.
Print Assumptions C73_gradients.

(** The same where rows of tables are looked up with [gather]. *)
Theorem C73_gradients_with_lookups :
  forall (A : Type) (pop : tgraph -> list nat -> option (nat * list nat)) (debug : bool) (fuel : nat)
    (ls : nat -> list nat) (losses : list nat) (e : env A) (ns : string) (c c' : context top) (vs ts log : list nat),
  twf ls (c_graph c) -> attached (c_graph c) -> var_leaves c -> (forall g, heap_pop g (pop g)) ->
  (forall y, In y losses -> uses ls (c_graph c) y /\ exists sh, shaped ls (c_graph c) y sh) ->
  NoDup (current_var_ids e ns) ->
  t_grad_helper pop debug fuel losses e ns c = Ok (vs, ts, c', log) ->
  (exists tensors, Forall2 (fun vid t => find_var vid (c_vars c') = Some t) (current_var_ids e ns) tensors /\
     chosen (matters (c_graph c) losses) tensors vs) /\
  Forall2 (fun x t => sized ls (c_graph c') t (ls x) /\
     forall rho v, conform ls rho -> has_shape (ls x) v -> (forall y, In y losses -> t_smooth ls (c_graph c) rho x y) ->
       derivable_pt_lim
         (fun t => fold_right Rplus 0 (map (fun y => elements_sum (aval (put rho x (step (rho x) v t)) (c_graph c) y)) losses))
         0 (dot (aval rho (c_graph c') t) v))
    vs ts.
Proof.
  intros A pop debug fuel ls losses e ns c c' vs ts log W At V Hp Hl Hn H.
  destruct (grad_helper_x true pop debug fuel ls losses e ns c c' vs ts log (conj W (fun _ => At)) V Hp Hl Hn H) as (_ & _ & _ & T & F).
  split; [exact T|exact F].
Qed.
Print Assumptions C73_gradients_with_lookups.

(** Without a loss the call panics, whatever the namespace holds. *)
Theorem C73_needs_a_loss :
  forall (A : Type) (pop : tgraph -> list nat -> option (nat * list nat)) (debug : bool) (fuel : nat)
    (e : env A) (ns : string) (c : context top),
  t_grad_helper pop debug fuel [] e ns c = Panic.
Proof. reflexivity. Qed.
Print Assumptions C73_needs_a_loss.

(** A network of which two variables are in the default namespace, with a third that
    the loss does not use; another one is in another namespace. *)
Definition helper_env : env nat :=
  Env [0; 0; 0; 0]%nat [(("", "w"), 1); (("data", "x"), 0); (("", "unused"), 3); (("", "b"), 2)]%nat%string.
Definition helper_ctx : context top := Context net_graph [(0, 0); (1, 1); (2, 2)]%nat.
Definition helper_result := t_grad_helper (@max_pop top) true 200 [net_y] helper_env "" helper_ctx.
Example C73_hypotheses_met :
  twf net_ls (c_graph helper_ctx) /\ var_leaves helper_ctx /\ (forall g : tgraph, heap_pop g (max_pop g)) /\
  fits net_ls (c_graph helper_ctx) net_y /\ shaped net_ls (c_graph helper_ctx) net_y [2%nat] /\
  current_var_ids helper_env "" = [1; 3; 2]%nat /\
  match helper_result with
  | Ok (vs, ts, c', log) => vs = [1; 2]%nat /\ length ts = 2%nat /\ find_var 3 (c_vars c') = Some (S (length net_graph))
  | _ => False
  end /\ (forall rho x, t_smooth net_ls net_graph rho x net_y).
Proof.
  split; [exact net_twf|]. split.
  { intros vid t H. unfold helper_ctx in *. cbn [c_vars c_graph] in *.
    destruct vid as [|[|[|vid]]]; try discriminate; injection H as <-; eexists; (split; [vm_compute; reflexivity|repeat split; reflexivity]). }
  split; [intros; apply max_pop_ok|]. split; [exact net_fits|]. split; [exact net_shaped|]. split; [reflexivity|].
  split; [vm_compute; repeat split; reflexivity|exact net_smooth].
Qed.
