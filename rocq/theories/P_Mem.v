(** Property C60: views and the lifetime of results. *)
From Coq Require Import String List Arith ZArith Bool Lia.
Import ListNotations.
From Verif Require Import Graph_Model Eval_Model Eval_Spec Mem_Model Mem_Spec Mem_Proofs.

(** ** C60: results that are views never change, and dangle only behind hidden outputs *)

(** The traversal never reads released memory and never lets a stored result
    see a later write to a variable: step by step it is the evaluator that copies
    every result. *)
Theorem C60_traversal_safe :
  forall (O V E : Type) (shape_of : V -> list nat) (mcompute : O -> list (opin V) -> mout V E)
    (debug : bool) (g : graph O) (feeds : list (ph_key * V)) (fuel : nat) (targets : list nat) (env : list V),
  mloop shape_of mcompute debug g feeds fuel (minit targets env) <> Dangling /\
  (forall ms, mloop shape_of mcompute debug g feeds fuel (minit targets env) = Done ms ->
     exists st, loop shape_of (copying mcompute) debug g feeds fuel (init_state targets env) = Ok st /\
       ms_env ms = st_env st /\ ms_log ms = st_log st /\
       forall t os, ms_store ms t = Some (inl os) ->
         exists vs, st_store st t = Some (inl vs) /\ Forall2 (fun o v => read_out (ms_mem ms) o = Some v) os vs).
Proof.
  intros O V E shape_of mcompute debug g feeds fuel targets env.
  pose proof (sim_loop shape_of mcompute debug g feeds fuel _ _ (sim_init targets env)) as S.
  destruct (loop shape_of (copying mcompute) debug g feeds fuel (init_state targets env)) as [st| |].
  - destruct S as (ms & -> & [_ Hs He Hl _]). split; [discriminate|]. intros ms' Q. injection Q as <-. exists st.
    split; [reflexivity|]. split; [exact He|]. split; [exact Hl|]. intros t os Ht. specialize (Hs t). rewrite Ht in Hs.
    destruct (st_store st t) as [[vs|e]|]; try contradiction. exists vs. split; [reflexivity|exact Hs].
  - rewrite S. split; [|intros ?]; discriminate.
  - rewrite S. split; [|intros ?]; discriminate.
Qed.
Print Assumptions C60_traversal_safe.

(** If every requested tensor except perhaps the last one comes from an
    operation with a single output, the evaluation returns what copying every
    result would return; in particular it never reads released memory. *)
Theorem C60_as_if_copied :
  forall (O V E : Type) (shape_of : V -> list nat) (mcompute : O -> list (opin V) -> mout V E)
    (debug : bool) (g : graph O) (feeds : list (ph_key * V)) (fuel : nat) (targets : list nat) (env : list V),
  (forall t n, In t (removelast targets) -> nth_error g t = Some n -> one_output mcompute (n_op n)) ->
  meval shape_of mcompute debug g feeds fuel targets env =
    as_mres (eval shape_of (copying mcompute) debug g feeds fuel targets env).
Proof. intros. apply meval_refines; assumption. Qed.
Print Assumptions C60_as_if_copied.

(** Without that restriction it is false: [nth_tensor(t, k)], a view of output
    [k >= 1] of [t], requested after [t], is read after the outputs of [t] other
    than the first have been released. *)
Theorem C60_hidden_outputs_dangle_refuted :
  forall (O V E : Type) (shape_of : V -> list nat) (mcompute : O -> list (opin V) -> mout V E)
    (debug : bool) (g : graph O) (feeds : list (ph_key * V)) (fuel t m k : nat) (nt nm : node O)
    (env : list V) (a b : V) (oc : @outcome V E),
  t <> m -> op_node g t nt -> op_node g m nm -> n_inputs nm = [Incoming t false k] -> 1 <= k ->
  (forall xs ws ys status, mcompute (n_op nt) xs = MRet ws ys status -> forall y, In y ys -> exists v, y = Made v) ->
  (forall x, mcompute (n_op nm) [x] = MRet [] [Viewed 0 (fun v => v)] None) ->
  eval shape_of (copying mcompute) debug g feeds fuel [t; m] env = Ok oc -> oc_results oc = [inl a; inl b] ->
  meval shape_of mcompute debug g feeds fuel [t; m] env = Dangling.
Proof. intros. eapply meval_dangling; eauto. Qed.
Print Assumptions C60_hidden_outputs_dangle_refuted.

(** An operation that overwrites a variable after a view of it was taken, and
    [y = dropout(x)] with [nth_tensor(y, 1)]. *)
Inductive mem_op := MDrop | MIdent | MBump.
Definition mem_compute (o : mem_op) (xs : list (opin (list Z))) : mout (list Z) unit :=
  match o, xs with
  | MDrop, [x] => (* random_ops.rs:224-239 with the mask [1 0 1 0 ...] *)
      let mask := map (fun k => if Nat.even k then 1%Z else 0%Z) (seq 0 (length (opin_value x))) in
      MRet [] [Made (map (fun p => (fst p * snd p)%Z) (combine mask (opin_value x))); Made mask] None
  | MIdent, [_] => (* activation_ops.rs:171-175 *)
      MRet [] [Viewed 0 (fun v => v)] None
  | MBump, [RdWr v; _] => MRet [(0%nat, map Z.succ v)] [Made []] None
  | _, _ => MPanic
  end.
(** 0: a variable; 1: dropout; 2: its second output; 3: a view of the variable;
    4: adds one to the variable, after 3; 5: a view of 3, after 4. *)
Definition mem_graph : graph mem_op :=
  [Node MIdent [] 0 None None true None None (Some 0%nat);
   Node MDrop [Incoming 0 false 0] 1 None None true None None None;
   Node MIdent [Incoming 1 false 1] 2 None None true None None None;
   Node MIdent [Incoming 0 false 0] 1 None None true None None None;
   Node MBump [Incoming 0 true 0; Incoming 3 false 0] 2 None None true None None None;
   Node MIdent [Incoming 3 false 0] 2 None None true None None None].
Example C60_hypotheses_met :
  (exists oc, eval (fun _ => []) (copying mem_compute) true mem_graph [] 100 [1; 2]%nat [[5; 6; 7]%Z] = Ok oc /\
     oc_results oc = [inl [5; 0; 7]%Z; inl [1; 0; 1]%Z]) /\
  meval (fun _ => []) mem_compute true mem_graph [] 100 [1; 2]%nat [[5; 6; 7]%Z] = Dangling /\
  (exists oc, meval (fun _ => []) mem_compute true mem_graph [] 100 [2; 1]%nat [[5; 6; 7]%Z] = Done oc /\
     oc_results oc = [inl [1; 0; 1]%Z; inl [5; 0; 7]%Z]) /\
  one_output mem_compute MIdent /\ one_output mem_compute MBump /\
  (exists oc, meval (fun _ => []) mem_compute true mem_graph [] 100 [5; 4; 0]%nat [[5; 6; 7]%Z] = Done oc /\
     oc_results oc = [inl [5; 6; 7]%Z; inl []; inl [6; 7; 8]%Z] /\ oc_env oc = [[6; 7; 8]%Z]).
Proof.
  split; [eexists; split; [vm_compute; reflexivity|vm_compute; reflexivity]|]. split; [vm_compute; reflexivity|].
  split; [eexists; split; [vm_compute; reflexivity|vm_compute; reflexivity]|].
  split; [intros [|x [|? ?]] ws ys status H; try discriminate; injection H as <- <- <-; auto|].
  split; [intros [|[?|?|?] [|? [|? ?]]] ws ys status H; try discriminate; injection H as <- <- <-; auto|].
  eexists; split; [vm_compute; reflexivity|split; vm_compute; reflexivity].
Qed.
