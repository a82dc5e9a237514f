(** C82: what gradients cost. *)
From Coq Require Import String List Arith ZArith NArith Bool Reals Lia Relations.
Import ListNotations.
From Verif Require Import Graph_Model Eval_Model Eval_Spec Eval_Proofs Graph_Proofs Grad_Model Grad_Spec Grad_Path_Proofs Grad_Examples
  Grad_Cost Scalar_Model Scalar_Spec P_Eval.
From Verif Require Import Array_Model Array_Proofs Vjp_Spec Tens_Model Tens_Spec Tens_Lax Tens_Final Tens_Examples Helper_Tens
  Returns_Spec Tens_Total Tens_New Tens_Returns Tens_Cost P_Returns.
Local Set Bullet Behavior "Strict Subproofs".
Local Open Scope nat_scope.

(** Whatever the graph and the arguments: at most 66 tensors per rule called, 4 per
    tensor asked for, one per output and 3 for the first gradient. *)
Theorem C82_tensors_added :
  forall (pop : tgraph -> list nat -> option (nat * list nat)) (debug : bool) (fuel : nat)
    (ys xs : list nat) (g g' : tgraph) (l : list (nat * bool)) (log : list nat),
  t_grad pop debug fuel ys xs g = Ok (l, g', log) ->
  length g' <= length g + length ys + 3 + 66 * length log + 4 * length xs.
Proof. intros pop debug fuel ys xs g g' l log. apply grad_nodes. Qed.
Print Assumptions C82_tensors_added.

(** The rules called are those of the sums of the outputs (tensors after [g]) and of
    tensors between outputs and targets, each once; tensors and operands of the graph
    stay linear in those of the given one. *)
Theorem C82_gradients_linear :
  forall (pop : tgraph -> list nat -> option (nat * list nat)) (debug : bool) (fuel : nat)
    (ls : nat -> list nat) (ys xs : list nat) (g g' : tgraph) (l : list (nat * bool)) (log : list nat),
  twf ls g -> (forall g, heap_pop g (pop g)) ->
  (forall y, In y ys -> fits ls g y /\ exists sh, shaped ls g y sh) ->
  NoDup xs -> (forall x, In x xs -> t_input_leaf g x) ->
  t_grad pop debug fuel ys xs g = Ok (l, g', log) ->
  NoDup log /\ length log <= length g + length ys /\
  (forall z, In z log -> length g <= z \/ between g ys xs z) /\
  length g' + list_sum (map (fun n => length (n_inputs n)) g') <=
    145 * (length g + list_sum (map (fun n => length (n_inputs n)) g) + length ys + length xs).
Proof.
  intros pop debug fuel ls ys xs g g' l log W Hp Hy Nx Hx E.
  exact (grad_linear false pop Hp debug ls g ys xs (sound_false ls g W) Hy Nx Hx fuel l g' log E).
Qed.
Print Assumptions C82_gradients_linear.

(** The same where rows of tables are looked up with [gather]. *)
Theorem C82_gradients_linear_with_lookups :
  forall (pop : tgraph -> list nat -> option (nat * list nat)) (debug : bool) (fuel : nat)
    (ls : nat -> list nat) (ys xs : list nat) (g g' : tgraph) (l : list (nat * bool)) (log : list nat),
  twf ls g -> attached g -> (forall g, heap_pop g (pop g)) ->
  (forall y, In y ys -> uses ls g y /\ exists sh, shaped ls g y sh) ->
  NoDup xs -> (forall x, In x xs -> t_input_leaf g x) ->
  t_grad pop debug fuel ys xs g = Ok (l, g', log) ->
  NoDup log /\ length log <= length g + length ys /\
  (forall z, In z log -> length g <= z \/ between g ys xs z) /\
  length g' + list_sum (map (fun n => length (n_inputs n)) g') <=
    145 * (length g + list_sum (map (fun n => length (n_inputs n)) g) + length ys + length xs).
Proof.
  intros pop debug fuel ls ys xs g g' l log W At Hp Hy Nx Hx E.
  exact (grad_linear true pop Hp debug ls g ys xs (conj W (fun _ => At)) Hy Nx Hx fuel l g' log E).
Qed.
Print Assumptions C82_gradients_linear_with_lookups.

(** Evaluating any tensors of the extended graph, outputs and gradients together, runs
    each operation at most once, and no more than 67 times as many as the given graph
    has tensors (plus a constant per output and target).  The operations may be
    evaluated by any function. *)
Theorem C82_operations_run :
  forall (V E : Type) (shape_of : V -> list nat) (compute : top -> list (opin V) -> cout V E)
    (pop : tgraph -> list nat -> option (nat * list nat)) (debug debug2 : bool) (fuel fuel2 : nat)
    (ls : nat -> list nat) (ys xs : list nat) (g g' : tgraph) (l : list (nat * bool)) (log targets : list nat)
    (feeds : list (ph_key * V)) (env : list V) (oc : @outcome V E),
  twf ls g -> (forall g, heap_pop g (pop g)) ->
  (forall y, In y ys -> fits ls g y /\ exists sh, shaped ls g y sh) ->
  NoDup xs -> (forall x, In x xs -> t_input_leaf g x) ->
  t_grad pop debug fuel ys xs g = Ok (l, g', log) -> in_range g' targets ->
  eval shape_of compute debug2 g' feeds fuel2 targets env = Ok oc ->
  NoDup (map event_id (oc_log oc)) /\
  length (oc_log oc) <= 67 * (length g + length ys) + 4 * length xs + 3.
Proof.
  intros V E shape_of compute pop debug debug2 fuel fuel2 ls ys xs g g' l log targets feeds env oc W Hp Hy Nx Hx Hg Ht He.
  destruct (tgrad_derivative_x false pop debug fuel ys xs ls g l g' log (sound_false ls g W) Hp Hy Nx Hx Hg) as ((W' & _) & _).
  destruct (twf_graph ls g' W') as [Wg _].
  destruct (C02_once_in_order_needed _ _ _ shape_of compute debug2 g' feeds targets env fuel2 oc Wg Ht He) as (N & M & _).
  split; [exact N|].
  destruct (C82_gradients_linear pop debug fuel ls ys xs g g' l log W Hp Hy Nx Hx Hg) as (_ & L & _).
  apply C82_tensors_added in Hg.
  assert (Hl : length (map event_id (oc_log oc)) <= length (seq 0 (length g'))).
  { apply NoDup_incl_length; [exact N|]. intros i Hi. apply M in Hi. destruct Hi as [(n & Hn & _) _].
    apply in_seq. split; [lia|]. apply nth_error_Some. congruence. }
  rewrite map_length, seq_length in Hl. lia.
Qed.
Print Assumptions C82_operations_run.

Example C82_hypotheses_met :
  twf net_ls net_graph /\ (forall g : tgraph, heap_pop g (max_pop g)) /\ fits net_ls net_graph net_y /\ shaped net_ls net_graph net_y [2%nat] /\
  (forall x, In x [1; 2] -> t_input_leaf net_graph x) /\
  exists l g' log, t_grad max_pop true 200 [net_y] [1; 2] net_graph = Ok (l, g', log) /\
    length net_graph = 13 /\ length g' = 39 /\ operands g' = 47 /\ log = [3; 7; 8; 9; 12; 13].
Proof.
  split; [exact net_twf|]. split; [intros; apply max_pop_ok|]. split; [exact net_fits|]. split; [exact net_shaped|].
  split.
  { intros x [<-|[<-|[]]]; (eexists; split; [vm_compute; reflexivity|split; reflexivity]). }
  set (r := t_grad max_pop true 200 [net_y] [1; 2] net_graph).
  assert (H : match r with Ok (_, g', log) => length g' = 39 /\ operands g' = 47 /\ log = [3; 7; 8; 9; 12; 13] | _ => False end).
  { vm_compute. repeat split. }
  destruct r as [[[l g'] log]| |]; [|destruct H|destruct H]. exists l, g', log.
  split; [reflexivity|]. split; [vm_compute; reflexivity|exact H].
Qed.
