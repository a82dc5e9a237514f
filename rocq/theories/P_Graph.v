(** Properties C08 and C09: building graphs. *)
From Coq Require Import String List Arith ZArith Bool Relations Lia.
Import ListNotations.
From Verif Require Import Graph_Model Eval_Spec Eval_Proofs Graph_Proofs Eval_Examples.

(** ** C08: graph construction *)

(** A built tensor's identity is the number of tensors before it; the graph is
    extended by exactly this tensor, whose rank exceeds its inputs' ranks.
    Building panics once more than 500000 tensors exist. *)
Theorem C08_fresh_tensor :
  forall (O : Type) (var_op ph_op ctrl_op : O) (const_op : list Z -> O) (c : context O)
    (sh : option nat) (ins : list incoming) (diff : bool) (bp : option (list incoming)) (op : O),
  (forall inc, In inc ins -> in_id inc < length (c_graph c)) ->
  ((N.of_nat (length (c_graph c)) <= 500000)%N ->
     exists c' n, run_cmd var_op ph_op ctrl_op const_op c (CBuild sh ins diff bp op)
                    = Some (c', Some (length (c_graph c))) /\
       c_graph c' = c_graph c ++ [n] /\ n_op n = op /\ n_inputs n = ins /\
       (forall inc, In inc ins -> rank_of (c_graph c) (in_id inc) < n_rank n)) /\
  ((500000 < N.of_nat (length (c_graph c)))%N ->
     run_cmd var_op ph_op ctrl_op const_op c (CBuild sh ins diff bp op) = None).
Proof.
  intros; apply build_fresh; assumption.
Qed.
Print Assumptions C08_fresh_tensor.

(** Creating tensors, variables' tensors and placeholders only appends. *)
Theorem C08_existing_unchanged :
  forall (O : Type) (var_op ph_op ctrl_op : O) (const_op : list Z -> O) (ks : list (cmd O))
    (c c' : context O),
  Forall (fun k => match k with CDependsOn _ _ | CClear => False | _ => True end) ks ->
  run_cmds var_op ph_op ctrl_op const_op c ks = Some c' ->
  exists new, c_graph c' = c_graph c ++ new.
Proof.
  intros O var_op ph_op ctrl_op const_op ks c c' H1 H2.
  exact (run_cmds_extends var_op ph_op ctrl_op const_op ks c c' H1 H2).
Qed.
Print Assumptions C08_existing_unchanged.

(** Whatever is built without [depends_on] has its inputs older and of smaller
    rank; hence no cycles. *)
Theorem C08_inputs_older_and_acyclic :
  forall (O : Type) (var_op ph_op ctrl_op : O) (const_op : list Z -> O) (ks : list (cmd O))
    (c : context O),
  Forall (fun k => match k with CDependsOn _ _ => False | _ => True end) ks ->
  run_cmds var_op ph_op ctrl_op const_op new_context ks = Some c ->
  (forall i n inc, nth_error (c_graph c) i = Some n -> In inc (n_inputs n) ->
     in_id inc < i /\ exists m, nth_error (c_graph c) (in_id inc) = Some m /\ n_rank m < n_rank n) /\
  acyclic (c_graph c).
Proof.
  intros O var_op ph_op ctrl_op const_op ks c H1 H2. split.
  - intros i n inc Hn Hin.
    destruct (reachable_ordered var_op ph_op ctrl_op const_op ks c H1 H2 i n inc Hn Hin) as [Hlt Hr].
    split; [exact Hlt|]. unfold rank_of in Hr.
    assert (Hb : i < length (c_graph c)) by (apply nth_error_Some; congruence).
    destruct (nth_error (c_graph c) (in_id inc)) as [m|] eqn:Hm; [eauto|].
    apply nth_error_None in Hm. lia.
  - exact (reachable_acyclic var_op ph_op ctrl_op const_op ks c H1 H2).
Qed.
Print Assumptions C08_inputs_older_and_acyclic.

(** Even with [depends_on], edges stay inside the graph and variables and
    placeholders have no inputs: the evaluator theorems apply. *)
Theorem C08_always_well_formed :
  forall (O : Type) (var_op ph_op ctrl_op : O) (const_op : list Z -> O) (ks : list (cmd O))
    (c : context O),
  run_cmds var_op ph_op ctrl_op const_op new_context ks = Some c -> wf_graph (c_graph c).
Proof.
  exact @reachable_wf.
Qed.
Print Assumptions C08_always_well_formed.

Definition ex_cmds : list (cmd ex_op) :=
  [CVariable 7; CPlaceholder "x" [-1; 2]%Z; CPlaceholder "y" [3]%Z;
   CBuild None [Incoming 0 false 0; Incoming 1 false 0] true None XAdd;
   CBuild None [Incoming 4 false 0] true None XNeg; CVariable 7; CVariable 8].

(** After [depends_on] a tensor may have a newer input of larger rank. *)
Theorem C08_depends_on_breaks_order_refuted :
  exists c i n inc m,
    run_cmds XVar XPh XCtrl XConst new_context
      [CVariable 0; CBuild None [Incoming 0 false 0] true None XNeg;
       CBuild None [Incoming 0 false 0] true None XNeg; CDependsOn 1 [2]] = Some c /\
    acyclic (c_graph c) /\ nth_error (c_graph c) i = Some n /\ In inc (n_inputs n) /\
    nth_error (c_graph c) (in_id inc) = Some m /\ i < in_id inc /\ n_rank n < n_rank m.
Proof.
  eexists _, 1, _, _, _. split; [vm_compute; reflexivity|]. split.
  - apply (acyclic_by_rank _ (fun i => match i with 1 => 9 | _ => i end)).
    intros i j (n & inc & Hn & Hin & <-).
    do 4 (destruct i as [|i]; [simpl in Hn; inv Hn; simpl in Hin;
      repeat (destruct Hin as [<-|Hin]; [simpl; lia|]); destruct Hin|]).
    destruct i; discriminate.
  - simpl. split; [reflexivity|]. split; [left; reflexivity|]. simpl. split; [reflexivity|]. simpl. lia.
Qed.
Print Assumptions C08_depends_on_breaks_order_refuted.

Example C08_hypotheses_met :
  exists c, run_cmds XVar XPh XCtrl XConst new_context ex_cmds = Some c /\
    length (c_graph c) = 7 /\ map n_rank (c_graph c) = [0; 0; 0; 0; 1; 2; 0] /\
    Forall (fun k => match k with CDependsOn _ _ => False | _ => True end) ex_cmds.
Proof.
  eexists. split; [vm_compute; reflexivity|]. split; [reflexivity|]. split; [reflexivity|].
  repeat constructor.
Qed.

(** ** C09: one tensor per variable *)
Theorem C09_same_tensor :
  forall (O : Type) (var_op ph_op ctrl_op : O) (const_op : list Z -> O) (ks0 : list (cmd O))
    (c : context O) (vid : nat) (c1 : context O) (t : nat) (ks : list (cmd O)) (c2 : context O),
  run_cmds var_op ph_op ctrl_op const_op new_context ks0 = Some c ->
  variable_by_id var_op c vid = Some (c1, t) ->
  Forall (fun k => match k with CClear => False | _ => True end) ks ->
  run_cmds var_op ph_op ctrl_op const_op c1 ks = Some c2 ->
  variable_by_id var_op c2 vid = Some (c2, t) /\
  exists n, nth_error (c_graph c2) t = Some n /\ n_var n = Some vid /\ n_inputs n = [].
Proof.
  exact @variable_same_reachable.
Qed.
Print Assumptions C09_same_tensor.

Theorem C09_injective :
  forall (O : Type) (var_op ph_op ctrl_op : O) (const_op : list Z -> O) (ks0 : list (cmd O))
    (c : context O) (vid1 vid2 : nat) (c1 : context O) (t1 : nat) (ks : list (cmd O))
    (c2 c3 : context O) (t2 : nat),
  run_cmds var_op ph_op ctrl_op const_op new_context ks0 = Some c ->
  variable_by_id var_op c vid1 = Some (c1, t1) ->
  Forall (fun k => match k with CClear => False | _ => True end) ks ->
  run_cmds var_op ph_op ctrl_op const_op c1 ks = Some c2 ->
  variable_by_id var_op c2 vid2 = Some (c3, t2) -> vid1 <> vid2 -> t1 <> t2.
Proof.
  intros O var_op ph_op ctrl_op const_op ks0 c vid1 vid2 c1 t1 ks c2 c3 t2 H.
  exact (variable_distinct var_op ph_op ctrl_op const_op c vid1 vid2 c1 t1 ks c2 c3 t2
           (reachable_ok var_op ph_op ctrl_op const_op ks0 c H)).
Qed.
Print Assumptions C09_injective.

(** In every reachable graph at most one tensor stands for a variable. *)
Theorem C09_at_most_one :
  forall (O : Type) (var_op ph_op ctrl_op : O) (const_op : list Z -> O) (ks : list (cmd O))
    (c : context O) (t1 t2 : nat) (n1 n2 : node O) (vid : nat),
  run_cmds var_op ph_op ctrl_op const_op new_context ks = Some c ->
  nth_error (c_graph c) t1 = Some n1 -> nth_error (c_graph c) t2 = Some n2 ->
  n_var n1 = Some vid -> n_var n2 = Some vid -> t1 = t2.
Proof.
  exact @one_tensor_per_variable.
Qed.
Print Assumptions C09_at_most_one.

(** After [clear] a request creates a new tensor, which is valid. *)
Theorem C09_clear :
  forall (O : Type) (var_op ph_op ctrl_op : O) (const_op : list Z -> O) (ks : list (cmd O))
    (c : context O) (vid : nat) (c' : context O) (r : option nat),
  run_cmds var_op ph_op ctrl_op const_op new_context ks = Some c ->
  run_cmd var_op ph_op ctrl_op const_op c CClear = Some (c', r) ->
  c_graph c' = [] /\ variable_by_id var_op c' vid =
    Some (Context [Node var_op [] 0 None None true None None (Some vid)] [(vid, 0)], 0).
Proof.
  exact @clear_forgets.
Qed.
Print Assumptions C09_clear.

Example C09_hypotheses_met :
  exists c c1, run_cmds XVar XPh XCtrl XConst new_context ex_cmds = Some c /\
    variable_by_id XVar c 7 = Some (c, 0) /\ variable_by_id XVar c 8 = Some (c, 6) /\
    variable_by_id XVar c 9 = Some (c1, 7) /\
    run_cmds XVar XPh XCtrl XConst c1 [CClear; CPlaceholder "z" [-1]%Z; CVariable 9] =
      Some (Context [Node XPh [] 0 None (Some "z"%string) true None (Some [-1]%Z) None;
                     Node XVar [] 0 None None true None None (Some 9)] [(9, 1)]).
Proof.
  eexists _, _. split; [vm_compute; reflexivity|]. split; [reflexivity|]. split; [reflexivity|].
  split; vm_compute; reflexivity.
Qed.
