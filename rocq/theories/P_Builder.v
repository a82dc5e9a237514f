(** Property C08, continued: the tensor a chain of builder calls makes. *)
From Coq Require Import String List Arith ZArith Bool Lia.
Import ListNotations.
From Verif Require Import Graph_Model Eval_Proofs Builder_Model.

(** The last of the values given by some calls, if any. *)
Definition last_given {X} (f : method -> option X) (ms : list method) : option X :=
  fold_left (fun o m => match f m with Some x => Some x | None => o end) ms None.
(** All of them, in order. *)
Definition all_given {X} (f : method -> option X) (ms : list method) : list X :=
  flat_map (fun m => match f m with Some x => [x] | None => [] end) ms.

Definition gives_input (m : method) : option incoming :=
  match m with
  | AppendInput id mu => Some (Incoming id mu 0)
  | AppendInputWithSelector id mu sel => Some (Incoming id mu sel)
  | _ => None
  end.
Definition gives_backprop (m : method) : option incoming :=
  match m with AppendBackpropInput id => Some (Incoming id false 0) | _ => None end.
Definition gives_shape (m : method) : option nat := match m with SetShape id => Some id | _ => None end.
Definition gives_diff (m : method) : option bool := match m with SetDifferentiable d => Some d | _ => None end.
Definition gives_known (m : method) : option (list Z) := match m with SetKnownShape s => Some s | _ => None end.
Definition gives_var (m : method) : option nat := match m with SetVariable v => Some v | _ => None end.
Definition gives_name (m : method) : option string := match m with SetPlaceholderName n => Some n | _ => None end.

(** The tensor has the inputs appended, in order; it is differentiable unless said otherwise; gradients go to the
    inputs, or, if there are any, to the backprop inputs appended; its rank is 0 without inputs and otherwise one more than
    that of some input, none having more. *)
Theorem C08_builder_chain :
  forall (O : Type) (g g' : graph O) (ms : list method) (op : O) (t : nat),
  build_by g ms op = Some (g', t) ->
  exists n, g' = g ++ [n] /\ t = length g /\ n_op n = op /\ n_inputs n = all_given gives_input ms /\
    n_diff n = match last_given gives_diff ms with Some d => d | None => true end /\
    get_backprop_inputs n = match all_given gives_backprop ms with [] => all_given gives_input ms | l => l end /\
    n_shape n = last_given gives_shape ms /\ n_known n = last_given gives_known ms /\
    n_var n = last_given gives_var ms /\ n_ph n = last_given gives_name ms /\
    (forall inc m, In inc (n_inputs n) -> nth_error g (in_id inc) = Some m -> n_rank m < n_rank n) /\
    (n_inputs n = [] -> n_rank n = 0) /\
    ((forall inc, In inc (n_inputs n) -> in_id inc < length g) -> n_inputs n <> [] ->
     exists inc m, In inc (n_inputs n) /\ nth_error g (in_id inc) = Some m /\ n_rank n = S (n_rank m)).
Proof.
  assert (L : forall (X : Type) (f : method -> option X) ms o, fold_left (fun o m => match f m with Some x => Some x | None => o end) ms o =
            match last_given f ms with Some x => Some x | None => o end).
  { intros X f ms. unfold last_given. induction ms as [|m ms IH]; intros o; [reflexivity|]. cbn. destruct (f m) as [x|]; rewrite IH; [|reflexivity].
    destruct (fold_left _ ms None); reflexivity. }
  assert (C : forall ms b b', call_methods b ms = Some b' ->
    b_inputs b' = b_inputs b ++ all_given gives_input ms /\
    b_diff b' = match last_given gives_diff ms with Some d => d | None => b_diff b end /\
    b_backprop b' = match all_given gives_backprop ms with [] => b_backprop b | l => Some (match b_backprop b with Some l0 => l0 | None => [] end ++ l) end /\
    b_shape b' = match last_given gives_shape ms with Some s => Some s | None => b_shape b end /\
    b_known b' = match last_given gives_known ms with Some s => Some s | None => b_known b end /\
    b_var b' = match last_given gives_var ms with Some s => Some s | None => b_var b end /\
    b_ph b' = match last_given gives_name ms with Some s => Some s | None => b_ph b end).
  { induction ms as [|m ms IH]; intros b b' E.
    - inv E. cbn. rewrite app_nil_r. repeat split.
    - cbn [call_methods] in E. destruct (call_method b m) as [b1|] eqn:E1; [|discriminate]. destruct (IH b1 b' E) as (I1 & I2 & I3 & I4 & I5 & I6 & I7).
      unfold last_given, all_given in *. cbn [fold_left flat_map]. rewrite I1, I2, I3, I4, I5, I6, I7.
      destruct m; cbn [call_method] in E1;
        [inv E1|inv E1|inv E1|inv E1|inv E1|unfold set_known_shape, known_shape_new in E1; destruct (forallb _ s); [inv E1|discriminate E1]|inv E1|inv E1];
        cbn [b_inputs b_diff b_backprop b_shape b_known b_var b_ph append_input append_backprop_input set_shape set_differentiable set_variable set_placeholder_name
             gives_input gives_diff gives_backprop gives_shape gives_known gives_var gives_name app];
        rewrite ?(L _ gives_diff ms (Some _)), ?(L _ gives_shape ms (Some _)), ?(L _ gives_known ms (Some _)), ?(L _ gives_var ms (Some _)), ?(L _ gives_name ms (Some _)); unfold last_given;
        (split; [rewrite <- ?app_assoc; reflexivity|]); (split; [(repeat match goal with |- context [fold_left ?f ms None] => destruct (fold_left f ms None) end; reflexivity)|]);
        (split; [clear; match goal with |- context [flat_map ?f ms] => destruct (flat_map f ms) end; destruct (b_backprop b); cbn; rewrite <- ?app_assoc; reflexivity|]);
        (split; [(repeat match goal with |- context [fold_left ?f ms None] => destruct (fold_left f ms None) end; reflexivity)|]); (split; [(repeat match goal with |- context [fold_left ?f ms None] => destruct (fold_left f ms None) end; reflexivity)|]); (split; [(repeat match goal with |- context [fold_left ?f ms None] => destruct (fold_left f ms None) end; reflexivity)|]); (repeat match goal with |- context [fold_left ?f ms None] => destruct (fold_left f ms None) end; reflexivity). }
  intros O g g' ms op t E. unfold build_by in E. destruct (call_methods new_builder ms) as [b|] eqn:Eb; [|discriminate].
  destruct (C ms new_builder b Eb) as (I1 & I2 & I3 & I4 & I5 & I6 & I7). cbn in *.
  unfold build, install in E. destruct (_ <? _)%N; [discriminate|]. inv E.
  eexists. split; [reflexivity|]. split; [reflexivity|]. cbn [n_op n_inputs n_diff n_shape n_known n_var n_ph n_rank get_backprop_inputs n_backprop]. split; [reflexivity|].
  split; [exact I1|]. split; [exact I2|].
  split; [unfold get_backprop_inputs; cbn; rewrite I3, I1; destruct (all_given gives_backprop ms); reflexivity|].
  split; [rewrite I4; destruct (last_given gives_shape ms); reflexivity|]. split; [rewrite I5; destruct (last_given gives_known ms); reflexivity|].
  split; [rewrite I6; destruct (last_given gives_var ms); reflexivity|]. split; [rewrite I7; destruct (last_given gives_name ms); reflexivity|].
  assert (M : forall l (f : incoming -> nat), l <> [] -> exists x, In x l /\ f x = list_max (map f l)).
  { induction l as [|x l IH]; intros f N; [congruence|]. destruct l as [|y l]; [exists x; cbn; split; [auto|lia]|].
    destruct (IH f) as (z & Hz & Ez); [discriminate|]. destruct (Nat.le_gt_cases (f x) (f z)).
    - exists z. split; [right; exact Hz|]. cbn [map list_max fold_right] in *. change (fold_right Init.Nat.max 0 (map f l)) with (list_max (map f l)) in *. lia.
    - exists x. split; [left; reflexivity|]. cbn [map list_max fold_right] in *. change (fold_right Init.Nat.max 0 (map f l)) with (list_max (map f l)) in *. lia. }
  assert (Le : forall l (f : incoming -> nat) x, In x l -> f x <= list_max (map f l)).
  { induction l as [|y l IH]; intros f x []; cbn [map list_max fold_right]; change (fold_right Init.Nat.max 0 (map f l)) with (list_max (map f l)); [subst; lia|].
    specialize (IH f x H). lia. }
  split; [|split].
  - intros inc m Hin Hm. unfold new_rank. destruct (b_inputs b) as [|i0 l] eqn:El; [destruct Hin|]. rewrite <- El in *.
    pose proof (Le (b_inputs b) (fun a => rank_of g (in_id a)) inc Hin) as Q. cbn beta in Q. unfold rank_of in Q at 1. rewrite Hm in Q. lia.
  - intros E. rewrite E. reflexivity.
  - intros Hr N. destruct (M (b_inputs b) (fun a => rank_of g (in_id a)) N) as (inc & Hin & Einc).
    destruct (nth_error g (in_id inc)) as [m|] eqn:Hm; [|apply nth_error_None in Hm; specialize (Hr inc Hin); lia].
    exists inc, m. split; [exact Hin|]. split; [exact Hm|]. unfold new_rank. destruct (b_inputs b) as [|i0 l] eqn:El; [congruence|]. rewrite <- El in *.
    rewrite <- Einc. unfold rank_of. rewrite Hm. reflexivity.
Qed.
Print Assumptions C08_builder_chain.

(** It panics exactly when a declared shape has a dimension that is 0 or below -1, or the graph is full. *)
Theorem C08_builder_panics :
  forall (O : Type) (g : graph O) (ms : list method) (op : O),
  build_by g ms op = None <->
  (exists s d, In (SetKnownShape s) ms /\ In d s /\ (d = 0 \/ d < -1)%Z) \/ (500000 < N.of_nat (length g))%N.
Proof.
  assert (C : forall ms b, call_methods b ms = None <-> exists s d, In (SetKnownShape s) ms /\ In d s /\ (d = 0 \/ d < -1)%Z).
  { induction ms as [|m ms IH]; intros b; cbn [call_methods].
    - split; [discriminate|]. intros (s & d & [] & _).
    - assert (K : forall s, forallb (fun a => (a =? -1)%Z || (0 <? a)%Z) s = false <-> exists d, In d s /\ (d = 0 \/ d < -1)%Z).
      { induction s as [|a s IHs]; cbn; [split; [discriminate|intros (d & [] & _)]|]. rewrite andb_false_iff, IHs, orb_false_iff, Z.eqb_neq, Z.ltb_ge. split.
        - intros [[H1 H2]|(d & Hd & H)]; [exists a; split; [auto|lia]|exists d; auto].
        - intros (d & [->|Hd] & H); [left; lia|right; eauto]. }
      destruct (call_method b m) as [b1|] eqn:E.
      + rewrite IH. split; [intros (s & d & Hin & H); exists s, d; split; [right; exact Hin|exact H]|].
        intros (s & d & [->|Hin] & H); [|eauto]. cbn in E. unfold set_known_shape, known_shape_new in E.
        rewrite (proj2 (K s)) in E by eauto. discriminate.
      + split; [|reflexivity]. intros _. destruct m; try discriminate E. cbn in E. unfold set_known_shape, known_shape_new in E.
        destruct (forallb _ s) eqn:F; [discriminate|]. apply K in F. destruct F as (d & Hd & H). exists s, d. split; [left; reflexivity|auto]. }
  intros O g ms op. unfold build_by. destruct (call_methods new_builder ms) as [b|] eqn:E.
  - assert (N : ~ exists s d, In (SetKnownShape s) ms /\ In d s /\ (d = 0 \/ d < -1)%Z) by (rewrite <- (C ms new_builder), E; discriminate).
    unfold build, install. destruct (NUM_NODES_CRITICAL <? _)%N eqn:F; unfold NUM_NODES_CRITICAL in F.
    + apply N.ltb_lt in F. tauto.
    + apply N.ltb_ge in F. split; [discriminate|]. intros [H|H]; [tauto|lia].
  - apply C in E. tauto.
Qed.
Print Assumptions C08_builder_panics.

Example C08_builder_hypotheses_met :
  let g := [Node 0 [] 0 None None true None None None; Node 1 [Incoming 0 false 0] 1 None None true None None None] in
  exists g' n, build_by g [AppendInput 1 true; SetDifferentiable true; AppendInputWithSelector 0 false 3; AppendBackpropInput 0; SetShape 1; AppendBackpropInput 1;
                      SetDifferentiable false; SetKnownShape [-1; 4]%Z] 9 = Some (g', 2) /\ nth_error g' 2 = Some n /\
    n_inputs n = [Incoming 1 true 0; Incoming 0 false 3] /\ get_backprop_inputs n = [Incoming 0 false 0; Incoming 1 false 0] /\ n_rank n = 2 /\ n_diff n = false.
Proof. cbv zeta. eexists. eexists. split; [reflexivity|]. repeat split. Qed.
