(** Property C08, continued: the tensors that functions make. *)
From Coq Require Import String List Arith ZArith Bool Lia Reals.
Import ListNotations.
From Verif Require Import Graph_Model Eval_Model Eval_Proofs Graph_Proofs Scalar_Model Array_Model Tens_Model.
Local Set Bullet Behavior "Strict Subproofs".

(** [f] adds tensors to the graph; the last is its result, made by [op] from exactly the tensors [ins], none of which it
    may change; gradients pass through it iff [diff]. src/tensor.rs:609-620, 769-802 [TensorBuilder]. *)
Definition makes {O} (f : graph O -> option (nat * graph O)) (ins : list nat) (diff : bool) (op : O) : Prop :=
  forall s t s', f s = Some (t, s') ->
  exists new n, s' = s ++ new ++ [n] /\ t = length s + length new /\ n_op n = op /\ n_diff n = diff /\
    map in_id (n_inputs n) = ins /\ Forall (fun i => in_mut i = false /\ in_sel i = 0) (n_inputs n) /\
    n_ph n = None /\ n_var n = None /\ n_backprop n = None.

Lemma inputs_ids ins : map in_id (map (fun i => Incoming i false 0) ins) = ins.
Proof. rewrite map_map. cbn. apply map_id. Qed.
Lemma inputs_plain ins : Forall (fun i => in_mut i = false /\ in_sel i = 0) (map (fun i => Incoming i false 0) ins).
Proof. induction ins; constructor; auto. Qed.

Section Generic.
  Context {O : Type}.
  (** Tensors are only added. src/graph.rs:27-47 [install]. *)
  Definition grown (f : graph O -> option (nat * graph O)) : Prop := forall s t s', f s = Some (t, s') -> exists new, s' = s ++ new.
  (** src/tensor.rs:609-620, 769-802 [TensorBuilder], with plain inputs. *)
  Definition mkg (ins : list nat) (sh : option nat) (diff : bool) (o : O) : graph O -> option (nat * graph O) := fun s =>
    match build s (Builder sh (map (fun i => Incoming i false 0) ins) diff None None None None) o with
    | None => None
    | Some (s', id) => Some (id, s')
    end.
  Lemma mkg_spec ins sh diff o s t s' : mkg ins sh diff o s = Some (t, s') ->
    t = length s /\ exists n, s' = s ++ [n] /\ n_op n = o /\ n_diff n = diff /\ n_inputs n = map (fun i => Incoming i false 0) ins /\ n_shape n = sh /\
      n_ph n = None /\ n_var n = None /\ n_backprop n = None.
  Proof.
    unfold mkg. intros H. destruct (build s _ o) as [[s1 id]|] eqn:E; [|discriminate]. injection H as -> ->. apply build_spec in E.
    destruct E as (-> & _ & ->). split; [reflexivity|]. eexists. split; [reflexivity|]. repeat split.
  Qed.
  Lemma mkg_makes ins sh diff o : makes (mkg ins sh diff o) ins diff o.
  Proof.
    intros s t s' H. apply mkg_spec in H. destruct H as (-> & n & -> & A & B & C & D & E). exists [], n. rewrite C, inputs_ids. split; [reflexivity|].
    split; [simpl; lia|]. split; [exact A|]. split; [exact B|]. split; [reflexivity|]. split; [apply inputs_plain|exact E].
  Qed.
  Lemma mkg_grown ins sh diff o : grown (mkg ins sh diff o).
  Proof. intros s t s' H. apply mkg_spec in H. destruct H as (_ & n & -> & _). eauto. Qed.
  (** One statement after another, as in src/tensor_ops/mod.rs:333-760. *)
  Definition bindg {A B} (m : graph O -> option (A * graph O)) (f : A -> graph O -> option (B * graph O)) : graph O -> option (B * graph O) :=
    fun s => match m s with None => None | Some (a, s') => f a s' end.
  Lemma bind_makes (m : graph O -> option (nat * graph O)) f ins diff o : grown m -> (forall a, makes (f a) ins diff o) -> makes (bindg m f) ins diff o.
  Proof.
    intros G F s t s' H. unfold bindg in H. destruct (m s) as [[a s1]|] eqn:E; [|discriminate]. apply G in E. destruct E as (n1 & ->).
    apply F in H. destruct H as (n2 & n & -> & -> & R). exists (n1 ++ n2), n. rewrite <- !app_assoc. split; [reflexivity|]. rewrite !app_length. split; [lia|exact R].
  Qed.
  Lemma bind_grown (m f' : graph O -> option (nat * graph O)) f : grown m -> (forall a, grown (f a)) -> grown (bindg m f).
  Proof.
    intros G F s t s' H. unfold bindg in H. destruct (m s) as [[a s1]|] eqn:E; [|discriminate]. apply G in E. destruct E as (n1 & ->).
    apply F in H. destruct H as (n2 & ->). exists (n1 ++ n2). rewrite app_assoc. reflexivity.
  Qed.
End Generic.
Lemma t_shape_grown x : grown (t_shape x).
Proof.
  intros s t s' H. unfold t_shape in H. destruct (nth_error s x) as [n|]; [|discriminate]. destruct (n_shape n); [injection H as _ <-; exists []; rewrite app_nil_r; reflexivity|].
  eapply (@mkg_grown sop); exact H.
Qed.
Lemma a_shape_grown x : grown (a_shape_of x).
Proof.
  intros s t s' H. unfold a_shape_of in H. destruct (nth_error s x) as [n|]; [|discriminate]. destruct (n_shape n); [injection H as _ <-; exists []; rewrite app_nil_r; reflexivity|].
  eapply (@mkg_grown top); exact H.
Qed.
Ltac grow := first [apply t_shape_grown | apply a_shape_grown | apply (@mkg_grown sop) | apply (@mkg_grown top)].
Ltac made := repeat first [apply (@mkg_makes sop) | apply (@mkg_makes top) | (apply (@bind_makes sop); [grow|intros ?]) | (apply (@bind_makes top); [grow|intros ?])].
Lemma a_ints_grown l : grown (a_ints l).
Proof. apply (@bind_grown top _ (fun _ => None)); [grow|intros; grow]. Qed.
Lemma a_scalar_makes r : makes (a_scalar r) [] true (TScalar r).
Proof. apply (@bind_makes top); [apply a_ints_grown|intros; apply (@mkg_makes top)]. Qed.
(** Gradients pass through every function of tensors except [stop_gradient]; each function's tensor is made from exactly
    the operands given, in the given order. *)
Theorem C08_functions :
  (forall u x, makes (t_un u x) [x] true (OUn u)) /\ (forall b x y, makes (t_bin b x y) [x; y] true (OBin b)) /\
  (forall r, makes (t_scalar r) [] true (OScalar r)) /\ (forall x, makes (t_sum_all x) [x] true OSumAll) /\
  (forall xs, makes (t_add_n xs) xs true OAddN) /\ (forall x, makes (t_stop x) [x] false OStop) /\
  (forall u x, makes (a_un u x) [x] true (TUn u)) /\ (forall b x y, makes (a_bin b x y) [x; y] true (TBin b)) /\
  (forall r, makes (a_scalar r) [] true (TScalar r)) /\ (forall x, makes (a_sum_all x) [x] true TSumAll) /\
  (forall xs, makes (a_add_n xs) xs true TAddN) /\ (forall x i, makes (a_access x i) [x] true (TIndex i)) /\
  (forall xs i, makes (a_concat xs i) xs true (TConcat i)).
Proof.
  split; [intros u x; unfold t_un; destruct (un_sets_shape u); made|]. split; [intros b x y; destruct b; made|]. split; [intros r; made|]. split; [intros x; made|].
  split; [intros [|x xs]; [intros s t s' H; discriminate H|made]|]. split; [intros x; made|].
  split; [intros u x; unfold a_un; destruct (un_sets_shape u); made|]. split; [intros b x y; destruct b; made|]. split; [exact a_scalar_makes|]. split; [intros x; made|].
  split; [intros [|x xs]; [intros s t s' H; discriminate H|made]|]. split; [intros x i; made|]. intros [|x xs] i; [intros s t s' H; discriminate H|made].
Qed.
Print Assumptions C08_functions.

(** [shape_of s x sh s1]: tensor [sh] of graph [s1] holds the shape of [x]: the one attached to [x], or a tensor made from
    [x] by [op], through which no gradient passes. src/tensor_ops/mod.rs:266-279 [shape]. *)
Definition shape_of {O} (op : O) (s : graph O) (x sh : nat) (s1 : graph O) : Prop :=
  exists nx, nth_error s x = Some nx /\
    ((n_shape nx = Some sh /\ s1 = s) \/
     (n_shape nx = None /\ sh = length s /\ exists n, s1 = s ++ [n] /\ n_op n = op /\ n_diff n = false /\ n_shape n = None /\ map in_id (n_inputs n) = [x])).
Lemma t_shape_of x s sh s1 : t_shape x s = Some (sh, s1) -> shape_of OShape s x sh s1.
Proof.
  unfold t_shape. intros H. destruct (nth_error s x) as [nx|] eqn:E; [|discriminate]. exists nx. split; [exact E|]. destruct (n_shape nx); [left; injection H as -> ->; auto|right].
  eapply (@mkg_spec sop) in H. destruct H as (-> & n & -> & A & B & C & D & _). split; [reflexivity|]. split; [reflexivity|]. exists n. rewrite C, inputs_ids. auto.
Qed.
Lemma a_shape_of_of x s sh s1 : a_shape_of x s = Some (sh, s1) -> shape_of TShape s x sh s1.
Proof.
  unfold a_shape_of. intros H. destruct (nth_error s x) as [nx|] eqn:E; [|discriminate]. exists nx. split; [exact E|]. destruct (n_shape nx); [left; injection H as -> ->; auto|right].
  eapply (@mkg_spec top) in H. destruct H as (-> & n & -> & A & B & C & D & _). split; [reflexivity|]. split; [reflexivity|]. exists n. rewrite C, inputs_ids. auto.
Qed.

(** The shape tensor attached to the result of a function of one tensor is that of the operand; [neg] and [clip] attach
    none. src/tensor_ops/mod.rs:333-760, 1062-1070, 1373-1580. *)
Definition shape_attached {O} (op : O) (u : uop) (f : graph O -> option (nat * graph O)) (x : nat) : Prop :=
  forall s t s', f s = Some (t, s') ->
  match u with
  | Neg | Clip _ _ => exists n, s' = s ++ [n] /\ n_shape n = None
  | _ => exists sh s1 n, shape_of op s x sh s1 /\ s' = s1 ++ [n] /\ n_shape n = Some sh
  end.
Theorem C08_attached_shapes :
  (forall u x, shape_attached OShape u (t_un u x) x) /\ (forall u x, shape_attached TShape u (a_un u x) x).
Proof.
  split; intros u x s t s' H.
  - assert (K : forall o, (bindg (t_shape x) (fun sh => mkg [x] (Some sh) true o)) s = Some (t, s') -> exists sh s1 n, shape_of OShape s x sh s1 /\ s' = s1 ++ [n] /\ n_shape n = Some sh).
    { intros o E. unfold bindg in E. destruct (t_shape x s) as [[sh s1]|] eqn:E1; [|discriminate]. apply t_shape_of in E1. apply mkg_spec in E. destruct E as (_ & n & -> & _ & _ & _ & D & _). eauto 8. }
    assert (L : forall o, mkg [x] None true o s = Some (t, s') -> exists n, s' = s ++ [n] /\ n_shape n = None).
    { intros o E. apply mkg_spec in E. destruct E as (_ & n & -> & _ & _ & _ & D & _). eauto. }
    destruct u; first [eapply K; exact H | eapply L; exact H].
  - assert (K : forall o, (bindg (a_shape_of x) (fun sh => mkg [x] (Some sh) true o)) s = Some (t, s') -> exists sh s1 n, shape_of TShape s x sh s1 /\ s' = s1 ++ [n] /\ n_shape n = Some sh).
    { intros o E. unfold bindg in E. destruct (a_shape_of x s) as [[sh s1]|] eqn:E1; [|discriminate]. apply a_shape_of_of in E1. apply mkg_spec in E. destruct E as (_ & n & -> & _ & _ & _ & D & _). eauto 8. }
    assert (L : forall o, mkg [x] None true o s = Some (t, s') -> exists n, s' = s ++ [n] /\ n_shape n = None).
    { intros o E. apply mkg_spec in E. destruct E as (_ & n & -> & _ & _ & _ & D & _). eauto. }
    destruct u; first [eapply K; exact H | eapply L; exact H].
Qed.
Print Assumptions C08_attached_shapes.

(** [flatten] is differentiable in its operand, whose shape tensor (not the flattened shape) it attaches; [expand_dims]
    attaches none. *)
Theorem C08_reshaping :
  (forall x s t s', a_flatten x s = Some (t, s') -> exists new m s1 sh n, shape_of TShape (s ++ new) x sh s1 /\
     s' = s1 ++ [n] /\ t = length s1 /\ n_op n = TReshape /\ n_diff n = true /\ map in_id (n_inputs n) = [x; m] /\ n_shape n = Some sh /\
     exists c, nth_error new (m - length s) = Some c /\ length s <= m /\ n_op c = TConstI [(-1)%Z]) /\
  (forall x axes s t s', a_expand_dims x axes s = Some (t, s') -> exists new m n,
     s' = s ++ new ++ [n] /\ t = length (s ++ new) /\ n_op n = TExpandDims /\ n_diff n = true /\ map in_id (n_inputs n) = [x; m] /\ n_shape n = None /\
     exists c, nth_error new (m - length s) = Some c /\ length s <= m /\ n_op c = TConstI axes).
Proof.
  assert (I : forall l g s0 g1, a_ints l g = Some (s0, g1) -> exists n0 n1, s0 = length g + 1 /\ g1 = g ++ [n0; n1] /\ n_op n1 = TConstI l).
  { intros l g s0 g1 E1. change (bindg (mkg [] None true (TConstI [Z.of_nat (length l)])) (fun ss => mkg [] (Some ss) true (TConstI l)) g = Some (s0, g1)) in E1. unfold bindg in E1.
    destruct (mkg [] None true _ g) as [[s00 g0]|] eqn:E0; [|discriminate]. apply mkg_spec in E0. destruct E0 as (-> & n0 & -> & _). apply mkg_spec in E1. destruct E1 as (-> & n1 & -> & A & _).
    exists n0, n1. rewrite app_length, <- app_assoc. auto. }
  split.
  - intros x s t s' H.
    change (bindg (a_ints []) (fun s0 => bindg (mkg [] (Some s0) true (TConstI [(-1)%Z])) (fun m1 => bindg (a_shape_of x) (fun sh => mkg [x; m1] (Some sh) true TReshape))) s = Some (t, s')) in H.
    unfold bindg in H. destruct (a_ints [] s) as [[s0 g1]|] eqn:E1; [|discriminate]. apply I in E1. destruct E1 as (n0 & n1 & -> & -> & _).
    destruct (mkg [] _ true (TConstI [(-1)%Z]) _) as [[m g2]|] eqn:E2; [|discriminate]. apply mkg_spec in E2. destruct E2 as (-> & n2 & -> & A2 & _).
    destruct (a_shape_of x _) as [[sh g3]|] eqn:E3; [|discriminate]. apply a_shape_of_of in E3. apply mkg_spec in H. destruct H as (-> & n & -> & A & B & C & D & _).
    rewrite <- app_assoc in E3. cbn [app] in E3. rewrite app_length in C. cbn [length] in C. exists [n0; n1; n2], (length s + 2), g3, sh, n. split; [exact E3|]. split; [reflexivity|]. split; [reflexivity|]. split; [exact A|].
    split; [exact B|]. split; [rewrite C; reflexivity|]. split; [exact D|]. exists n2. split; [replace (length s + 2 - length s) with 2 by lia; reflexivity|]. split; [lia|exact A2].
  - intros x axes s t s' H. change (bindg (a_ints axes) (fun ax => mkg [x; ax] None true TExpandDims) s = Some (t, s')) in H. unfold bindg in H.
    destruct (a_ints axes s) as [[s0 g1]|] eqn:E1; [|discriminate]. apply I in E1. destruct E1 as (n0 & n1 & -> & -> & A1). apply mkg_spec in H. destruct H as (-> & n & -> & A & B & C & D & _).
    exists [n0; n1], (length s + 1), n. split; [rewrite <- app_assoc; reflexivity|]. split; [reflexivity|]. split; [exact A|]. split; [exact B|]. split; [rewrite C; reflexivity|]. split; [exact D|].
    exists n1. split; [replace (length s + 1 - length s) with 1 by lia; reflexivity|]. split; [lia|exact A1].
Qed.
Print Assumptions C08_reshaping.

(** [made_with_shape f x e diff op att]: [f] finds or makes the shape tensor of [x] and makes a tensor from [e] and that
    shape, to which the shape tensor is attached iff [att]. binary_ops.rs:96-104, 283-293; reduction_ops.rs:130-136. *)
Definition made_with_shape {O} (shape_op : O) (f : graph O -> option (nat * graph O)) (x : nat) (ins : nat -> list nat) (att : bool) (op : O) : Prop :=
  forall s t s', f s = Some (t, s') -> exists sh s1 n, shape_of shape_op s x sh s1 /\ s' = s1 ++ [n] /\ t = length s1 /\ n_op n = op /\ n_diff n = true /\
    map in_id (n_inputs n) = ins sh /\ n_shape n = (if att then Some sh else None).
(** The tensors that gradients of scalars and sums are made of can be differentiated again. *)
Theorem C08_gradient_tensors : forall x e,
  made_with_shape OShape (t_reduce x e) x (fun sh => [e; sh]) true OMaybeReduceSum /\
  made_with_shape OShape (t_bcast x e) x (fun sh => [e; sh]) false OMaybeBroadcast /\
  made_with_shape OShape (t_sum_all_grad x e) x (fun sh => [e; sh]) false OSumAllGrad /\
  made_with_shape OShape (t_zeros_like x) x (fun sh => [sh]) false OZeros /\
  made_with_shape TShape (a_zeros_like x) x (fun sh => [sh]) false TZeros.
Proof.
  intros x e.
  assert (K : forall (att : bool) ins o s t s', (bindg (t_shape x) (fun sh => mkg (ins sh) (if att then Some sh else None) true o)) s = Some (t, s') ->
    exists sh s1 n, shape_of OShape s x sh s1 /\ s' = s1 ++ [n] /\ t = length s1 /\ n_op n = o /\ n_diff n = true /\
      map in_id (n_inputs n) = ins sh /\ n_shape n = (if att then Some sh else None)).
  { intros att ins o s t s' E. unfold bindg in E. destruct (t_shape x s) as [[sh s1]|] eqn:E1; [|discriminate]. apply t_shape_of in E1. apply mkg_spec in E.
    destruct E as (-> & n & -> & A & B & C & D & _). exists sh, s1, n. rewrite C, inputs_ids. auto 10. }
  split; [intros s t s' H; apply (K true (fun sh => [e; sh])); exact H|]. split; [intros s t s' H; apply (K false (fun sh => [e; sh])); exact H|].
  split; [intros s t s' H; apply (K false (fun sh => [e; sh])); exact H|]. split; [intros s t s' H; apply (K false (fun sh => [sh])); exact H|].
  intros s t s' E. change (bindg (a_shape_of x) (fun sh => mkg [sh] None true TZeros) s = Some (t, s')) in E. unfold bindg in E.
  destruct (a_shape_of x s) as [[sh s1]|] eqn:E1; [|discriminate]. apply a_shape_of_of in E1. apply mkg_spec in E. destruct E as (-> & n & -> & A & B & C & D & _).
  exists sh, s1, n. rewrite C, inputs_ids. auto 10.
Qed.
Print Assumptions C08_gradient_tensors.

(** Both theorems at work: on a graph of one tensor, [exp] adds the operand's shape and its result, [neg] only its
    result, and addition also infers a shape. *)
Example C08_functions_apply :
  let s := [Node TLeaf [] 0 None (Some "x"%string) true None None None] in
  option_map (fun r => (fst r, map (fun n => (n_diff n, n_shape n, map in_id (n_inputs n))) (tl (snd r)))) (a_un Exp 0 s)
    = Some (2, [(false, None, [0]); (true, Some 1, [0])]) /\
  option_map (fun r => (fst r, map (fun n => (n_diff n, n_shape n, map in_id (n_inputs n))) (tl (snd r)))) (a_un Neg 0 s)
    = Some (1, [(true, None, [0])]) /\
  option_map fst (a_bin Add 0 0 s) = Some 4.
Proof. vm_compute. repeat split. Qed.
