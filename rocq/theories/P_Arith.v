(** C18: broadcasting gradients.  C19: elementwise arithmetic. *)
From Coq Require Import List Arith Bool Lia Reals Lra RealField ZArith.
Import ListNotations.
From Verif Require Import Eval_Proofs Array_Model Array_Proofs Array_Sum Arith_Model Broadcast_Spec Arith_Proofs Vjp_Spec Vjp_Proofs Arith_Final.
Local Open Scope R_scope.

(** What is assumed of [x[IxDyn(&[])]]: on a rank-0 array the element; on an
    array of shape [1] a panic or the element.  Nothing on other shapes. *)
Definition index_empty_ok {A} (zero : A) (at_empty : arr A -> option A) : Prop :=
  (forall a, length (a_data a) = 1%nat -> a_shape a = [] -> at_empty a = Some (hd zero (a_data a))) /\
  (forall a, length (a_data a) = 1%nat -> a_shape a = [1%nat] -> at_empty a = None \/ at_empty a = Some (hd zero (a_data a))).
Lemma index_empty_at {A} (zero : A) at_empty : index_empty_ok zero at_empty -> at_empty_ok zero at_empty.
Proof.
  intros [H1 H2].
  assert (Q : forall (a : arr A) k, aget zero a k = nth (ravel (a_shape a) k) (a_data a) zero) by reflexivity.
  split; intros a W S; unfold wf in W; rewrite S in W; simpl in W.
  - rewrite (H1 a W S), Q, S. simpl. destruct (a_data a); reflexivity.
  - destruct (H2 a W S) as [E|E]; [left; exact E|right]. rewrite E, Q, S. simpl. destruct (a_data a); reflexivity.
Qed.

(** ** C18 *)

(** The gradient of each operation with respect to the left operand, if that
    operand has the result's rank or is rank 0. *)
Theorem C18_left_operand : forall at_empty x0 x1 gy r,
  index_empty_ok 0 at_empty ->
  has_shape (a_shape x0) x0 -> has_shape (a_shape x1) x1 -> has_shape r gy ->
  broadcasts (a_shape x0) (a_shape x1) r -> prod r <> 0%nat ->
  (length (a_shape x0) = length r \/ a_shape x0 = []) ->
  (exists gx, fst (radd_g x0 x1 gy) = Some gx /\ vjp (fun a => radd_f at_empty a x1) x0 gy gx) /\
  (exists gx, fst (rsub_g x0 x1 gy) = Some gx /\ vjp (fun a => rsub_f at_empty a x1) x0 gy gx) /\
  (exists gx, fst (rmul_g at_empty x0 x1 gy) = Some gx /\ vjp (fun a => rmul_f at_empty a x1) x0 gy gx) /\
  (a_shape x1 <> [1%nat] ->
   exists gx, fst (rdiv_g at_empty x0 x1 gy) = Some gx /\ vjp (fun a => rdiv_f at_empty a x1) x0 gy gx).
Proof.
  intros at_empty x0 x1 gy r AE H0 H1 Hg B P K. apply index_empty_at in AE.
  apply has_shape_wf in H0. apply has_shape_wf in H1. destruct H0 as [_ W0], H1 as [_ W1].
  split; [apply (add_grad_l at_empty AE x0 x1 gy r); auto|].
  split; [apply (sub_grad_l at_empty AE x0 x1 gy r); auto|].
  split; [apply (mul_grad_l at_empty AE x0 x1 gy r); auto|].
  intros N. apply (div_grad_l at_empty AE x0 x1 gy r); auto.
Qed.
Print Assumptions C18_left_operand.

Theorem C18_right_operand : forall at_empty x0 x1 gy r,
  index_empty_ok 0 at_empty ->
  has_shape (a_shape x0) x0 -> has_shape (a_shape x1) x1 -> has_shape r gy ->
  broadcasts (a_shape x0) (a_shape x1) r -> prod r <> 0%nat ->
  (length (a_shape x1) = length r \/ a_shape x1 = []) ->
  (exists gx, snd (radd_g x0 x1 gy) = Some gx /\ vjp (fun a => radd_f at_empty x0 a) x1 gy gx) /\
  (exists gx, snd (rsub_g x0 x1 gy) = Some gx /\ vjp (fun a => rsub_f at_empty x0 a) x1 gy gx) /\
  (exists gx, snd (rmul_g at_empty x0 x1 gy) = Some gx /\ vjp (fun a => rmul_f at_empty x0 a) x1 gy gx) /\
  (a_shape x1 <> [1%nat] -> List.Forall (fun z => z <> 0) (a_data x1) ->
   exists gx, snd (rdiv_g at_empty x0 x1 gy) = Some gx /\ vjp (fun a => rdiv_f at_empty x0 a) x1 gy gx).
Proof.
  intros at_empty x0 x1 gy r AE H0 H1 Hg B P K. apply index_empty_at in AE.
  apply has_shape_wf in H0. apply has_shape_wf in H1. destruct H0 as [_ W0], H1 as [_ W1].
  split; [apply (add_grad_r at_empty AE x0 x1 gy r); auto|].
  split; [apply (sub_grad_r at_empty AE x0 x1 gy r); auto|].
  split; [apply (mul_grad_r at_empty AE x0 x1 gy r); auto|].
  intros N NZ. apply (div_grad_r at_empty AE x0 x1 gy r); auto.
  intros j Hj. rewrite Forall_forall in NZ. apply NZ. unfold aget. apply nth_In. rewrite W1. apply ravel_lt. exact Hj.
Qed.
Print Assumptions C18_right_operand.

(** Second order: the operation that reduces a gradient and the operation that
    broadcasts one are each other's gradients. *)
Theorem C18_second_order : forall big small other,
  broadcasts small other big -> prod big <> 0%nat -> (length small = length big \/ small = []) ->
  (forall x gy, has_shape big x -> has_shape small gy ->
     exists gx, maybe_reduce_grad 0 x gy = Some gx /\ vjp (maybe_reduce 0 Rplus small) x gy gx) /\
  (forall x gy, has_shape small x -> has_shape big gy ->
     exists gx, maybe_broadcast_grad 0 Rplus x gy = Some gx /\ vjp (maybe_broadcast 0 big) x gy gx).
Proof.
  intros big small other B P K. pose proof (broadcasts_reducible _ _ _ B P K) as R. split.
  - intros x gy Hx Hg. apply has_shape_wf in Hx. destruct Hx as [S W]. apply reduce_vjp; auto. rewrite S. exact R.
  - intros x gy Hx Hg. apply has_shape_wf in Hx. destruct Hx as [S W]. apply broadcast_vjp; auto. rewrite S. exact R.
Qed.
Print Assumptions C18_second_order.

(** There is at most one array that satisfies [vjp]. *)
Theorem C18_gradient_unique : forall F x gy g g', vjp F x gy g -> vjp F x gy g' -> g = g'.
Proof. exact vjp_unique. Qed.
Print Assumptions C18_gradient_unique.

(** Operands of unequal rank: a vector added to a matrix evaluates, its gradient
    panics (unless the vector's length is 1 or the number of rows). *)
Theorem C18_unequal_rank_panics : forall at_empty n m x0 x1 gy,
  index_empty_ok 0 at_empty -> n <> 0%nat -> m <> 0%nat -> n <> 1%nat -> n <> m ->
  has_shape [n] x0 -> has_shape [m; n] x1 -> has_shape [m; n] gy ->
  (exists y, radd_f at_empty x0 x1 = Some y /\ has_shape [m; n] y) /\
  fst (radd_g x0 x1 gy) = None.
Proof.
  intros at_empty n m x0 x1 gy AE N0 M0 N1 NM H0 H1 Hg. apply index_empty_at in AE.
  apply has_shape_wf in H0. apply has_shape_wf in H1. destruct H0 as [S0 W0], H1 as [S1 W1].
  assert (E : co_broadcast (a_shape x0) (a_shape x1) = Some [m; n]).
  { rewrite S0, S1. unfold co_broadcast. simpl. rewrite Nat.eqb_refl. reflexivity. }
  split.
  - destruct (bin_forward_ok 0 at_empty AE Rplus x0 x1 [m; n]) as (y & Ey & Sy & Wy & _); auto.
    + intros; ring.
    + apply prod_pos. repeat constructor; auto.
    + exists y. split; [exact Ey|]. apply has_shape_wf. auto.
  - unfold add_grad. simpl. rewrite S0. unfold maybe_reduce. rewrite (proj1 Hg).
    destruct (shape_eqb [n] [m; n]) eqn:Q; [apply shape_eqb_ok in Q; discriminate|].
    assert (NS : is_scalar_shape [n] = false).
    { unfold is_scalar_shape. destruct (shape_eqb [n] []) eqn:Q1; [apply shape_eqb_ok in Q1; discriminate|].
      destruct (shape_eqb [n] [0%nat]) eqn:Q2; [apply shape_eqb_ok in Q2; congruence|reflexivity]. }
    rewrite NS, Q. simpl. destruct (Nat.eqb_spec n 1); [contradiction|]. simpl. destruct (Nat.eqb_spec n m); [contradiction|]. reflexivity.
Qed.
Print Assumptions C18_unequal_rank_panics.

(** ... and for some shapes the gradient is silently wrong: it is summed over the
    leading axes instead of the ones that were broadcast. *)
Definition wrong_x0 : arr R := tab [1;2;1]%nat (fun _ => 0).
Definition wrong_x1 : arr R := tab [3;2;2;1]%nat (fun _ => 0).
Definition wrong_gy : arr R := tab [3;2;2;1]%nat (fun i => if Nat.eqb (nth 1 i 0%nat) 0 then 1 else 0).
Theorem C18_unequal_rank_refuted :
  exists gx, fst (radd_g wrong_x0 wrong_x1 wrong_gy) = Some gx /\
    forall at_empty, index_empty_ok 0 at_empty -> ~ vjp (fun a => radd_f at_empty a wrong_x1) wrong_x0 wrong_gy gx.
Proof.
  eexists. split; [reflexivity|]. intros at_empty AE V. apply index_empty_at in AE.
  assert (V' : vjp (fun a => radd_f at_empty a wrong_x1) wrong_x0 wrong_gy (tab [1;2;1]%nat (fun _ => 3))).
  { apply (vjp_elementwise _ _ _ _ (bc_idx [1;2;1]%nat) (fun i a => a + 0) (fun _ => 1)); try apply tab_wf; try reflexivity.
    - intros i Hi. apply (bc_bounds _ [3;2;2;1]%nat); [reflexivity|exact Hi].
    - intros x' Hx'. apply has_shape_wf in Hx'. destruct Hx' as [Sx Wx].
      destruct (bin_forward_ok 0 at_empty AE Rplus x' wrong_x1 [3;2;2;1]%nat) as (y & Ey & Sy & Wy & Py); auto; try apply tab_wf.
      + intros; ring.
      + rewrite Sx. reflexivity.
      + discriminate.
      + exists y. split; [exact Ey|]. split; [apply has_shape_wf; auto|]. intros i Hi. rewrite Py by (rewrite Sy; exact Hi).
        rewrite Sx. f_equal. unfold wrong_x1. rewrite aget_tab; [reflexivity|]. simpl. rewrite bc_idx_self; exact Hi.
    - intros i _. apply d_add_l.
    - intros j Hj. simpl a_shape in *. apply indices_in in Hj. cbn in Hj. destruct Hj as [<-|[<-|[]]]; cbn; lra. }
  pose proof (vjp_unique _ _ _ _ _ V V') as E. apply (f_equal (fun a => nth 0 (a_data a) 0)) in E. cbn in E. lra.
Qed.
Print Assumptions C18_unequal_rank_refuted.

(** Broadcasting against an axis of length zero: the value is the empty array,
    the gradient panics. *)
Theorem C18_empty_axis_refuted :
  exists x0 x1 gy : arr R, has_shape [1;2]%nat x0 /\ has_shape [0;2]%nat x1 /\ has_shape [0;2]%nat gy /\
    (forall at_empty, radd_f at_empty x0 x1 = Some (Arr [0;2]%nat [])) /\ fst (radd_g x0 x1 gy) = None.
Proof.
  exists (Arr [1;2]%nat [1;2]), (Arr [0;2]%nat []), (Arr [0;2]%nat []).
  repeat split; try reflexivity.
Qed.
Print Assumptions C18_empty_axis_refuted.

Definition first_element (a : arr R) : option R := hd_error (a_data a).
Lemma first_element_ok : index_empty_ok 0 first_element.
Proof.
  split; intros a L S; [|right]; unfold first_element; destruct (a_data a); try discriminate; reflexivity.
Qed.
(** A 2x1 column times a 1x3 row: the column's gradient is the row sums of gy*row. *)
Example C18_hypotheses_met :
  let x0 := Arr [2;1]%nat [1;2] in let x1 := Arr [1;3]%nat [10;20;30] in let gy := Arr [2;3]%nat [1;2;3;4;5;6] in
  index_empty_ok 0 first_element /\ has_shape (a_shape x0) x0 /\ has_shape (a_shape x1) x1 /\ has_shape [2;3]%nat gy /\
  broadcasts (a_shape x0) (a_shape x1) [2;3]%nat /\ prod [2;3]%nat <> 0%nat /\
  length (a_shape x0) = length [2;3]%nat /\ length (a_shape x1) = length [2;3]%nat /\
  a_shape x1 <> [1%nat] /\ List.Forall (fun z => z <> 0) (a_data x1) /\
  fst (rmul_g first_element x0 x1 gy) = Some (Arr [2;1]%nat [140; 320]) /\
  snd (rmul_g first_element x0 x1 gy) = Some (Arr [1;3]%nat [9; 12; 15]) /\
  snd (rdiv_g first_element x0 x1 gy) = Some (Arr [1;3]%nat [- (9 / 100); - (12 / 400); - (15 / 900)]).
Proof.
  cbv zeta. split; [apply first_element_ok|]. repeat split; try reflexivity; try discriminate.
  - apply (co_broadcast_spec [2;1]%nat [1;3]%nat). reflexivity.
  - repeat constructor; lra.
  - cbn. repeat f_equal; lra.
  - cbn. repeat f_equal; lra.
  - cbn. unfold rpowm2. f_equal. f_equal. repeat (apply (f_equal2 (@cons R)); [field|]). reflexivity.
Qed.

(** ** C19 *)
Section Generic.
  Context {A : Type} (zero one : A) (add sub mul div : A -> A -> A) (at_empty : arr A -> option A).
  (** [y] is the elementwise result of [op] on the broadcast operands. *)
  Definition elementwise (op : A -> A -> A) (x0 x1 : arr A) (y : arr A) : Prop :=
    length (a_data y) = prod (a_shape y) /\
    forall i j0 j1, in_bounds (a_shape y) i -> refers (a_shape x0) i j0 -> refers (a_shape x1) i j1 ->
      aget zero y i = op (aget zero x0 j0) (aget zero x1 j1).

  Lemma pointwise_elementwise op x0 x1 y : broadcasts (a_shape x0) (a_shape x1) (a_shape y) ->
    pointwise zero op x0 x1 y -> elementwise op x0 x1 y.
  Proof.
    intros [L _] [W H]. split; [exact W|]. intros i j0 j1 Hi R0 R1. rewrite H by exact Hi.
    pose proof (in_bounds_length _ _ Hi) as Li.
    assert (L0 : (length (a_shape x0) <= length i)%nat) by lia.
    assert (L1 : (length (a_shape x1) <= length i)%nat) by lia.
    rewrite (refers_bc _ _ _ L0 R0), (refers_bc _ _ _ L1 R1). reflexivity.
  Qed.
End Generic.

(** Every element is the operation on the operands' elements, for any element
    type with the stated laws (so also for floats, except that division by a
    rank-0 array multiplies by the reciprocal). *)
Theorem C19_elementwise : forall (A : Type) (zero one : A) (add sub mul div : A -> A -> A) at_empty x0 x1 r,
  index_empty_ok zero at_empty ->
  length (a_data x0) = prod (a_shape x0) -> length (a_data x1) = prod (a_shape x1) ->
  broadcasts (a_shape x0) (a_shape x1) r -> prod r <> 0%nat ->
  ((forall a b, add a b = add b a) ->
     exists y, add_forward zero add at_empty x0 x1 = Some y /\ a_shape y = r /\ elementwise zero add x0 x1 y) /\
  ((forall a b, mul a b = mul b a) ->
     exists y, mul_forward zero mul at_empty x0 x1 = Some y /\ a_shape y = r /\ elementwise zero mul x0 x1 y) /\
  (exists y, sub_forward zero sub at_empty x0 x1 = Some y /\ a_shape y = r /\ elementwise zero sub x0 x1 y) /\
  ((forall a b, mul a (div one b) = div a b) -> a_shape x1 <> [1%nat] ->
     exists y, div_forward zero one mul div at_empty x0 x1 = Some y /\ a_shape y = r /\ elementwise zero div x0 x1 y).
Proof.
  intros A zero one add sub mul div at_empty x0 x1 r AE W0 W1 B P. apply index_empty_at in AE.
  pose proof (proj2 (co_broadcast_iff _ _ _) B) as E.
  split; [|split; [|split]].
  - intros C. destruct (bin_forward_ok zero at_empty AE add x0 x1 r C W0 W1 E P) as (y & Ey & Sy & Py).
    exists y. split; [exact Ey|]. split; [exact Sy|]. apply pointwise_elementwise; [rewrite Sy; exact B|exact Py].
  - intros C. destruct (bin_forward_ok zero at_empty AE mul x0 x1 r C W0 W1 E P) as (y & Ey & Sy & Py).
    exists y. split; [exact Ey|]. split; [exact Sy|]. apply pointwise_elementwise; [rewrite Sy; exact B|exact Py].
  - destruct (sub_forward_ok zero sub at_empty AE x0 x1 r W0 W1 E) as (y & Ey & Sy & Py).
    exists y. split; [exact Ey|]. split; [exact Sy|]. apply pointwise_elementwise; [rewrite Sy; exact B|exact Py].
  - intros D N. destruct (div_forward_ok zero one mul div at_empty AE x0 x1 r D W0 W1 E P N) as (y & Ey & Sy & Py).
    exists y. split; [exact Ey|]. split; [exact Sy|]. apply pointwise_elementwise; [rewrite Sy; exact B|exact Py].
Qed.
Print Assumptions C19_elementwise.

Theorem C19_commutative : forall (A : Type) (zero : A) (op : A -> A -> A) at_empty x0 x1 r,
  index_empty_ok zero at_empty -> (forall a b, op a b = op b a) ->
  length (a_data x0) = prod (a_shape x0) -> length (a_data x1) = prod (a_shape x1) ->
  broadcasts (a_shape x0) (a_shape x1) r -> prod r <> 0%nat ->
  bin_forward zero at_empty op x0 x1 = bin_forward zero at_empty op x1 x0.
Proof.
  intros A zero op at_empty x0 x1 r AE C W0 W1 B P. apply index_empty_at in AE.
  pose proof (proj2 (co_broadcast_iff _ _ _) B) as E. pose proof (proj2 (co_broadcast_iff _ _ _) (broadcasts_sym _ _ _ B)) as E'.
  destruct (bin_forward_ok zero at_empty AE op x0 x1 r C W0 W1 E P) as (y & Ey & Sy & Wy & Py).
  destruct (bin_forward_ok zero at_empty AE op x1 x0 r C W1 W0 E' P) as (z & Ez & Sz & Wz & Pz).
  rewrite Ey, Ez. f_equal. apply (arr_ext zero); auto; [congruence|]. intros i Hi.
  rewrite Py by exact Hi. rewrite Pz by (rewrite Sz, <- Sy; exact Hi). apply C.
Qed.
Print Assumptions C19_commutative.

(** Shapes that do not broadcast panic. *)
Theorem C19_incompatible_shapes : forall (A : Type) (zero one : A) (op sub mul div : A -> A -> A) at_empty x0 x1,
  length (a_data x0) = prod (a_shape x0) -> length (a_data x1) = prod (a_shape x1) ->
  (forall r, ~ broadcasts (a_shape x0) (a_shape x1) r) ->
  a_shape x0 <> [0%nat] -> a_shape x1 <> [0%nat] -> a_shape x1 <> [1%nat] ->
  bin_forward zero at_empty op x0 x1 = None /\ sub_forward zero sub at_empty x0 x1 = None /\
  div_forward zero one mul div at_empty x0 x1 = None.
Proof.
  intros A zero one op sub mul div at_empty x0 x1 W0 W1 B N0 N1 N2.
  destruct (co_broadcast (a_shape x0) (a_shape x1)) as [r|] eqn:E; [exfalso; apply (B r); apply co_broadcast_iff; exact E|].
  destruct (forward_none zero one sub mul div at_empty op x0 x1 W0 W1 E N0 N1) as (H1 & H2 & H3). auto.
Qed.
Print Assumptions C19_incompatible_shapes.

(** Division by a one-element vector: if ndarray accepts the empty index the
    result is elementwise, otherwise it panics. *)
Theorem C19_one_element_divisor : forall (A : Type) (zero one : A) (mul div : A -> A -> A) at_empty x0 x1,
  index_empty_ok zero at_empty -> (forall a b, mul a (div one b) = div a b) ->
  length (a_data x0) = prod (a_shape x0) -> length (a_data x1) = prod (a_shape x1) ->
  a_shape x1 = [1%nat] -> a_shape x0 <> [] -> prod (a_shape x0) <> 0%nat ->
  match div_forward zero one mul div at_empty x0 x1 with
  | None => True
  | Some y => a_shape y = a_shape x0 /\ elementwise zero div x0 x1 y
  end.
Proof.
  intros A zero one mul div at_empty x0 x1 AE D W0 W1 S1 N0 P. apply index_empty_at in AE.
  destruct (div_forward _ _ _ _ _ _ _) as [y|] eqn:E; [|exact I].
  destruct (div_forward_one zero one mul div at_empty AE x0 x1 y D W0 W1 S1 N0 P E) as [Sy Py].
  split; [exact Sy|]. apply pointwise_elementwise; [|exact Py]. rewrite Sy, S1.
  apply broadcasts_sym. split.
  - simpl. destruct (a_shape x0); [contradiction|]. simpl. lia.
  - intros k Hk. cbv zeta. right. left. split; [|reflexivity]. destruct k as [|k]; [reflexivity|].
    apply from_end_out. simpl. lia.
Qed.
Print Assumptions C19_one_element_divisor.

(** The shape tensor attached to the result is the result's shape when the ranks
    agree or an operand is rank 0, and an error for unequal ranks. *)
Theorem C19_static_shape : forall a b r,
  broadcasts a b r -> prod r <> 0%nat ->
  (length a = length b \/ a = [] \/ b = [] -> infer_shape a b = Some r) /\
  (length a <> length b -> a <> [] -> b <> [] -> infer_shape a b = None).
Proof.
  intros a b r B P. pose proof (proj2 (co_broadcast_iff _ _ _) B) as E.
  pose proof (scalar_nonzero a r a b (or_introl eq_refl) E P) as Qa.
  pose proof (scalar_nonzero b r a b (or_intror eq_refl) E P) as Qb.
  unfold infer_shape. rewrite Qa, Qb. split.
  - intros K. destruct (shape_eqb a []) eqn:Ea; [apply shape_eqb_ok in Ea; subst a; simpl; rewrite co_broadcast_nil_l in E; exact E|].
    destruct (shape_eqb b []) eqn:Eb; [apply shape_eqb_ok in Eb; subst b; simpl; rewrite co_broadcast_nil_r in E; exact E|].
    simpl. destruct K as [K|[K|K]]; [|subst a; discriminate|subst b; discriminate].
    rewrite K, Nat.eqb_refl. rewrite <- E. clear - K E P. unfold co_broadcast in *. rewrite K, Nat.sub_diag in *. simpl in *.
    destruct (co_dims a b) as [r'|] eqn:E2; [|discriminate]. injection E as E. subst r'. f_equal.
    revert b r E2 P K. induction a as [|x a IH]; intros [|y b] r E P K; simpl in *; try discriminate; [congruence|].
    destruct (co_dims a b) as [r'|] eqn:E2; [|discriminate].
    assert (Pr : forall z, z :: r' = r -> z <> 0%nat /\ prod r' <> 0%nat).
    { intros z <-. simpl in P. split; intros Q; apply P; rewrite Q; [reflexivity|]. apply Nat.mul_0_r. }
    destruct (Nat.eqb_spec x y) as [->|Nxy]; [|destruct (Nat.eqb_spec x 1) as [->|Nx]; [|destruct (Nat.eqb_spec y 1) as [->|Ny]; [|discriminate]]];
      injection E as E; destruct (Pr _ E) as [Z1 Z2]; rewrite (IH b r' E2 Z2 ltac:(lia)); rewrite <- E; f_equal; lia.
  - intros K Na Nb. destruct (shape_eqb a []) eqn:Ea; [apply shape_eqb_ok in Ea; contradiction|].
    destruct (shape_eqb b []) eqn:Eb; [apply shape_eqb_ok in Eb; contradiction|]. simpl.
    destruct (Nat.eqb_spec (length a) (length b)); [contradiction|reflexivity].
Qed.
Print Assumptions C19_static_shape.

Example C19_hypotheses_met :
  let at_e := fun a : arr Z => hd_error (a_data a) in
  let x0 := Arr [3;1]%nat [1;2;3]%Z in let x1 := Arr [2]%nat [10;20]%Z in
  index_empty_ok 0%Z at_e /\ broadcasts (a_shape x0) (a_shape x1) [3;2]%nat /\
  add_forward 0%Z Z.add at_e x0 x1 = Some (Arr [3;2]%nat [11;21;12;22;13;23]%Z) /\
  sub_forward 0%Z Z.sub at_e x0 x1 = Some (Arr [3;2]%nat [-9;-19;-8;-18;-7;-17]%Z) /\
  mul_forward 0%Z Z.mul at_e x0 (Arr [] [7%Z]) = Some (Arr [3;1]%nat [7;14;21]%Z) /\
  infer_shape [3;1]%nat [1;2]%nat = Some [3;2]%nat /\ infer_shape (a_shape x0) (a_shape x1) = None /\
  add_forward 0%Z Z.add at_e (Arr [2]%nat [1;2]%Z) (Arr [3]%nat [1;2;3]%Z) = None.
Proof.
  cbv zeta. split.
  { split; intros a L S; [|right]; destruct (a_data a); try discriminate; reflexivity. }
  split; [apply (co_broadcast_spec [3;1]%nat [2]%nat); reflexivity|]. repeat split; reflexivity.
Qed.
