(** Property C67: gradients of graphs that look rows up with [gather]. *)
From Coq Require Import String List Arith ZArith Bool Reals Lra Lia Relations.
From Coquelicot Require Import Coquelicot.
Import ListNotations.
From Verif Require Import Graph_Model Eval_Model Eval_Spec Eval_Proofs Eval_Proofs2 Graph_Proofs Grad_Model Grad_Spec
  Grad_Examples Scalar_Model Scalar_Spec Scalar_Proofs P_Eval.
From Verif Require Import Array_Model Array_Proofs Arith_Final Vjp_Spec Vjp_Proofs Tens_Model Tens_Spec Tens_Build Tens_Lax Tens_Grad Tens_Final Tens_Rules
  Tens_Joint Tens_Examples Train_Spec Train_Proofs.
Local Open Scope R_scope.
Local Set Bullet Behavior "Strict Subproofs".

(** ** C67: gradients through [gather] *)

(** Public [grad] of a graph whose outputs may use [gather] along an axis that is
    not counted from the end and without the position -1 (C31).  [sized] instead of
    [shaped]: the gradient has the shape of [x], but the shape tensor attached to it
    may hold something else. *)
Theorem C67_grad_is_vjp :
  forall (pop : tgraph -> list nat -> option (nat * list nat)) (debug : bool) (fuel : nat)
    (ls : nat -> list nat) (ys xs : list nat) (g g' : tgraph) (l : list (nat * bool)) (log : list nat),
  twf ls g -> attached g -> (forall g, heap_pop g (pop g)) ->
  (forall y, In y ys -> uses ls g y /\ exists sh, shaped ls g y sh) ->
  NoDup xs -> (forall x, In x xs -> t_input_leaf g x) ->
  t_grad pop debug fuel ys xs g = Ok (l, g', log) ->
  twf ls g' /\ attached g' /\ (exists new, g' = g ++ new) /\
  Forall2 (fun x r => sized ls g' (fst r) (ls x) /\
     forall rho v, conform ls rho -> has_shape (ls x) v -> (forall y, In y ys -> t_smooth ls g rho x y) ->
       derivable_pt_lim
         (fun t => fold_right Rplus 0 (map (fun y => elements_sum (aval (put rho x (step (rho x) v t)) g y)) ys))
         0 (dot (aval rho g' (fst r)) v))
    xs l.
Proof.
  intros pop debug fuel ls ys xs g g' l log W A Hp Hy Nx Hx H.
  destruct (tgrad_derivative_x true pop debug fuel ys xs ls g l g' log (conj W (fun _ => A)) Hp Hy Nx Hx H) as ((W' & A') & B & D).
  split; [exact W'|]. split; [exact (A' eq_refl)|]. split; [exact B|]. exact D.
Qed.
Print Assumptions C67_grad_is_vjp.

(** All variables at once. *)
Theorem C67_total_derivative :
  forall (pop : tgraph -> list nat -> option (nat * list nat)) (debug : bool) (fuel : nat)
    (ls : nat -> list nat) (ys xs : list nat) (g g' : tgraph) (l : list (nat * bool)) (log : list nat)
    (rho dir : nat -> arr R),
  twf ls g -> attached g -> (forall g, heap_pop g (pop g)) ->
  (forall y, In y ys -> uses ls g y /\ exists sh, shaped ls g y sh) ->
  NoDup xs -> (forall x, In x xs -> t_input_leaf g x) ->
  t_grad pop debug fuel ys xs g = Ok (l, g', log) ->
  conform ls rho -> (forall x y, In x xs -> In y ys -> t_smooth ls g rho x y) ->
  (forall x, In x xs -> has_shape (ls x) (dir x)) ->
  derivable_pt_lim (fun t => total_loss (move rho xs dir t) g ys) 0
    (fold_right Rplus 0 (map (fun p => dot (aval rho g' (fst (snd p))) (dir (fst p))) (combine xs l))).
Proof.
  intros pop debug fuel ls ys xs g g' l log rho dir W A Hp Hy Nx Hx H C Hs Hd.
  exact (total_derivative_x true pop debug fuel ls ys xs g g' l log (conj W (fun _ => A)) Hp Hy Nx Hx H rho C Hs dir Hd).
Qed.
Print Assumptions C67_total_derivative.

(** Evaluating the returned tensor gives that array, in the shape of [x]. *)
Theorem C67_evaluated_gradient :
  forall (pop : tgraph -> list nat -> option (nat * list nat)) (debug : bool) (fuel fuel2 : nat)
    (ls : nat -> list nat) (ys : list nat) (x t : nat) (b : bool) (g g' : tgraph) (log : list nat)
    (feeds : list (ph_key * tv)) (env : list tv) (rho : nat -> arr R) (oc : @outcome tv unit),
  twf ls g -> attached g -> (forall g, heap_pop g (pop g)) ->
  (forall y, In y ys -> uses ls g y /\ exists sh, shaped ls g y sh) -> t_input_leaf g x ->
  t_grad pop debug fuel ys [x] g = Ok ([(t, b)], g', log) ->
  (forall y, In y ys -> t_smooth ls g rho x y) ->
  conform ls rho -> t_leaf_values g' feeds env rho ->
  eval tv_shape tens_compute debug g' feeds fuel2 [t] env = Ok oc ->
  exists gx, oc_results oc = [inl (TA gx)] /\ has_shape (ls x) gx /\
    forall v, has_shape (ls x) v ->
      derivable_pt_lim
        (fun t => fold_right Rplus 0 (map (fun y => elements_sum (aval (put rho x (step (rho x) v t)) g y)) ys))
        0 (dot gx v).
Proof.
  intros pop debug fuel fuel2 ls ys x t b g g' log feeds env rho oc W A Hp Hy Hx H Hs C HL He.
  apply (C67_grad_is_vjp pop debug fuel ls ys [x]) in H; auto.
  2: { constructor; [intros []|constructor]. }
  2: { intros z [<-|[]]; auto. }
  destruct H as (W1 & A1 & G1 & F1). inversion F1 as [|? ? ? ? [N1 D1] _]; subst. simpl in N1, D1.
  exists (aval rho g' t). split; [|split].
  - destruct (twf_graph ls g' W1) as [Wg Ac]. apply eval_only_values in He; auto.
    + destruct He as (HF & _). inversion HF as [|? r ? l Hr Hl]; subst. inversion Hl; subst. f_equal.
      eapply tensor_value_fun; [exact Hr|].
      exact (loose_tensor_value_x true ls g' (twf_loose ls g' W1) debug feeds env rho C HL t (ls x) N1).
    + intros z [<-|[]]. eapply wtyped_lt; exact N1.
    + intros i n p vid _ Hn (inc & m & Hi & Hm & _).
      rewrite (twf_mut ls g' W1 i n inc Hn (nth_error_In _ _ Hi)) in Hm. discriminate.
  - apply (wtyped_aval ls true rho g' t (ls x) C N1).
  - intros v Hv. apply D1; auto.
Qed.
Print Assumptions C67_evaluated_gradient.

(** [shape] of such a gradient is wrong: for rows of a table, a matrix in variable 0,
    it holds the number of positions instead of the table's shape, whatever the
    positions and the table. *)
Definition rows_graph (idx : list Z) : tgraph :=
  match tbind (a_ints idx) (fun i => tmk [i; 0%nat] None true (TGather false 0)) [t_var 0] with
  | Some (_, g) => g
  | None => []
  end.
Lemma rows_facts idx n m : idx <> [] -> (forall z, In z idx -> (0 <= z < Z.of_nat n)%Z) ->
  let ls := fun _ : nat => [n; m] in
  twf ls (rows_graph idx) /\ attached (rows_graph idx) /\ uses ls (rows_graph idx) 3 /\ shaped ls (rows_graph idx) 3 [length idx; m].
Proof.
  intros Hi Hr ls.
  assert (W0 : twf ls [t_var 0]) by (apply twf_b_sound; reflexivity).
  destruct (a_ints idx [t_var 0]) as [[i g1]|] eqn:E1; [|discriminate].
  destruct (a_ints_spec ls idx _ _ _ W0 E1) as (W1 & G1 & T1 & _).
  assert (E2 : tmk [i; 0%nat] None true (TGather false 0) g1 = Some (3%nat, rows_graph idx)) by (inv E1; reflexivity).
  assert (T0 : typed ls g1 0 (TyA (ls 0%nat))) by (inv E1; reflexivity).
  assert (Hg : gather_ty false 0 idx [n; m] = Some [length idx; m]).
  { unfold gather_ty. change (Softmax_Model.axis_of (length [n; m]) 0) with (Some 0%nat). cbn [nth].
    replace (negb (length idx =? 0)%nat) with true by (destruct idx; [congruence|reflexivity]).
    replace (forallb (named false n) idx) with true; [reflexivity|]. symmetry. apply forallb_forall. intros z Hz.
    specialize (Hr z Hz). unfold named. lia. }
  destruct (tmk_spec ls [i; 0%nat] None true (TGather false 0) [TyI idx; TyA [n; m]] (TyA [length idx; m]) _ _ _ W1 ltac:(discriminate) E2) as (W2 & G2 & T2 & _).
  { constructor; [exact T1|]. constructor; [exact T0|constructor]. }
  { cbn [op_ty]. rewrite Hg. reflexivity. }
  { discriminate. }
  split; [exact W2|]. split; [|split].
  - intros k nd t Hk Hs. destruct k as [|[|[|[|k]]]]; cbn in Hk; try (injection Hk as <-; cbn in Hs; try discriminate; injection Hs as <-; cbn; lia).
    destruct k; discriminate.
  - intros k nd ts _ Hk HL. destruct k as [|[|[|[|k]]]]; cbn in Hk.
    + injection Hk as <-. cbn in HL. injection HL as <-. reflexivity.
    + injection Hk as <-. cbn in HL. injection HL as <-. reflexivity.
    + injection Hk as <-. cbn in HL. injection HL as <-. reflexivity.
    + injection Hk as <-. assert (Ei : i = 2%nat) by (inv E1; reflexivity). subst i.
      pose proof (grows_typed ls _ _ _ _ G2 T1) as U1. pose proof (grows_typed ls _ _ _ _ G2 T0) as U0. unfold typed in U0, U1.
      rewrite (typed_lookups ls (rows_graph idx) 3 _ [TyI idx; TyA [n; m]]) in HL.
      2: { constructor; [split; [reflexivity|split; [cbn; lia|exact U1]]|]. constructor; [split; [reflexivity|split; [cbn; lia|exact U0]]|constructor]. }
      injection HL as <-. cbn. apply forallb_forall. intros z Hz. specialize (Hr z Hz). lia.
    + destruct k; discriminate.
  - exact T2.
Qed.
Theorem C67_attached_shape_refuted :
  forall (idx : list Z) (n m : nat) (rho : nat -> arr R),
  idx <> [] -> (forall z, In z idx -> (0 <= z < Z.of_nat n)%Z) -> conform (fun _ => [n; m]) rho ->
  exists t g' log st,
    t_grad (@max_pop top) true 100 [3%nat] [0%nat] (rows_graph idx) = Ok ([(t, true)], g', log) /\
    has_shape [n; m] (aval rho g' t) /\
    a_shape_of t g' = Some (st, g') /\ nth_error (tvalues rho g') st = Some (Some (TI [Z.of_nat (length idx)])).
Proof.
  intros idx n m rho Hi Hr C. destruct (rows_facts idx n m Hi Hr) as (W & A & U & S).
  set (r := t_grad (@max_pop top) true 100 [3%nat] [0%nat] (rows_graph idx)).
  assert (E : exists t g' log, r = Ok ([(t, true)], g', log)) by (do 3 eexists; vm_compute; reflexivity).
  destruct E as (t & g' & log & E). exists t, g', log, 1%nat. split; [exact E|].
  destruct (C67_grad_is_vjp (@max_pop top) true 100 (fun _ => [n; m]) [3%nat] [0%nat] (rows_graph idx) g' [(t, true)] log W A) as (W' & A' & G & F).
  - intros g. apply max_pop_ok.
  - intros y [<-|[]]. split; [exact U|]. eauto.
  - repeat constructor; intros [].
  - intros x [<-|[]]. eexists; repeat split; reflexivity.
  - exact E.
  - inversion F as [|? ? ? ? [T _] _]; subst. cbn [fst] in T. split; [apply (wtyped_aval _ true rho g' t _ C T)|]. split.
    + clear - E. revert E. unfold r. intros E. vm_compute in E. injection E as <- <- _. reflexivity.
    + rewrite (tvalues_prefix rho (rows_graph idx) g' 1 G) by (cbn; lia). reflexivity.
Qed.
Print Assumptions C67_attached_shape_refuted.

(** Looking up three of four rows, one of them twice, and multiplying by weights:
    [sum (table[idx] w)^2]. *)
Definition look_ls (i : nat) : list nat := match i with 0%nat => [4%nat; 2%nat] | 1%nat => [2%nat; 1%nat] | _ => [] end.
Definition look_build : tbld nat :=
  tbind (a_ints [1; 3; 1]%Z) (fun i => tbind (tmk [i; 0%nat] None true (TGather false 0)) (fun rows =>
  tbind (tmk [rows; 1%nat] None true (TMatMul false false)) (fun h => a_un Square h))).
Definition look_start : tgraph := [t_var 0; t_var 1].
Definition look_graph : tgraph := match look_build look_start with Some (_, g) => g | None => [] end.
Definition look_y : nat := match look_build look_start with Some (y, _) => y | None => 0%nat end.
Definition look_result := t_grad (@max_pop top) true 200 [look_y] [0%nat; 1%nat] look_graph.
Definition uses_b (ls : nat -> list nat) (g : tgraph) : bool :=
  let tys := ttypes ls g in
  on_nodes g (fun _ n => match lookups tys (n_inputs n) with Some ts => op_use true (n_op n) ts | None => true end).
Lemma uses_b_sound ls g y : uses_b ls g = true -> uses ls g y.
Proof.
  intros H i n ts _ Hn HL. pose proof (on_nodes_sound _ _ H i n Hn) as A. cbv beta in A. rewrite HL in A. exact A.
Qed.
Definition attached_b (g : tgraph) : bool :=
  on_nodes g (fun _ n => match n_shape n with Some t => (t <? length g)%nat | None => true end).
Lemma attached_b_sound g : attached_b g = true -> attached g.
Proof.
  intros H i n t Hn Hs. pose proof (on_nodes_sound _ _ H i n Hn) as A. cbv beta in A. rewrite Hs in A. apply Nat.ltb_lt in A. exact A.
Qed.
Example C67_hypotheses_met :
  twf look_ls look_graph /\ attached look_graph /\ (forall g : tgraph, heap_pop g (max_pop g)) /\
  uses look_ls look_graph look_y /\ ~ fits look_ls look_graph look_y /\ shaped look_ls look_graph look_y [3%nat; 1%nat] /\
  t_input_leaf look_graph 0 /\ t_input_leaf look_graph 1 /\
  (exists log, t_grad (@max_pop top) true 200 [look_y] [0%nat; 1%nat] look_graph
               = Ok (res_tensors look_result, res_graph look_result, log)) /\
  (forall rho x, t_smooth look_ls look_graph rho x look_y) /\
  (forall rho, t_leaf_values (res_graph look_result) [] (map (fun i => TA (rho i)) (seq 0 2)) rho) /\
  (forall (rho : nat -> arr R) a0 a1 b0 b1 c0 c1 d0 d1 e f,
     rho 0%nat = Arr [4%nat; 2%nat] [a0; a1; b0; b1; c0; c1; d0; d1] -> rho 1%nat = Arr [2%nat; 1%nat] [e; f] ->
     exists t u, res_tensors look_result = [(t, true); (u, true)] /\
       aval rho (res_graph look_result) t =
         Arr [4%nat; 2%nat] [0; 0; 4 * (b0 * e + b1 * f) * e; 4 * (b0 * e + b1 * f) * f; 0; 0; 2 * (d0 * e + d1 * f) * e; 2 * (d0 * e + d1 * f) * f]).
Proof.
  split; [apply twf_b_sound; vm_compute; reflexivity|]. split; [apply attached_b_sound; vm_compute; reflexivity|].
  split; [intros; apply max_pop_ok|]. split; [apply uses_b_sound; vm_compute; reflexivity|].
  split; [intros F|].
  { assert (D : depends look_graph look_y 4).
    { assert (St : forall i j, match nth_error look_graph i with Some n => existsb (fun inc => in_id inc =? j)%nat (n_inputs n) | None => false end = true -> depends look_graph i j).
      { intros i j H. apply rt_step. destruct (nth_error look_graph i) as [n|] eqn:En; [|discriminate]. apply existsb_exists in H.
        destruct H as (inc & Hi & He). apply Nat.eqb_eq in He. exists n, inc. auto. }
      eapply rt_trans; apply St with (j := 5%nat) || apply St; vm_compute; reflexivity. }
    specialize (F 4%nat _ _ D eq_refl eq_refl). discriminate. }
  split; [vm_compute; reflexivity|].
  split; [eexists; repeat split; reflexivity|]. split; [eexists; repeat split; reflexivity|].
  split.
  { assert (B : is_ok look_result = true) by (vm_compute; reflexivity).
    assert (Q : look_result = t_grad (@max_pop top) true 200 [look_y] [0%nat; 1%nat] look_graph) by reflexivity.
    rewrite <- Q. apply is_ok_sound. exact B. }
  split; [intros; apply t_smooth_b_sound; vm_compute; reflexivity|].
  split; [intros; apply var_leaves_sound; vm_compute; reflexivity|].
  intros rho a0 a1 b0 b1 c0 c1 d0 d1 e f H0 H1.
  exists (match res_tensors look_result with (t, _) :: _ => t | _ => 0%nat end), (match res_tensors look_result with _ :: (t, _) :: _ => t | _ => 0%nat end).
  split; [vm_compute; reflexivity|].
  cbv -[Rplus Rmult IZR]; rewrite ?H0, ?H1; cbv -[Rplus Rmult IZR]; f_equal; repeat (apply f_equal2; [ring|]); reflexivity.
Qed.
