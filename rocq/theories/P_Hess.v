(** C56: Hessian-vector products. *)
From Coq Require Import String List Arith ZArith Bool Reals Lra Lia Relations.
From Coquelicot Require Import Coquelicot.
Import ListNotations.
From Verif Require Import Graph_Model Eval_Model Eval_Spec Eval_Proofs Grad_Model Grad_Spec Scalar_Model Scalar_Spec Grad_Examples.
From Verif Require Import Array_Model Array_Proofs Vjp_Spec Vjp_Proofs Tens_Model Tens_Spec Tens_Examples
  Second_Spec Second_Grad Hess_Model.
Local Open Scope R_scope.
Local Set Bullet Behavior "Strict Subproofs".

(** The tensors returned for [xs] are the derivatives, with respect to each [x],
    of the directional derivative of the sum of all outputs along the vectors:
    [slope j s] is the derivative along the [j]-th vector after [x] has moved
    by [s] times [u]; the derivative of the sum of the slopes at [s = 0] is the
    inner product of the returned tensor with [u]. *)
Theorem C56_hessian_vector_product :
  forall (pop : tgraph -> list nat -> option (nat * list nat)) (debug : bool) (fuel : nat)
    (ls : nat -> list nat) (ys xs vs : list nat) (g g' : tgraph) (l : list (nat * bool)) (log : list nat) (rho : nat -> arr R),
  twf ls g -> (forall g, heap_pop g (pop g)) ->
  fits2 ls g -> (forall y, In y ys -> exists sh, shaped ls g y sh) ->
  NoDup xs -> (forall x, In x xs -> t_input_leaf g x) ->
  Forall2 (fun x v => shaped ls g v (ls x)) xs vs ->
  conform ls rho -> smooth2 ls rho g ->
  t_hvp pop debug fuel ys xs vs g = Ok (l, g', log) ->
  twf ls g' /\ (exists new, g' = g ++ new) /\
  Forall2 (fun x r => shaped ls g' (fst r) (ls x) /\
    forall u eps, has_shape (ls x) u -> 0 < eps ->
      (forall s, Rabs s < eps -> smooth2 ls (put rho x (step (rho x) u s)) g) ->
      (forall v, In v vs -> ~ depends g v x) ->
      exists slope : nat -> R -> R,
        (forall s j xj vj, Rabs s < eps -> nth_error xs j = Some xj -> nth_error vs j = Some vj ->
           let at_s := put rho x (step (rho x) u s) in
           derivable_pt_lim (fun t => fold_right Rplus 0
             (map (fun y => elements_sum (aval (put at_s xj (step (at_s xj) (aval rho g vj) t)) g y)) ys)) 0 (slope j s)) /\
        derivable_pt_lim (fun s => fold_right Rplus 0 (map (fun j => slope j s) (seq 0 (length xs)))) 0
          (dot (aval rho g' (fst r)) u)) xs l.
Proof.
  intros pop debug fuel ls ys xs vs g g' l log rho W Hp F Hy Nx Hx Hv C S H.
  exact (hvp_derivative ls pop debug fuel ys xs vs g l g' log rho W Hp F Hy Nx Hx Hv C S H).
Qed.
Print Assumptions C56_hessian_vector_product.

(** ** Where it fails *)
Definition hv_start : tgraph := [t_var 0; t_var 1; t_var 2; t_var 3].
Definition hv_graph (b : tbld nat) : tgraph := match b hv_start with Some (_, g) => g | None => [] end.
Definition hv_out (b : tbld nat) : nat := match b hv_start with Some (y, _) => y | None => 0%nat end.
Definition hv_result (debug : bool) (b : tbld nat) (xs vs : list nat) :=
  t_hvp (@max_pop top) debug 400 [hv_out b] xs vs (hv_graph b).
Lemma hv_ok debug b xs vs : is_ok (hv_result debug b xs vs) = true ->
  exists log, t_hvp (@max_pop top) debug 400 [hv_out b] xs vs (hv_graph b)
    = Ok (res_tensors (hv_result debug b xs vs), res_graph (hv_result debug b xs vs), log).
Proof. intros H. apply is_ok_sound in H. exact H. Qed.
Lemma line_limit f a b : (forall t, f t = a + b * t) -> derivable_pt_lim f 0 b.
Proof.
  intros H e He. exists (mkposreal 1 Rlt_0_1). intros h Hh _. rewrite !H.
  replace ((a + b * (0 + h) - (a + b * 0)) / h - b) with 0 by (field; exact Hh). rewrite Rabs_R0. exact He.
Qed.

(** The sum of the elements of a matrix product [A B], vectors [V] for [A] and
    [W] for [B]: the derivative with respect to [A] is [1 W^T]; the code
    returns its transpose (the rule of [MatMul] ignores the flags of the
    products its own gradients consist of). *)
Definition mm_build : tbld nat := tmk [0%nat; 1%nat] None true (TMatMul false false).
Definition mm_rho (i : nat) : arr R :=
  Arr [2%nat; 2%nat] (match i with 0%nat => [1; 2; 3; 4] | 1%nat => [1; 0; 2; 1] | 2%nat => [1; 1; 0; 0] | _ => [0; 1; 0; 2] end).
Theorem C56_matmul_refuted :
  exists (ls : nat -> list nat) (g g' : tgraph) (y r0 r1 : nat) (log : list nat) (rho : nat -> arr R) (u : arr R) (slope : nat -> R -> R),
    twf ls g /\ conform ls rho /\ (forall i, (i < 4)%nat -> t_input_leaf g i) /\
    t_hvp (@max_pop top) true 400 [y] [0%nat; 1%nat] [2%nat; 3%nat] g = Ok ([(r0, true); (r1, true)], g', log) /\
    has_shape (ls 0%nat) u /\
    (forall s, let at_s := put rho 0 (step (rho 0%nat) u s) in
       derivable_pt_lim (fun t => elements_sum (aval (put at_s 0 (step (at_s 0%nat) (aval rho g 2) t)) g y)) 0 (slope 0%nat s) /\
       derivable_pt_lim (fun t => elements_sum (aval (put at_s 1 (step (at_s 1%nat) (aval rho g 3) t)) g y)) 0 (slope 1%nat s)) /\
    derivable_pt_lim (fun s => slope 0%nat s + slope 1%nat s) 0 2 /\
    aval rho g' r0 = Arr [2%nat; 2%nat] [1; 1; 2; 2] /\ dot (aval rho g' r0) u = 1.
Proof.
  exists (fun _ => [2%nat; 2%nat]), (hv_graph mm_build), (res_graph (hv_result true mm_build [0%nat; 1%nat] [2%nat; 3%nat])), (hv_out mm_build).
  destruct (hv_ok true mm_build [0%nat; 1%nat] [2%nat; 3%nat]) as (log & E); [vm_compute; reflexivity|].
  assert (L : exists r0 r1, res_tensors (hv_result true mm_build [0%nat; 1%nat] [2%nat; 3%nat]) = [(r0, true); (r1, true)] /\
     aval mm_rho (res_graph (hv_result true mm_build [0%nat; 1%nat] [2%nat; 3%nat])) r0
       = Arr [2%nat; 2%nat] [0 + 1 * 0 * 1 + 1 * 1 * 1; 0 + 1 * 0 * 1 + 1 * 1 * 1; 0 + 1 * 0 * 1 + 1 * 2 * 1; 0 + 1 * 0 * 1 + 1 * 2 * 1]).
  { eexists _, _. split; [vm_compute; reflexivity|].
    cbv -[Rplus Rmult Rminus Rdiv Rinv Ropp IZR exp ln Rlt_dec Req_EM_T]. reflexivity. }
  destruct L as (r0 & r1 & L & V).
  assert (V' : aval mm_rho (res_graph (hv_result true mm_build [0%nat; 1%nat] [2%nat; 3%nat])) r0 = Arr [2%nat; 2%nat] [1; 1; 2; 2]).
  { rewrite V. f_equal. repeat (apply f_equal2; [lra|]). reflexivity. }
  exists r0, r1, log, mm_rho, (Arr [2%nat; 2%nat] [0; 1; 0; 0]).
  exists (fun j s => match j with 0%nat => 4 | _ => 16 + 2 * s end).
  split; [apply twf_b_sound; vm_compute; reflexivity|].
  split; [intros [|[|[|i]]]; split; reflexivity|].
  split; [intros i Hi; do 4 (destruct i as [|i]; [eexists; repeat split; reflexivity|]); lia|].
  split; [rewrite E, L; reflexivity|].
  split; [split; reflexivity|].
  split; [|split; [|split; [exact V'|rewrite V'; unfold dot; simpl; ring]]].
  - intros s at_s. split.
    + apply line_limit with (a := elements_sum (aval at_s (hv_graph mm_build) (hv_out mm_build))). intros t.
      cbv -[Rplus Rmult Rminus Rdiv Rinv Ropp IZR exp ln Rlt_dec Req_EM_T]. ring.
    + apply line_limit with (a := elements_sum (aval at_s (hv_graph mm_build) (hv_out mm_build))). intros t.
      cbv -[Rplus Rmult Rminus Rdiv Rinv Ropp IZR exp ln Rlt_dec Req_EM_T]. ring.
  - apply line_limit with (a := 20). intros t. ring.
Qed.
Print Assumptions C56_matmul_refuted.

(** [elu(x) + x*x] at [x = -1], direction 1: the second derivative is
    [exp(-1) + 2]; the code returns 2 (the rule of [ELUGrad] gives no gradients).
    For [elu(x)] alone the call panics, for lack of any gradient. *)
Definition elu_only : tbld nat := a_un (ELU 1) 0.
Definition elu_build : tbld nat := tbind (a_un (ELU 1) 0) (fun e => tbind (a_bin Mul 0 0) (fun q => a_bin Add e q)).
Definition elu_rho (i : nat) : arr R := Arr [1%nat] [match i with 0%nat => -1 | _ => 1 end].
Theorem C56_elu_refuted :
  exists (ls : nat -> list nat) (g g' : tgraph) (y r : nat) (log : list nat) (rho : nat -> arr R) (u : arr R) (slope : R -> R),
    twf ls g /\ conform ls rho /\ (forall i, (i < 4)%nat -> t_input_leaf g i) /\
    t_hvp (@max_pop top) true 400 [y] [0%nat] [2%nat] g = Ok ([(r, true)], g', log) /\
    has_shape (ls 0%nat) u /\
    (forall s, Rabs s < 1 / 2 -> let at_s := put rho 0 (step (rho 0%nat) u s) in
       derivable_pt_lim (fun t => elements_sum (aval (put at_s 0 (step (at_s 0%nat) (aval rho g 2) t)) g y)) 0 (slope s)) /\
    derivable_pt_lim slope 0 (exp (-1) + 2) /\
    dot (aval rho g' r) u = 2 /\
    t_hvp (@max_pop top) true 400 [hv_out elu_only] [0%nat] [2%nat] (hv_graph elu_only) = Panic /\
    t_hvp (@max_pop top) false 400 [hv_out elu_only] [0%nat] [2%nat] (hv_graph elu_only) = Panic.
Proof.
  exists (fun _ => [1%nat]), (hv_graph elu_build), (res_graph (hv_result true elu_build [0%nat] [2%nat])), (hv_out elu_build).
  destruct (hv_ok true elu_build [0%nat] [2%nat]) as (log & E); [vm_compute; reflexivity|].
  assert (L : exists r, res_tensors (hv_result true elu_build [0%nat] [2%nat]) = [(r, true)] /\
     dot (aval elu_rho (res_graph (hv_result true elu_build [0%nat] [2%nat])) r) (Arr [1%nat] [1]) = 2).
  { eexists. split; [vm_compute; reflexivity|].
    cbv -[Rplus Rmult Rminus Rdiv Rinv Ropp IZR exp ln Rlt_dec Req_EM_T]. lra. }
  destruct L as (r & L & V).
  exists r, log, elu_rho, (Arr [1%nat] [1]), (fun s => exp (-1 + s) + 2 * (-1 + s)).
  split; [apply twf_b_sound; vm_compute; reflexivity|].
  split; [intros [|i]; split; reflexivity|].
  split; [intros i Hi; do 4 (destruct i as [|i]; [eexists; repeat split; reflexivity|]); lia|].
  split; [rewrite E, L; reflexivity|].
  split; [split; reflexivity|].
  split; [|split; [|split; [exact V|split; vm_compute; reflexivity]]].
  - intros s Hs at_s. apply is_derive_Reals.
    apply (is_derive_ext_loc (fun t : R => (exp (-1 + s + t) - 1) + (-1 + s + t) * (-1 + s + t))).
    + exists (mkposreal (1 / 2) ltac:(lra)). intros t Ht. change (Rabs (t - 0) < 1 / 2) in Ht. rewrite Rminus_0_r in Ht.
      apply Rabs_def2 in Hs. apply Rabs_def2 in Ht.
      cbv -[Rplus Rmult Rminus Rdiv Rinv Ropp IZR exp ln Rlt_dec Req_EM_T].
      match goal with |- context [Rlt_dec ?a ?b] => destruct (Rlt_dec a b) as [Q|Q] end.
      * exfalso. lra.
      * replace (-1 + s * 1 + t * 1) with (-1 + s + t) by ring. ring.
    + auto_derive; auto. rewrite Rplus_0_r. ring.
  - apply is_derive_Reals. auto_derive; auto. rewrite Rplus_0_r. ring.
Qed.
Print Assumptions C56_elu_refuted.

(** The squares of the column sums of a matrix: the returned tensor is not an
    array of the shape of [x]; its evaluation fails (the gradient of
    [ReduceGradCommon] keeps the axes that [reduce_sum] dropped and vice versa). *)
Definition cols_build : tbld nat :=
  tbind (a_ints [0%Z]) (fun ax => tbind (tmk [0%nat; ax] None true (TReduceSum false)) (fun p => a_bin Mul p p)).
Theorem C56_reduce_sum_refuted :
  exists (ls : nat -> list nat) (g g' : tgraph) (y r : nat) (log : list nat) (rho : nat -> arr R),
    twf ls g /\ fits ls g y /\ shaped ls g y [2%nat] /\ conform ls rho /\ (forall i, (i < 4)%nat -> t_input_leaf g i) /\
    t_hvp (@max_pop top) true 400 [y] [0%nat] [2%nat] g = Ok ([(r, true)], g', log) /\
    ~ shaped ls g' r (ls 0%nat) /\ nth_error (tvalues rho g') r = Some None.
Proof.
  exists (fun _ => [2%nat; 2%nat]), (hv_graph cols_build), (res_graph (hv_result true cols_build [0%nat] [2%nat])), (hv_out cols_build).
  destruct (hv_ok true cols_build [0%nat] [2%nat]) as (log & E); [vm_compute; reflexivity|].
  assert (L : exists r, res_tensors (hv_result true cols_build [0%nat] [2%nat]) = [(r, true)] /\
     nth_error (ttypes (fun _ => [2%nat; 2%nat]) (res_graph (hv_result true cols_build [0%nat] [2%nat]))) r <> Some (Some (TyA [2%nat; 2%nat])) /\
     nth_error (tvalues mm_rho (res_graph (hv_result true cols_build [0%nat] [2%nat]))) r = Some None).
  { eexists. split; [vm_compute; reflexivity|]. split; [vm_compute; discriminate|].
    cbv -[Rplus Rmult Rminus Rdiv Rinv Ropp IZR exp ln Rlt_dec Req_EM_T]. reflexivity. }
  destruct L as (r & L & T & V). exists r, log, mm_rho.
  split; [apply twf_b_sound; vm_compute; reflexivity|].
  split; [apply fits_b_sound; vm_compute; reflexivity|].
  split; [vm_compute; reflexivity|].
  split; [intros [|[|[|i]]]; split; reflexivity|].
  split; [intros i Hi; do 4 (destruct i as [|i]; [eexists; repeat split; reflexivity|]); lia|].
  split; [rewrite E, L; reflexivity|]. split; [exact T|exact V].
Qed.
Print Assumptions C56_reduce_sum_refuted.

(** Element access: the call panics, since [IndexOpGrad] has no gradient.
    [maximum]: it panics in builds with debug assertions, since the comparisons
    in its rule report one gradient for two operands. *)
Definition elem_build : tbld nat := tbind (tmk [0%nat] None true (TIndex 0)) (fun p => a_bin Mul p p).
Definition max_build : tbld nat := tbind (a_bin Maximum 0 1) (fun p => a_bin Mul p p).
Theorem C56_access_elem_panics : forall debug,
  t_hvp (@max_pop top) debug 400 [hv_out elem_build] [0%nat] [2%nat] (hv_graph elem_build) = Panic.
Proof. intros []; vm_compute; reflexivity. Qed.
Print Assumptions C56_access_elem_panics.
Theorem C56_maximum_panics :
  t_hvp (@max_pop top) true 400 [hv_out max_build] [0%nat] [2%nat] (hv_graph max_build) = Panic /\
  is_ok (t_hvp (@max_pop top) false 400 [hv_out max_build] [0%nat] [2%nat] (hv_graph max_build)) = true.
Proof. split; vm_compute; reflexivity. Qed.
Print Assumptions C56_maximum_panics.

(** Cubes: 6 x v is 18 and 48 for x = 1, 2 and v = 3, 4. *)
Definition cube_build : tbld nat := tbind (a_bin Mul 0 0) (fun p => a_bin Mul p 0).
Definition cube_ls (i : nat) : list nat := [2%nat].
Definition cube_rho (i : nat) : arr R := Arr [2%nat] (match i with 0%nat => [1; 2] | 2%nat => [3; 4] | _ => [0; 0] end).
Definition second_b (ls : nat -> list nat) (g : tgraph) : bool :=
  let tys := ttypes ls g in
  on_nodes g (fun i n => twice (n_op n) &&
    match lookups tys (n_inputs n) with Some ts => op_fit (n_op n) ts | None => true end &&
    match nth_error tys i with Some (Some (TyA sh)) => nonempty sh && (n_diff n && t_total_op (n_op n)) | _ => true end).
Lemma second_b_sound ls g : second_b ls g = true -> fits2 ls g /\ forall rho, smooth2 ls rho g.
Proof.
  intros H. pose proof (on_nodes_sound _ _ H) as A. cbv beta in A. split.
  - intros i n Hn. specialize (A i n Hn). rewrite !andb_true_iff in A. destruct A as ((A1 & A2) & A3). split; auto. split.
    + intros ts HL. rewrite HL in A2. exact A2.
    + intros sh Hs. unfold shaped in Hs. rewrite Hs in A3. apply andb_prop in A3. apply A3.
  - intros rho i n sh Hn Hs Ho Hz. specialize (A i n Hn). rewrite !andb_true_iff in A. destruct A as (_ & A3).
    unfold shaped in Hs. rewrite Hs, !andb_true_iff in A3. destruct A3 as (_ & A4 & A5). split; auto.
    assert (D : t_dom (n_op n) (in_vals rho g n)) by (apply t_total_dom; exact A5).
    unfold t_dom2. destruct (n_op n); auto.
    + destruct u; auto. discriminate A5.
    + destruct b; auto. discriminate A5.
Qed.
Example C56_hypotheses_met :
  twf cube_ls (hv_graph cube_build) /\ (forall g : tgraph, heap_pop g (max_pop g)) /\
  fits2 cube_ls (hv_graph cube_build) /\ shaped cube_ls (hv_graph cube_build) (hv_out cube_build) [2%nat] /\
  t_input_leaf (hv_graph cube_build) 0 /\ shaped cube_ls (hv_graph cube_build) 2 (cube_ls 0) /\
  conform cube_ls cube_rho /\ (forall rho, smooth2 cube_ls rho (hv_graph cube_build)) /\
  ~ depends (hv_graph cube_build) 2 0 /\
  exists r log, t_hvp (@max_pop top) true 400 [hv_out cube_build] [0%nat] [2%nat] (hv_graph cube_build)
      = Ok ([(r, true)], res_graph (hv_result true cube_build [0%nat] [2%nat]), log) /\
    aval cube_rho (res_graph (hv_result true cube_build [0%nat] [2%nat])) r = Arr [2%nat] [18; 48].
Proof.
  assert (B : second_b cube_ls (hv_graph cube_build) = true) by (vm_compute; reflexivity).
  destruct (second_b_sound _ _ B) as [F S].
  assert (L : exists r, res_tensors (hv_result true cube_build [0%nat] [2%nat]) = [(r, true)] /\
     aval cube_rho (res_graph (hv_result true cube_build [0%nat] [2%nat])) r = Arr [2%nat] [18; 48]).
  { eexists. split; [vm_compute; reflexivity|].
    cbv -[Rplus Rmult Rminus Rdiv Rinv Ropp IZR exp ln Rlt_dec Req_EM_T]. f_equal.
    apply f_equal2; [lra|]. apply f_equal2; [lra|reflexivity]. }
  destruct (hv_ok true cube_build [0%nat] [2%nat]) as (log & E); [vm_compute; reflexivity|].
  destruct L as (r & L & V).
  split; [apply twf_b_sound; vm_compute; reflexivity|]. split; [intros; apply max_pop_ok|]. split; [exact F|].
  split; [vm_compute; reflexivity|]. split; [eexists; repeat split; reflexivity|]. split; [vm_compute; reflexivity|].
  split; [intros [|[|[|i]]]; split; reflexivity|]. split; [exact S|]. split.
  - intros D. apply clos_rt_rt1n in D. inversion D as [|z ? (n & inc & Hn & Hin & _) _]; subst.
    vm_compute in Hn. injection Hn as <-. exact Hin.
  - exists r, log. split; [rewrite E, L; reflexivity|exact V].
Qed.
