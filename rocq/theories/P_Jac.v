(** Property C59: Jacobians. *)
From Coq Require Import String List Arith ZArith Bool Reals Lra Lia Relations FunctionalExtensionality.
From Coquelicot Require Import Coquelicot.
Import ListNotations.
From Verif Require Import Graph_Model Eval_Model Eval_Spec Eval_Proofs Eval_Proofs2 Graph_Proofs Grad_Model Grad_Spec
  Grad_Examples Scalar_Model Scalar_Spec Scalar_Proofs.
From Verif Require Import P_Eval Array_Model Array_Proofs Arith_Final Vjp_Spec Vjp_Proofs Tens_Model Tens_Spec Tens_Fwd Tens_Build Tens_Final Tens_Rules Tens_Examples
  Check_Model Check_Spec P_Check Jac_Model Jac_Proofs.
Local Open Scope R_scope.
Local Set Bullet Behavior "Strict Subproofs".

(** ** C59: jacobians returns the matrices of partial derivatives *)

(** Element [i] of the product of the matrix [J] with the elements of [v]. *)
Definition times (J v : arr R) (i : nat) : R :=
  fold_right Rplus 0 (map (fun j => aget 0 J [i; j] * nth j (a_data v) 0) (seq 0 (length (a_data v)))).

Lemma Forall2_intro {A B} (P : A -> B -> Prop) : forall l1 l2, length l1 = length l2 ->
  (forall k a b, nth_error l1 k = Some a -> nth_error l2 k = Some b -> P a b) -> Forall2 P l1 l2.
Proof.
  induction l1 as [|a l1 IH]; intros [|b l2] L H; try discriminate; constructor.
  - apply (H 0%nat); reflexivity.
  - apply IH; [simpl in L; lia|]. intros k. apply (H (S k)).
Qed.

Lemma dot_list (l k : list R) (f : nat -> R) : forall d, length l = length k -> (forall j, (j < length l)%nat -> f (d + j)%nat = nth j l 0) ->
  fold_right Rplus 0 (map2 Rmult l k) = fold_right Rplus 0 (map (fun j => f j * nth (j - d) k 0) (seq d (length k))).
Proof.
  revert k. induction l as [|a l IH]; intros [|b k] d L H; try discriminate; [reflexivity|]. simpl in L. injection L as L.
  cbn [map2 length seq map fold_right]. f_equal.
  - rewrite Nat.sub_diag. rewrite <- (Nat.add_0_r d), (H 0%nat) by (simpl; lia). reflexivity.
  - rewrite (IH k (S d)) by (auto; intros j Hj; replace (S d + j)%nat with (d + S j)%nat by lia; rewrite (H (S j)) by (simpl; lia); reflexivity).
    f_equal. apply map_ext_in. intros j Hj. apply in_seq in Hj. replace (j - d)%nat with (S (j - S d)) by lia. reflexivity.
Qed.

Lemma jac_parts pop debug fuel ls y sh xs n g g' js :
  twf ls g -> (forall g, heap_pop g (pop g)) -> fits ls g y -> shaped ls g y sh ->
  NoDup xs -> (forall x, In x xs -> t_input_leaf g x) -> (0 < n <= prod sh)%nat ->
  t_jacobians pop debug fuel y xs n g = Ok (js, g') ->
  exists rows g1, length rows = n /\ grows g g1 /\ grows g1 g' /\ loose g' /\ length js = length xs /\
    (forall k r, nth_error rows k = Some r -> Forall2 (row_of ls y g k g1) xs r) /\
    (forall m J, nth_error js m = Some J -> typed ls g' J (TyA [n; prod (ls (nth m xs 0%nat))]) /\
       forall rho, conform ls rho -> forall a b, (a < n)%nat -> (b < prod (ls (nth m xs 0%nat)))%nat ->
         aget 0 (aval rho g' J) [a; b] = nth b (a_data (aval rho g1 (nth m (nth a rows []) 0%nat))) 0).
Proof.
  intros W Hp Hf Hy Nx Hx Hn H. unfold t_jacobians in H.
  destruct (t_rows pop debug fuel y xs n 0 g) as [[rows g1]| |] eqn:ER; [|discriminate|discriminate].
  destruct (t_stacked rows (length xs) 0 g1) as [[js' g2]|] eqn:ES; [|discriminate]. injection H as -> ->.
  destruct (t_rows_spec pop debug fuel y xs sh ls Hp Nx n 0 g rows g1 W Hf Hy) as (W1 & G1 & L1 & R1); auto; [lia|].
  assert (RT : forall j r, (j < length xs)%nat -> In r rows -> typed ls g1 (nth j r 0%nat) (TyA (ls (nth j xs 0%nat)))).
  { intros j r Hj Hr. apply In_nth_error in Hr. destruct Hr as (k & Hk). specialize (R1 k r Hk).
    destruct (nth_error xs j) as [x|] eqn:Ex; [|apply nth_error_None in Ex; lia].
    destruct (Forall2_nth _ _ _ _ _ R1 Ex) as (t & Et & S1 & _). rewrite (nth_error_nth _ _ 0%nat Et), (nth_error_nth _ _ 0%nat Ex). exact S1. }
  destruct (stacked_loose ls (fun j => ls (nth j xs 0%nat)) rows) with (n := length xs) (k := 0%nat) (s := g1) (js := js) (s' := g') as (W2 & G2 & L2 & R2); auto.
  { intros ->. simpl in L1. lia. }
  { apply (twf_loose ls). exact W1. }
  { intros j Hj. apply Forall_forall. intros r Hr. apply RT; [lia|exact Hr]. }
  exists rows, g1. rewrite L1 in R2. repeat (split; [assumption|]). exact R2.
Qed.

(** For [n] at most the number of elements of [y], the Jacobian for [x] has
    shape [n, size of x], and its product with any direction [v] (flattened) is
    the velocity of the first [n] elements of [y] as [x] moves along [v]. *)
Theorem C59_jacobians :
  forall (pop : tgraph -> list nat -> option (nat * list nat)) (debug : bool) (fuel : nat)
    (ls : nat -> list nat) (y : nat) (sh xs : list nat) (n : nat) (g g' : tgraph) (js : list nat),
  twf ls g -> (forall g, heap_pop g (pop g)) -> fits ls g y -> shaped ls g y sh ->
  NoDup xs -> (forall x, In x xs -> t_input_leaf g x) -> (0 < n <= prod sh)%nat ->
  t_jacobians pop debug fuel y xs n g = Ok (js, g') ->
  (exists new, g' = g ++ new) /\
  Forall2 (fun x J => shaped ls g' J [n; prod (ls x)] /\
     forall rho v, conform ls rho -> has_shape (ls x) v -> t_smooth ls g rho x y -> forall i, (i < n)%nat ->
       derivable_pt_lim (fun t => nth i (a_data (aval (put rho x (step (rho x) v t)) g y)) 0) 0 (times (aval rho g' J) v i))
    xs js.
Proof.
  intros pop debug fuel ls y sh xs n g g' js W Hp Hf Hy Nx Hx Hn H.
  destruct (jac_parts pop debug fuel ls y sh xs n g g' js W Hp Hf Hy Nx Hx Hn H) as (rows & g1 & L1 & G1 & G2 & _ & L2 & R1 & R2).
  split; [eapply grows_trans; eauto|]. apply Forall2_intro; [symmetry; exact L2|]. intros k x J Ex EJ.
  destruct (R2 k J EJ) as [TJ VJ]. simpl in TJ, VJ. rewrite (nth_error_nth _ _ 0%nat Ex) in TJ, VJ. split; [exact TJ|].
  intros rho v C Hv Hs i Hi. destruct (nth_error rows i) as [r|] eqn:Er; [|apply nth_error_None in Er; lia].
  destruct (Forall2_nth _ _ _ _ _ (R1 i r Er) Ex) as (t & Et & S1 & D1). specialize (D1 rho v C Hv Hs). simpl in D1.
  replace (times (aval rho g' J) v i) with (dot (aval rho g1 t) v); [exact D1|]. unfold dot, times.
  destruct (typed_aval ls rho g1 t (ls x) C S1) as [_ HS]. destruct HS as [_ LS], Hv as [_ LV].
  rewrite (dot_list _ _ (fun j => aget 0 (aval rho g' J) [i; j]) 0).
  - f_equal. apply map_ext. intros j. rewrite Nat.sub_0_r. reflexivity.
  - congruence.
  - intros j Hj. simpl. rewrite VJ by (auto; lia). rewrite (nth_error_nth _ _ [] Er), (nth_error_nth _ _ 0%nat Et). reflexivity.
Qed.
Print Assumptions C59_jacobians.

(** Entry [i, j] is the partial derivative of element [i] of [y] with respect to
    element [j] of [x]. *)
Theorem C59_entries :
  forall (pop : tgraph -> list nat -> option (nat * list nat)) (debug : bool) (fuel : nat)
    (ls : nat -> list nat) (y : nat) (sh xs : list nat) (n : nat) (g g' : tgraph) (js : list nat)
    (k x J : nat) (rho : nat -> arr R) (i j : nat),
  twf ls g -> (forall g, heap_pop g (pop g)) -> fits ls g y -> shaped ls g y sh ->
  NoDup xs -> (forall x, In x xs -> t_input_leaf g x) -> (0 < n <= prod sh)%nat ->
  t_jacobians pop debug fuel y xs n g = Ok (js, g') -> nth_error xs k = Some x -> nth_error js k = Some J ->
  conform ls rho -> t_smooth ls g rho x y -> (i < n)%nat -> (j < prod (ls x))%nat ->
  derivable_pt_lim (fun t => nth i (a_data (aval (put rho x
      (Arr (a_shape (rho x)) (map (fun q => if (fst q =? j)%nat then snd q + t else snd q) (with_index (a_data (rho x)))))) g y)) 0) 0
    (aget 0 (aval rho g' J) [i; j]).
Proof.
  intros pop debug fuel ls y sh xs n g g' js k x J rho i j W Hp Hf Hy Nx Hx Hn H Ex EJ C Hs Hi Hj.
  destruct (C59_jacobians pop debug fuel ls y sh xs n g g' js W Hp Hf Hy Nx Hx Hn H) as [_ F].
  destruct (Forall2_nth _ _ _ _ _ F Ex) as (J' & EJ' & _ & D). assert (J' = J) by congruence. subst J'.
  specialize (D rho (unit_at (ls x) j) C (unit_shape _ _) Hs i Hi).
  replace (aget 0 (aval rho g' J) [i; j]) with (times (aval rho g' J) (unit_at (ls x) j) i).
  - eapply derivable_pt_lim_ext; [|exact D]. intros t. cbv beta. rewrite (step_unit (ls x) (rho x) j t (C x) Hj). reflexivity.
  - set (f := fun m => aget 0 (aval rho g' J) [i; m]).
    pose proof (dot_unit_gen (map f (seq 0 (prod (ls x)))) j 0) as Q. rewrite map_length, seq_length in Q.
    rewrite nth_indep with (d' := f 0%nat) in Q by (rewrite map_length, seq_length; exact Hj).
    rewrite map_nth, seq_nth in Q by exact Hj. change (0 + j)%nat with j in Q. change (times (aval rho g' J) (unit_at (ls x) j) i = f j). rewrite <- Q. unfold times.
    change (map (fun k0 => if (k0 =? 0 + j)%nat then 1 else 0) (seq 0 (prod (ls x)))) with (a_data (unit_at (ls x) j)).
    etransitivity; [|symmetry; apply (dot_list (map f (seq 0 (prod (ls x)))) (a_data (unit_at (ls x) j)) f 0)].
    + f_equal. apply map_ext. intros m. rewrite Nat.sub_0_r. reflexivity.
    + unfold unit_at. cbn [a_data]. rewrite !map_length. reflexivity.
    + rewrite map_length, seq_length. intros m Hm. simpl. rewrite nth_indep with (d' := f 0%nat) by (rewrite map_length, seq_length; exact Hm).
      rewrite map_nth, seq_nth by exact Hm. reflexivity.
Qed.
Print Assumptions C59_entries.

(** Evaluating a Jacobian returns that matrix. *)
Theorem C59_evaluated :
  forall (pop : tgraph -> list nat -> option (nat * list nat)) (debug : bool) (fuel fuel2 : nat)
    (ls : nat -> list nat) (y : nat) (sh xs : list nat) (n : nat) (g g' : tgraph) (js : list nat) (k x J : nat)
    (feeds : list (ph_key * tv)) (env : list tv) (rho : nat -> arr R) (oc : @outcome tv unit),
  twf ls g -> (forall g, heap_pop g (pop g)) -> fits ls g y -> shaped ls g y sh ->
  NoDup xs -> (forall x, In x xs -> t_input_leaf g x) -> (0 < n <= prod sh)%nat ->
  t_jacobians pop debug fuel y xs n g = Ok (js, g') -> nth_error xs k = Some x -> nth_error js k = Some J ->
  conform ls rho -> t_leaf_values g' feeds env rho -> t_smooth ls g rho x y ->
  eval tv_shape tens_compute debug g' feeds fuel2 [J] env = Ok oc ->
  exists a, oc_results oc = [inl (TA a)] /\ has_shape [n; prod (ls x)] a /\
    forall v, has_shape (ls x) v -> forall i, (i < n)%nat ->
      derivable_pt_lim (fun t => nth i (a_data (aval (put rho x (step (rho x) v t)) g y)) 0) 0 (times a v i).
Proof.
  intros pop debug fuel fuel2 ls y sh xs n g g' js k x J feeds env rho oc W Hp Hf Hy Nx Hx Hn H Ex EJ C HL Hs He.
  destruct (C59_jacobians pop debug fuel ls y sh xs n g g' js W Hp Hf Hy Nx Hx Hn H) as [_ F].
  destruct (Forall2_nth _ _ _ _ _ F Ex) as (J' & EJ' & TJ & D). assert (J' = J) by congruence. subst J'.
  assert (W2 : loose g') by (destruct (jac_parts pop debug fuel ls y sh xs n g g' js W Hp Hf Hy Nx Hx Hn H) as (? & ? & _ & _ & _ & L & _); exact L). destruct (loose_graph g' W2) as [Wg Ac].
  exists (aval rho g' J). split; [|split].
  - apply eval_only_values in He; auto.
    + destruct He as (HF & _). inversion HF as [|? r ? l Hr Hl]; subst. inversion Hl; subst. f_equal.
      eapply tensor_value_fun; [exact Hr|]. apply (loose_tensor_value ls g' W2 debug feeds env rho C HL J _ TJ).
    + intros z [<-|[]]. eapply typed_lt; exact TJ.
    + intros i m p vid _ Hm (inc & m' & Hi & Hm' & _).
      rewrite (lo_mut g' W2 i m inc Hm (nth_error_In _ _ Hi)) in Hm'. discriminate.
  - apply (typed_aval ls rho g' J _ C TJ).
  - intros v Hv i Hi. apply D; auto.
Qed.
Print Assumptions C59_evaluated.

(** No rows: [concat] is called on no tensors and panics. *)
Theorem C59_empty_objective :
  forall (pop : tgraph -> list nat -> option (nat * list nat)) (debug : bool) (fuel : nat) (y x : nat) (xs : list nat) (g : tgraph),
  t_jacobians pop debug fuel y (x :: xs) 0 g = Panic.
Proof. reflexivity. Qed.
Print Assumptions C59_empty_objective.

(** ** The shape attached to a flattened tensor *)

(** [sum_all (square (flatten x))] for a variable [x]. *)
Definition flat_build : tbld nat := tbind (a_flatten 0) (fun f => tbind (a_un Square f) a_sum_all).
Definition flat_graph : tgraph := match flat_build [t_var 0] with Some (_, g) => g | None => [] end.
Definition flat_y : nat := match flat_build [t_var 0] with Some (y, _) => y | None => 0%nat end.
Definition flat_result := t_grad (@max_pop top) true 100 [flat_y] [0%nat] flat_graph.

(** [flatten] attaches the shape of its operand, so the gradient that comes back
    through the square has the shape of [x] instead of a vector: for a matrix
    [x] of 2 x 3 elements the sum of the squares is evaluated as it should, its
    gradient is built without complaint, and evaluating the gradient panics,
    whatever the elements. *)
Theorem C59_flatten_gradient_refuted :
  exists t, res_tensors flat_result = [(t, true)] /\
  is_ok flat_result = true /\
  forall (debug : bool) (a b c d e f : R),
    let env := [TA (Arr [2%nat; 3%nat] [a; b; c; d; e; f])] in
    (exists oc, eval tv_shape tens_compute debug flat_graph [] 100 [flat_y] env = Ok oc /\
      oc_results oc = [inl (TA (Arr [] [a * a + b * b + c * c + d * d + e * e + f * f]))]) /\
    forall fuel, (100 <= fuel)%nat -> eval tv_shape tens_compute debug (res_graph flat_result) [] fuel [t] env = Panic.
Proof.
  exists 24%nat. split; [vm_compute; reflexivity|]. split; [vm_compute; reflexivity|].
  intros debug a b c d e f env. split.
  - destruct debug; (eexists; split; [vm_compute; reflexivity|]); cbn [oc_results];
      match goal with |- [inl (TA (Arr _ [?u]))] = [inl (TA (Arr _ [?v]))] => replace u with v by ring; reflexivity end.
  - assert (Q : eval tv_shape tens_compute debug (res_graph flat_result) [] 100 [24%nat] env = Panic) by (destruct debug; vm_compute; reflexivity).
    intros fuel Hf. rewrite <- Q. apply C03_fuel_irrelevant; auto. rewrite Q. discriminate.
Qed.
Print Assumptions C59_flatten_gradient_refuted.

(** The product of a 2 x 2 matrix and a vector [e f]: the Jacobian with respect
    to the matrix, and the one with respect to the vector, which is the matrix. *)
Definition jac_result := t_jacobians (@max_pop top) true 100 2 [0%nat; 1%nat] 2 prod_graph.
Definition jac_graph : tgraph := match jac_result with Ok (_, g) => g | _ => [] end.
Definition jac_tensors : list nat := match jac_result with Ok (l, _) => l | _ => [] end.
Example C59_hypotheses_met :
  twf prod_ls prod_graph /\ (forall g : tgraph, heap_pop g (max_pop g)) /\
  fits prod_ls prod_graph 2 /\ shaped prod_ls prod_graph 2 [2%nat; 1%nat] /\ NoDup [0%nat; 1%nat] /\
  (forall x, In x [0%nat; 1%nat] -> t_input_leaf prod_graph x) /\ (0 < 2 <= prod [2%nat; 1%nat])%nat /\
  t_jacobians (@max_pop top) true 100 2 [0%nat; 1%nat] 2 prod_graph = Ok (jac_tensors, jac_graph) /\
  (forall rho x, t_smooth prod_ls prod_graph rho x 2) /\
  (forall rho, t_leaf_values jac_graph [] (map (fun i => TA (rho i)) (seq 0 2)) rho) /\
  (exists J K, jac_tensors = [J; K] /\
  forall (rho : nat -> arr R) a b c d e f,
     rho 0%nat = Arr [2%nat; 2%nat] [a; b; c; d] -> rho 1%nat = Arr [2%nat; 1%nat] [e; f] ->
     aval rho jac_graph J = Arr [2%nat; 4%nat] [e; f; 0; 0; 0; 0; e; f] /\
  aval rho jac_graph K = Arr [2%nat; 2%nat] [a; b; c; d]).
Proof.
  split; [apply twf_b_sound; vm_compute; reflexivity|]. split; [intros; apply max_pop_ok|].
  split; [apply fits_b_sound; vm_compute; reflexivity|]. split; [vm_compute; reflexivity|].
  split; [repeat constructor; simpl; intuition discriminate|].
  split; [intros x [<- | [<- | []]]; eexists; repeat split; reflexivity|]. split; [simpl; lia|].
  split; [vm_compute; reflexivity|]. split; [intros; apply t_smooth_b_sound; vm_compute; reflexivity|].
  split; [intros; apply var_leaves_sound; vm_compute; reflexivity|].
  exists (nth 0 jac_tensors 0%nat), (nth 1 jac_tensors 0%nat). split; [vm_compute; reflexivity|].
  intros rho a b c d e f H0 H1.
  split; cbv -[Rplus Rmult IZR]; rewrite ?H0, ?H1; cbv -[Rplus Rmult IZR]; f_equal; repeat (apply f_equal2; [ring|]); reflexivity.
Qed.
