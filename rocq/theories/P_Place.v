(** C77: memory layouts in whole graphs. *)
From Coq Require Import String List Arith ZArith NArith Bool Reals Lia.
Import ListNotations.
From Verif Require Import Graph_Model Eval_Model Eval_Spec Eval_Proofs Graph_Proofs Grad_Model Grad_Spec Grad_Path_Proofs Grad_Examples
  Scalar_Model Scalar_Spec Scalar_Proofs Var_Model Helper_Model.
From Verif Require Import Array_Model Array_Proofs Batch_Model Vjp_Spec Tens_Model Tens_Spec Tens_Lax Tens_Final Tens_Examples Helper_Tens
  Returns_Spec Tens_Total Tens_New Tens_Returns Layout_Model Layout_Spec Layout_Proofs Place_Model Place_Spec Place_Proofs Place_Graph Place_Grad P_Returns.
Local Set Bullet Behavior "Strict Subproofs".

(** Whatever an evaluation returns has the elements that evaluation with arrays gives, for
    every placement of new arrays and every storage order of the leaves, if the operands of
    [access_elem] and the images of the filter gradient of a transposed convolution are
    stored by rows. *)
Theorem C77_evaluation_right :
  forall (place : top -> list pv -> arr R -> view R) (debug : bool) (ls : nat -> list nat) (g : tgraph) (feeds : list (ph_key * pv)) (env : list pv)
    (w : nat -> view R) (lo : nat -> order) (fuel : nat) (targets : list nat) (oc : @Eval_Model.outcome pv unit),
  places place -> twf ls g -> conform ls (elements_of w) -> p_leaf_values g feeds env w ->
  (forall i n, nth_error g i = Some n -> n_op n = TLeaf -> stored (lo i) (PA (w i))) ->
  meets must_be lo g -> (forall t, In t targets -> exists sh, shaped ls g t sh) ->
  eval pv_shape (place_compute place) debug g feeds fuel targets env = Ok oc ->
  Forall2 (fun t r => exists v, r = inl (PA v) /\ contents 0%R v = aval (elements_of w) g t /\ stored (order_of lo g t) (PA v)) targets (oc_results oc) /\
  oc_env oc = env.
Proof.
  intros place debug ls g feeds env w lo fuel targets oc P W C HL HS M HT He.
  exact (eval_right false ls g (twf_loose ls g W) debug feeds env w lo place P C HL HS M fuel targets oc HT He).
Qed.
Print Assumptions C77_evaluation_right.

(** It returns, if the operands of [expand_dims], of the gradient of a reduction and of the
    gradient of a lookup are stored by rows or by columns. *)
Theorem C77_evaluation_returns :
  forall (place : top -> list pv -> arr R -> view R) (debug : bool) (ls : nat -> list nat) (g : tgraph) (feeds : list (ph_key * pv)) (env : list pv)
    (w : nat -> view R) (lo : nat -> order) (fuel : nat) (targets : list nat),
  places place -> twf ls g -> conform ls (elements_of w) -> p_leaf_values g feeds env w ->
  (forall i n, nth_error g i = Some n -> n_op n = TLeaf -> stored (lo i) (PA (w i))) ->
  meets must_be lo g -> meets should_be lo g -> (forall t, In t targets -> exists sh, shaped ls g t sh) -> NoDup targets ->
  2 * (length targets + edge_count g) < fuel ->
  exists oc, eval pv_shape (place_compute place) debug g feeds fuel targets env = Ok oc.
Proof.
  intros place debug ls g feeds env w lo fuel targets P W C HL HS M M2 HT HN Hf.
  apply (eval_returns false ls g (twf_loose ls g W) debug feeds env w lo place P C HL HS M fuel targets M2 HT); [|exact Hf].
  intros l1 t l2 -> _. apply NoDup_remove_2 in HN. rewrite in_app_iff in HN. tauto.
Qed.
Print Assumptions C77_evaluation_returns.

(** Gradients.  [k]: how the leaves are stored.  If all operations of the graph are fit for
    such operands and so are those in their gradients, then asking for gradients returns,
    evaluating them returns, and the elements are the derivatives. *)
Theorem C77_gradients_total :
  forall (pop : tgraph -> list nat -> option (nat * list nat)) (debug : bool) (fuel : nat)
    (ls : nat -> list nat) (ys xs : list nat) (g : tgraph) (k : order),
  twf ls g -> (forall g, heap_pop g (pop g)) ->
  (forall y, In y ys -> fits ls g y /\ exists sh, shaped ls g y sh) -> ys <> [] ->
  NoDup xs -> (forall x, In x xs -> t_input_leaf g x) ->
  2 * (2 * length ys + backprop_edges g) < fuel -> length g + length ys < fuel ->
  (N.of_nat (67 * (length g + length ys) + 4 * length xs) <= 499998)%N ->
  (debug = true -> forall z n, between g ys xs z -> nth_error g z = Some n -> comparison (n_op n) = false) ->
  (forall x, In x xs -> matters g ys x -> flows g ys x) ->
  all_ops (steady k) g ->
  exists l g' log, t_grad pop debug fuel ys xs g = Ok (l, g', log) /\
    Forall2 (fun x r => forall debug2 feeds env w place fuel2,
      places place -> conform ls (elements_of w) -> p_leaf_values g feeds env w ->
      (forall i n, nth_error g i = Some n -> n_op n = TLeaf -> stored k (PA (w i))) ->
      2 * (1 + edge_count g') < fuel2 ->
      exists gx log2, eval pv_shape (place_compute place) debug2 g' feeds fuel2 [fst r] env = Ok (Outcome [inl (PA gx)] env log2) /\
        has_shape (ls x) (contents 0%R gx) /\ stored k (PA gx) /\
        forall v, has_shape (ls x) v -> (forall y, In y ys -> t_smooth ls g (elements_of w) x y) ->
          derivable_pt_lim
            (fun t => fold_right Rplus 0%R (map (fun y => elements_sum (aval (put (elements_of w) x (step (elements_of w x) v t)) g y)) ys))
            0%R (dot (contents 0%R gx) v)) xs l.
Proof.
  intros pop debug fuel ls ys xs g k W Hp Hy Hne Nx Hx Hf1 Hf2 Hr Hd Hfl HK. apply room_limit in Hr.
  exact (safe_gradients false pop debug fuel ls g ys xs k Hp (sound_false ls g W) Hy Hne Nx Hx Hf1 Hf2 Hr Hd Hfl HK).
Qed.
Print Assumptions C77_gradients_total.

(** The same where rows of tables are looked up with [gather]. *)
Theorem C77_gradients_total_with_lookups :
  forall (pop : tgraph -> list nat -> option (nat * list nat)) (debug : bool) (fuel : nat)
    (ls : nat -> list nat) (ys xs : list nat) (g : tgraph) (k : order),
  twf ls g -> attached g -> (forall g, heap_pop g (pop g)) ->
  (forall y, In y ys -> uses ls g y /\ exists sh, shaped ls g y sh) -> ys <> [] ->
  NoDup xs -> (forall x, In x xs -> t_input_leaf g x) ->
  2 * (2 * length ys + backprop_edges g) < fuel -> length g + length ys < fuel ->
  (N.of_nat (67 * (length g + length ys) + 4 * length xs) <= 499998)%N ->
  (debug = true -> forall z n, between g ys xs z -> nth_error g z = Some n -> comparison (n_op n) = false) ->
  (forall x, In x xs -> matters g ys x -> flows g ys x) ->
  all_ops (steady k) g ->
  exists l g' log, t_grad pop debug fuel ys xs g = Ok (l, g', log) /\
    Forall2 (fun x r => forall debug2 feeds env w place fuel2,
      places place -> conform ls (elements_of w) -> p_leaf_values g feeds env w ->
      (forall i n, nth_error g i = Some n -> n_op n = TLeaf -> stored k (PA (w i))) ->
      2 * (1 + edge_count g') < fuel2 ->
      exists gx log2, eval pv_shape (place_compute place) debug2 g' feeds fuel2 [fst r] env = Ok (Outcome [inl (PA gx)] env log2) /\
        has_shape (ls x) (contents 0%R gx) /\ stored k (PA gx) /\
        forall v, has_shape (ls x) v -> (forall y, In y ys -> t_smooth ls g (elements_of w) x y) ->
          derivable_pt_lim
            (fun t => fold_right Rplus 0%R (map (fun y => elements_sum (aval (put (elements_of w) x (step (elements_of w x) v t)) g y)) ys))
            0%R (dot (contents 0%R gx) v)) xs l.
Proof.
  intros pop debug fuel ls ys xs g k W At Hp Hy Hne Nx Hx Hf1 Hf2 Hr Hd Hfl HK. apply room_limit in Hr.
  exact (safe_gradients true pop debug fuel ls g ys xs k Hp (conj W (fun _ => At)) Hy Hne Nx Hx Hf1 Hf2 Hr Hd Hfl HK).
Qed.
Print Assumptions C77_gradients_total_with_lookups.

(** Two placements: everything by rows; products by columns, the rest by rows. *)
Definition by_rows (a : arr R) : view R := View (a_data a) 0 (a_shape a) (std_strides (a_shape a)).
Definition by_columns (a : arr R) : view R :=
  View (a_data (tab (rev (a_shape a)) (fun j => aget 0%R a (rev j)))) 0 (a_shape a) (fortran_strides (a_shape a)).
Definition place_rows (o : top) (vs : list pv) (a : arr R) : view R := by_rows a.
Definition place_products (o : top) (vs : list pv) (a : arr R) : view R := match o with TMatMul _ _ => by_columns a | _ => by_rows a end.

Lemma by_rows_ok a : length (a_data a) = prod (a_shape a) -> contents 0%R (by_rows a) = a /\ stored Rows (PA (by_rows a)).
Proof.
  intros H. unfold by_rows.
  assert (I : inside (View (a_data a) 0 (a_shape a) (std_strides (a_shape a)))) by (apply row_inside; [apply std_rows|]; simpl; right; lia).
  split; [|split; [apply std_ok|split; [exact I|apply std_rows]]].
  destruct a as [sh l]. cbn [a_data a_shape] in *.
  assert (D : a_data (contents 0%R (View l 0 sh (std_strides sh))) = l).
  { rewrite (rows_raw _ I (std_rows l 0 sh)). unfold raw. cbn [v_off v_shape v_mem skipn]. rewrite <- H. apply firstn_all. }
  unfold contents, tab in *. cbn [v_shape a_data] in *. f_equal. exact D.
Qed.
Lemma by_columns_ok a : length (a_data a) = prod (a_shape a) -> contents 0%R (by_columns a) = a /\ stored RowsOrColumns (PA (by_columns a)).
Proof.
  intros H. unfold by_columns.
  assert (L : length (a_data (tab (rev (a_shape a)) (fun j => aget 0%R a (rev j)))) = prod (a_shape a)) by (rewrite tab_wf; cbn; apply prod_rev).
  split.
  - transitivity (tab (a_shape a) (aget 0%R a)); [|apply tab_aget; exact H]. unfold contents. cbn [v_shape]. unfold tab at 1 3. f_equal. apply map_ext_in. intros i Hi. apply indices_in in Hi.
    unfold vget, position. cbn [v_off v_strides v_mem Nat.add]. rewrite fortran_stride_sum by exact Hi.
    change (nth (ravel (rev (a_shape a)) (rev i)) _ 0%R) with (aget 0%R (tab (rev (a_shape a)) (fun j => aget 0%R a (rev j))) (rev i)).
    rewrite aget_tab by (apply in_bounds_rev; exact Hi). rewrite rev_involutive. reflexivity.
  - split; [apply fortran_ok|]. split; [|right; apply fortran_columns]. apply column_inside; [apply fortran_columns|]. right. simpl v_off. simpl v_shape. cbn [v_mem]. rewrite L. lia.
Qed.
Lemma place_rows_ok : places place_rows.
Proof.
  intros o vs a w H. destruct (by_rows_ok a H) as [A B]. split; [exact A|]. intros _. eapply stored_le; [|exact B]. destruct (result_order o w); reflexivity.
Qed.
Lemma place_products_ok : places place_products.
Proof.
  intros o vs a w H. destruct (place_rows_ok o vs a w H) as [A B]. destruct o; try (split; [exact A|exact B]).
  destruct (by_columns_ok a H) as [A' B']. split; [exact A'|]. intros _. exact B'.
Qed.

(** An element of a transposed variable: [access_elem] returns the element of the variable. *)
Definition turned_build : tbld nat := tbind (a_ints [1; 0]%Z) (fun p => tbind (tmk [0; p] None true (TTranspose true)) (fun t => a_access t 1)).
Definition turned_graph : tgraph := match turned_build [t_var 0] with Some (_, g) => g | None => [] end.
Definition turned_ls (_ : nat) : list nat := [2; 2]%nat.
Theorem C77_access_of_transposed_refuted :
  forall a b c d : R, let w := fun _ : nat => by_rows (Arr [2; 2]%nat [a; b; c; d]) in
  twf turned_ls turned_graph /\ shaped turned_ls turned_graph 4 [] /\ conform turned_ls (elements_of w) /\
  p_leaf_values turned_graph [] [PA (w 0%nat)] w /\ stored Rows (PA (w 0%nat)) /\
  aval (elements_of w) turned_graph 4 = Arr [] [c] /\
  exists v log, eval pv_shape (place_compute place_rows) true turned_graph [] 20 [4%nat] [PA (w 0%nat)] = Ok (Outcome [inl (PA v)] [PA (w 0%nat)] log) /\
    contents 0%R v = Arr [] [b].
Proof.
  intros a b c d w. split; [apply twf_b_sound; vm_compute; reflexivity|]. split; [vm_compute; reflexivity|].
  split; [intros i; split; reflexivity|]. split.
  - intros [|i] n Hn Ho; [left; exists 0%nat; cbn in Hn; injection Hn as <-; auto|].
    exfalso. do 4 (destruct i as [|i]; [cbn in Hn; injection Hn as <-; discriminate|]). destruct i; discriminate.
  - split; [apply by_rows_ok; reflexivity|]. split; [cbv -[IZR]; reflexivity|].
    eexists. eexists. split; [cbv -[IZR]; reflexivity|cbv -[IZR]; reflexivity].
Qed.
Print Assumptions C77_access_of_transposed_refuted.

(** The layer of Tens_Examples, its weights stored by columns, products placed by columns. *)
Lemma leaf_op_eq o : is_leaf_op o = true -> o = TLeaf.
Proof. destruct o; simpl; intros H; first [reflexivity|discriminate H]. Qed.
Lemma all_ops_b Q g : on_nodes g (fun _ n => is_leaf_op (n_op n) || Q (n_op n)) = true -> all_ops Q g.
Proof.
  intros B i n Hn. apply (on_nodes_sound _ _ B) in Hn. apply orb_prop in Hn.
  destruct Hn as [Hn|Hn]; [left; apply leaf_op_eq; exact Hn|right; exact Hn].
Qed.
Lemma net_steady : all_ops (steady RowsOrColumns) net_graph.
Proof. apply all_ops_b. vm_compute. reflexivity. Qed.
Definition net_views (rho : nat -> arr R) (i : nat) : view R := if (i =? 1)%nat then by_columns (rho i) else by_rows (rho i).
Example C77_hypotheses_met :
  places place_products /\ places place_rows /\ all_ops (steady RowsOrColumns) net_graph /\
  (forall rho, conform net_ls rho -> let w := net_views rho in
    conform net_ls (elements_of w) /\ (forall i, elements_of w i = rho i) /\
    p_leaf_values net_graph [] (map (fun i => PA (w i)) (seq 0 3)) w /\
    (forall i n, nth_error net_graph i = Some n -> n_op n = TLeaf -> stored RowsOrColumns (PA (w i)))) /\
  order_of (fun _ => RowsOrColumns) net_graph net_y = RowsOrColumns /\
  meets must_be (fun _ => RowsOrColumns) net_graph /\ meets should_be (fun _ => RowsOrColumns) net_graph /\
  steady Rows (TIndex 0) = true /\ steady Anyhow (TTranspose true) = true /\ steady RowsOrColumns (TTranspose true) = false.
Proof.
  split; [exact place_products_ok|]. split; [exact place_rows_ok|]. split; [exact net_steady|].
  assert (SA : all_ops (safe RowsOrColumns) net_graph).
  { intros i n Hn. destruct (net_steady i n Hn) as [H|H]; [left; exact H|right]. apply andb_prop in H. apply H. }
  pose proof (twf_loose net_ls net_graph net_twf) as L.
  split; [|split; [vm_compute; reflexivity|split; [apply safe_must; auto|split; [apply safe_should; auto|split; [reflexivity|split; reflexivity]]]]].
  intros rho C w.
  assert (E : forall i, elements_of w i = rho i).
  { intros i. destruct (C i) as [Sh Wf]. rewrite <- Sh in Wf. unfold elements_of, w, net_views. destruct (i =? 1)%nat; [apply by_columns_ok|apply by_rows_ok]; exact Wf. }
  split; [intros i; rewrite E; apply C|]. split; [exact E|]. split.
  - assert (VL : var_leaves_b 3 net_graph = true) by (vm_compute; reflexivity).
    intros i n Hn Ho. pose proof (on_nodes_sound _ _ VL i n Hn) as A. cbv beta in A. rewrite Ho in A.
    apply andb_prop in A. destruct A as [A B]. apply Nat.ltb_lt in A.
    destruct (n_var n) as [v|]; [|discriminate]. destruct (n_ph n); [discriminate|]. apply Nat.eqb_eq in B. subst v.
    left. exists i. split; auto. split; auto. rewrite nth_error_map.
    rewrite (nth_error_nth' (seq 0 3) 0%nat) by (rewrite seq_length; exact A). rewrite seq_nth by exact A. reflexivity.
  - intros i n _ _. destruct (C i) as [Sh Wf]. rewrite <- Sh in Wf. unfold w, net_views. destruct (i =? 1)%nat; [apply by_columns_ok; exact Wf|].
    eapply stored_le; [|apply by_rows_ok; exact Wf]. reflexivity.
Qed.
