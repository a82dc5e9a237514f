(** Property C85: the regression network of examples/sine.rs. *)
From Coq Require Import String List Arith ZArith NArith Bool Reals Lra Lia.
From Coquelicot Require Import Coquelicot.
Import ListNotations.
From Verif Require Import Graph_Model Eval_Model Eval_Spec Eval_Proofs Eval_Proofs2 Graph_Proofs Eval_Update Var_Model Grad_Model Grad_Spec Grad_Examples Scalar_Proofs.
From Verif Require Import Array_Model Array_Proofs Arith_Model Vjp_Spec Vjp_Proofs Scalar_Model Dot_Spec
  Tens_Model Tens_Spec Tens_Build Tens_Grad Tens_Final Tens_Joint Tens_Examples Tens_Comp.
From Verif Require Import Opt_Model Opt_Proofs Opt_Effect Num_Model Num_Spec Num_Proofs P_Num Train_Spec Train_Proofs Train_Step P_Train Train_Witness.
From Verif Require Import Net_Proofs Sine_Model Sine_Spec Sine_Proofs.
Local Open Scope R_scope.
Local Set Bullet Behavior "Strict Subproofs".

(** ** C85: regression networks *)

Lemma sine_graph (ls : nat -> list nat) (n m x : nat) (ws : list nat) (last t : nat) (g0 g : tgraph) :
  twf ls g0 -> (forall v, In v (x :: ws ++ [last]) -> t_input_leaf g0 v) -> sine_sizes ls n m x ws last ->
  sine_loss x ws last g0 = Some (t, g) ->
  twf ls g /\ grows g0 g /\
  at_ ls (length g0) g t [] (fun rho => Arr [] [sine_error n m (rho x) (map rho ws) (rho last)]) (fun _ => True).
Proof.
  intros W Hl (Hn & Hm & Hx & Ch) H. exact (sine_made ls (length g0) g0 W eq_refl n m x last Hn Hm Hx ws t g Hl Ch H).
Qed.
Lemma sine_total ls n m x ws last t g0 g rho :
  twf ls g0 -> (forall v, In v (x :: ws ++ [last]) -> t_input_leaf g0 v) -> sine_sizes ls n m x ws last ->
  sine_loss x ws last g0 = Some (t, g) -> conform ls rho ->
  total_loss rho g [t] = sine_error n m (rho x) (map rho ws) (rho last).
Proof.
  intros W Hl Hs H C. destruct (sine_graph _ _ _ _ _ _ _ _ _ W Hl Hs H) as (_ & _ & _ & V & _).
  unfold total_loss. cbn [map fold_right]. rewrite (V rho C). unfold elements_sum. cbn [a_data fold_right]. ring.
Qed.
Lemma move_conform ls rho xs dir h : conform ls rho -> (forall v, In v xs -> has_shape (ls v) (dir v)) -> conform ls (move rho xs dir h).
Proof.
  intros C Hd i. unfold move. destruct (existsb (Nat.eqb i) xs) eqn:E; [|apply C]. apply existsb_exists in E. destruct E as (j & Hj & Q).
  apply Nat.eqb_eq in Q. subst j. apply step_has_shape; auto.
Qed.
Lemma lim_ext f g a l : (forall h, f h = g h) -> derivable_pt_lim f a l -> derivable_pt_lim g a l.
Proof. intros E H eps He. destruct (H eps He) as (d & Hd). exists d. intros h. rewrite <- !E. apply Hd. Qed.

(** Evaluating [mse] gives the mean squared distance of the network's predictions from
    the sines of the inputs. *)
Theorem C85_loss :
  forall (ls : nat -> list nat) (n m x : nat) (ws : list nat) (last t : nat) (g0 g : tgraph)
    (debug : bool) (feeds : list (ph_key * tv)) (env : list tv) (rho : nat -> arr R),
  twf ls g0 -> (forall v, In v (x :: ws ++ [last]) -> t_input_leaf g0 v) -> sine_sizes ls n m x ws last ->
  sine_loss x ws last g0 = Some (t, g) ->
  conform ls rho -> t_leaf_values g feeds env rho ->
  tensor_value tv_shape tens_compute debug g feeds env t (inl (TA (Arr [] [sine_error n m (rho x) (map rho ws) (rho last)]))).
Proof.
  intros ls n m x ws last t g0 g debug feeds env rho W Hl Hs H C HL.
  destruct (sine_graph _ _ _ _ _ _ _ _ _ W Hl Hs H) as (W' & _ & T & V & _).
  rewrite <- (V rho C). apply (tens_tensor_value ls g W' debug feeds env rho C HL t []). exact T.
Qed.
Print Assumptions C85_loss.

(** The tensors that [grad] returns for any of the leaves are, at every point, the
    derivative of that distance. *)
Theorem C85_gradients :
  forall (ls : nat -> list nat) (n m x : nat) (ws : list nat) (last t : nat) (g0 g g' : tgraph)
    (pop : tgraph -> list nat -> option (nat * list nat)) (debug : bool) (fuel : nat)
    (xs : list nat) (l : list (nat * bool)) (log : list nat) (rho dir : nat -> arr R),
  twf ls g0 -> (forall v, In v (x :: ws ++ [last]) -> t_input_leaf g0 v) -> sine_sizes ls n m x ws last ->
  sine_loss x ws last g0 = Some (t, g) ->
  (forall g, heap_pop g (pop g)) -> NoDup xs -> (forall v, In v xs -> t_input_leaf g0 v) ->
  t_grad pop debug fuel [t] xs g = Ok (l, g', log) ->
  conform ls rho -> (forall v, In v xs -> has_shape (ls v) (dir v)) ->
  Forall2 (fun v r => shaped ls g' (fst r) (ls v)) xs l /\
  derivable_pt_lim (fun h => let at_h := move rho xs dir h in sine_error n m (at_h x) (map at_h ws) (at_h last)) 0
    (fold_right Rplus 0 (map (fun p => dot (aval rho g' (fst (snd p))) (dir (fst p))) (combine xs l))).
Proof.
  intros ls n m x ws last t g0 g g' pop debug fuel xs l log rho dir W Hl Hs Hm Hp Nx Hx H C Hd.
  destruct (sine_graph _ _ _ _ _ _ _ _ _ W Hl Hs Hm) as (W' & G & T & V & S).
  assert (Hlt : forall v, t_input_leaf g0 v -> (v < length g0)%nat).
  { intros v (nd & Hnd & _). apply nth_error_Some. congruence. }
  assert (HF : fits ls g t).
  { apply (S rho x C I). apply Hlt. apply Hl. left. reflexivity. }
  assert (Hy : forall y, In y [t] -> fits ls g y /\ exists sh, shaped ls g y sh).
  { intros y [<-|[]]. split; [exact HF|]. exists []. exact T. }
  assert (Hx' : forall v, In v xs -> t_input_leaf g v).
  { intros v Hv. destruct (Hx v Hv) as (nd & Hnd & Hn2). exists nd. split; [exact (grows_nth g0 g v nd G Hnd)|exact Hn2]. }
  destruct (tgrad_derivative pop debug fuel [t] xs ls g l g' log W' Hp Hy Nx Hx' H) as (_ & _ & F).
  split.
  - clear -F. induction F as [|v r vs rs [F1 _] _ IH]; constructor; [exact F1|exact IH].
  - assert (Hsm : forall v y, In v xs -> In y [t] -> t_smooth ls g rho v y).
    { intros v y Hv [<-|[]]. apply (S rho v C I). apply Hlt. auto. }
    pose proof (C63_total_derivative pop debug fuel ls [t] xs g g' l log rho dir W' Hp Hy Nx Hx' H C Hsm Hd) as D.
    revert D. apply lim_ext. intros h. cbv zeta.
    apply (sine_total ls n m x ws last t g0 g); auto. apply move_conform; auto.
Qed.
Print Assumptions C85_gradients.

(** One step of an optimizer without momentum makes the distance smaller, for every
    sufficiently small rate, unless all gradients are zero. *)
Theorem C85_step_decreases_loss :
  forall (ls : nat -> list nat) (n m x : nat) (ws : list nat) (last t : nat) (g0 g g' : tgraph) (rnd : Z -> Z) (powf : R -> R -> R)
    (pop : tgraph -> list nat -> option (nat * list nat)) (debug : bool) (fuel : nat)
    (xs : list nat) (l : list (nat * bool)) (log : list nat)
    (e : env (arr R)) (c : context nop) (feeder : list (ph_key * arr R)) (rho : nat -> arr R) (opt : optimizer),
  twf ls g0 -> (forall v, In v (x :: ws ++ [last]) -> t_input_leaf g0 v) -> sine_sizes ls n m x ws last ->
  sine_loss x ws last g0 = Some (t, g) ->
  (forall g, heap_pop g (pop g)) -> NoDup xs -> (forall v, In v xs -> t_input_leaf g0 v) ->
  t_grad pop debug fuel [t] xs g = Ok (l, g', log) -> exact_in rnd ls g' ->
  conform ls rho -> leaf_arrays g' feeder (array_list e) rho ->
  c_graph c = num_graph g' -> good c ->
  updatable opt e (c_graph c) xs (map fst l) -> shared_readers opt e (c_graph c) xs (map fst l) ->
  (forall v vid sids s i, In v xs -> var_tensor (c_graph c) v vid -> state_ids opt e vid sids -> In s sids ->
     ~ var_tensor (c_graph c) i s) ->
  (forall v vid, In v xs -> var_tensor (c_graph c) v vid -> exists sids svs, state_ids opt e vid sids /\
     Forall2 (fun sid a => nth_error (array_list e) sid = Some a) sids svs /\ no_momentum powf opt (ls v) svs) ->
  (exists v r i, In (v, r) (combine xs l) /\ in_bounds (ls v) i /\ aget 0 (aval rho g' (fst r)) i <> 0) ->
  exists delta, 0 < delta /\
    forall lr fuel2 c' e', 0 < lr < delta ->
      update (NTens TLeaf) NOpt (num_compute rnd powf) debug fuel2 (with_rate opt lr) e c xs (map fst l) feeder = Ok (c', e') ->
      exists rho', conform ls rho' /\ leaf_arrays g' feeder (array_list e') rho' /\
        sine_error n m (rho' x) (map rho' ws) (rho' last) < sine_error n m (rho x) (map rho ws) (rho last).
Proof.
  intros ls n m x ws last t g0 g g' rnd powf pop debug fuel xs l log e c feeder rho opt
    W Hl Hs Hm Hp Nx Hx H X C HL Hc Hgd U S St Nm Nz.
  destruct (sine_graph _ _ _ _ _ _ _ _ _ W Hl Hs Hm) as (W' & G & T & V & Sm).
  assert (Hlt : forall v, t_input_leaf g0 v -> (v < length g0)%nat).
  { intros v (nd & Hnd & _). apply nth_error_Some. congruence. }
  assert (Hy : forall y, In y [t] -> fits ls g y /\ exists sh, shaped ls g y sh).
  { intros y [<-|[]]. split; [|exists []; exact T]. apply (Sm rho x C I). apply Hlt. apply Hl. left. reflexivity. }
  assert (Hx' : forall v, In v xs -> t_input_leaf g v).
  { intros v Hv. destruct (Hx v Hv) as (nd & Hnd & Hn2). exists nd. split; [exact (grows_nth g0 g v nd G Hnd)|exact Hn2]. }
  assert (Hsm : forall v y, In v xs -> In y [t] -> t_smooth ls g rho v y).
  { intros v y Hv [<-|[]]. apply (Sm rho v C I). apply Hlt. auto. }
  destruct (step_descends false rnd powf pop debug fuel ls [t] xs g g' l log (sound_false ls g W') Hp Hy Nx Hx' H (proj1 (exact_in_x rnd ls g') X) e c feeder rho C HL Hsm Hc Hgd opt U S St Nm Nz) as (delta & Hd & K).
  exists delta. split; [exact Hd|]. intros lr fuel2 c' e' Hlr Hup. destruct (K lr fuel2 c' e' Hlr Hup) as (rho' & C' & HL' & Hlt').
  exists rho'. split; [exact C'|]. split; [exact HL'|].
  rewrite (sine_total ls n m x ws last t g0 g rho W Hl Hs Hm C) in Hlt'.
  rewrite (sine_total ls n m x ws last t g0 g rho' W Hl Hs Hm C') in Hlt'. exact Hlt'.
Qed.
Print Assumptions C85_step_decreases_loss.

(** ** An example *)

(** Two inputs, 1 and 2, two hidden layers of width 2.  Variables 0 (inputs), 1 and 2
    (hidden layers), 3 (last layer). *)
Definition sn_ls (i : nat) : list nat := match i with 0 => [2; 1] | 1 => [1; 2] | 2 => [2; 2] | 3 => [2; 1] | _ => [] end%nat.
Definition sn_start : tgraph := [t_var 0; t_var 1; t_var 2; t_var 3].
Notation sn_build := (sine_loss 0 [1%nat; 2%nat] 3).
Definition sn_graph : tgraph := match sn_build sn_start with Some (_, g) => g | None => [] end.
Definition sn_y : nat := match sn_build sn_start with Some (y, _) => y | None => 0%nat end.
(** From the last layer to the first (see C65 for the reason). *)
Definition sn_xs : list nat := [3; 2; 1]%nat.
Definition sn_result := t_grad (@max_pop top) true 2000 [sn_y] sn_xs sn_graph.
Definition sn_g' : tgraph := res_graph sn_result.
Definition sn_ctx : context nop := Context (num_graph sn_g') (own_ids 4).
Definition sn_rho (i : nat) : arr R :=
  match i with
  | 0%nat => Arr [2; 1]%nat [1; 2]
  | 1%nat => Arr [1; 2]%nat [1; 1]
  | 2%nat => Arr [2; 2]%nat [1; 0; 0; 1]
  | 3%nat => Arr [2; 1]%nat [0; 0]
  | _ => Arr [] [0]
  end.
Definition sn_env : env (arr R) := Env (map sn_rho (seq 0 4)) [].
Notation sn_gs := (map fst (res_tensors sn_result)).
(** In the order of the layers the first layers' gradients read changed last layers. *)
Lemma sn_layer_order : readers_in_time_b sn_g' sn_xs sn_gs = true /\ readers_in_time_b sn_g' (rev sn_xs) (rev sn_gs) = false.
Proof. split; vm_compute; reflexivity. Qed.
Definition exact_sizes_b (rnd : Z -> Z) (ls : nat -> list nat) (g : tgraph) : bool :=
  forallb (fun t => match t with Some (TyI l) => forallb (fun z => (rnd z =? z)%Z) l | _ => true end) (ttypes ls g) &&
  forallb (fun n => match n_op n with
    | TSize => forallb (fun inc => match nth_error (ttypes ls g) (in_id inc) with
        | Some (Some (TyA sh)) => (rnd (Z.of_nat (prod sh)) =? Z.of_nat (prod sh))%Z | _ => true end) (n_inputs n)
    | _ => true end) g.
Lemma exact_sizes_sound rnd ls g : exact_sizes_b rnd ls g = true -> exact_in rnd ls g.
Proof.
  unfold exact_sizes_b. rewrite andb_true_iff, !forallb_forall. intros [A B]. split.
  - intros i l Hl z Hz. specialize (A _ (nth_error_In _ _ Hl)). cbn in A. rewrite forallb_forall in A.
    apply Z.eqb_eq. apply A. exact Hz.
  - intros i n inc sh Hn Ho Hin Hs. specialize (B n (nth_error_In _ _ Hn)). rewrite Ho, forallb_forall in B. specialize (B inc Hin).
    unfold shaped in Hs. rewrite Hs in B. apply Z.eqb_eq. exact B.
Qed.
Lemma sn_sizes : sine_sizes sn_ls 2 1 0 [1%nat; 2%nat] 3.
Proof. split; [lia|]. split; [lia|]. split; [reflexivity|]. exists 2%nat. split; [lia|]. split; [reflexivity|]. exists 2%nat. split; [lia|]. split; reflexivity. Qed.
Lemma sn_made : sn_build sn_start = Some (sn_y, sn_graph).
Proof.
  assert (B : match sn_build sn_start with Some _ => true | None => false end = true) by (vm_compute; reflexivity).
  unfold sn_y, sn_graph. destruct (sn_build sn_start) as [[y g]|]; [reflexivity|discriminate].
Qed.
Lemma sn_twf : twf sn_ls sn_start.
Proof. apply twf_b_sound. vm_compute. reflexivity. Qed.
Lemma sn_inputs v : (v < 4)%nat -> t_input_leaf sn_start v.
Proof. intros H. destruct v as [|[|[|[|v]]]]; [| | | |lia]; eexists; (split; [reflexivity|split; reflexivity]). Qed.
Lemma sn_twf' : twf sn_ls sn_g'.
Proof. apply twf_b_sound. vm_compute. reflexivity. Qed.
Lemma sn_vars : var_leaves_b 4 sn_g' = true.
Proof. vm_compute. reflexivity. Qed.
Lemma sn_leaf : forall v, (v < 4)%nat -> exists n, nth_error sn_g' v = Some n /\ n_op n = TLeaf.
Proof. apply leaves_first_sound. vm_compute. reflexivity. Qed.
Lemma sn_grad_ids gr : In gr sn_gs -> (4 <= gr < length (num_graph sn_g'))%nat.
Proof. apply ids_between_sound. vm_compute. reflexivity. Qed.
Lemma sn_ctx_graph : c_graph sn_ctx = num_graph sn_g'.
Proof. unfold sn_ctx. cbn [c_graph]. reflexivity. Qed.
Lemma sn_good : good sn_ctx.
Proof. exact (vn_good 4 sn_ls sn_g' sn_twf' sn_vars sn_leaf). Qed.
Lemma sn_params : NoDup sn_xs /\ forall p, In p sn_xs -> (p < 4)%nat.
Proof. split; [repeat constructor; cbn; intuition discriminate|]. intros p [<-|[<-|[<-|[]]]]; lia. Qed.
Lemma sn_updatable lr : updatable (SGD lr) sn_env (c_graph sn_ctx) sn_xs sn_gs.
Proof. exact (vn_updatable 4 sn_ls sn_g' sn_twf' sn_vars sn_leaf sn_env lr sn_xs sn_gs (proj1 sn_params) (proj2 sn_params) sn_grad_ids). Qed.
Lemma sn_shared lr : shared_readers (SGD lr) sn_env (c_graph sn_ctx) sn_xs sn_gs.
Proof. exact (vn_shared 4 sn_ls sn_g' sn_twf' sn_vars sn_env lr sn_xs sn_gs sn_grad_ids (proj1 sn_layer_order)). Qed.
Lemma sn_conform : conform sn_ls sn_rho.
Proof. intros i. destruct i as [|[|[|[|i]]]]; split; reflexivity. Qed.
Lemma sn_leaves : leaf_arrays sn_g' [] (array_list sn_env) sn_rho.
Proof.
  apply arrays_of_leaves. change (map (fun a => TA a) (array_list sn_env)) with (map (fun i => TA (sn_rho i)) (seq 0 4)).
  apply var_leaves_sound. vm_compute. reflexivity.
Qed.
Lemma sn_ok : exists log, t_grad (@max_pop top) true 2000 [sn_y] sn_xs sn_graph = Ok (res_tensors sn_result, sn_g', log).
Proof.
  assert (B : is_ok sn_result = true) by (vm_compute; reflexivity).
  assert (Q : sn_result = t_grad (@max_pop top) true 2000 [sn_y] sn_xs sn_graph) by reflexivity.
  rewrite <- Q. unfold sn_g'. apply is_ok_sound. exact B.
Qed.
Lemma sn_exact : exact_in (float_int 24) sn_ls sn_g'.
Proof. apply exact_sizes_sound. vm_compute. reflexivity. Qed.
Lemma sn_states : forall x vid, In x sn_xs -> var_tensor (c_graph sn_ctx) x vid -> exists sids svs, state_ids (SGD 1) sn_env vid sids /\
     Forall2 (fun sid a => nth_error (array_list sn_env) sid = Some a) sids svs /\ no_momentum Rpower (SGD 1) (sn_ls x) svs.
Proof. intros x vid _ _. exists [], []. split; [constructor|]. split; [constructor|]. exact I. Qed.
Notation sn_error rho := (sine_error 2 1 (rho 0%nat) (map rho [1%nat; 2%nat]) (rho 3%nat)).
(** The error as a function of the first weight of the last layer. *)
Lemma sn_along (rho : nat -> arr R) h : (forall i, i <> 3%nat -> rho i = sn_rho i) -> rho 3%nat = Arr [2; 1]%nat [h; 0] ->
  sn_error rho = ((h * tanh (tanh 1) - sin 1) * (h * tanh (tanh 1) - sin 1) + (h * tanh (tanh 2) - sin 2) * (h * tanh (tanh 2) - sin 2)) / 2.
Proof.
  intros E E3. cbn [map]. rewrite E3, !E by lia. cbv -[Rplus Rmult Rminus Rdiv Rinv Ropp IZR tanh sin]. 
  rewrite !Rmult_1_r, !Rmult_0_r, !Rplus_0_r, !Rplus_0_l. field.
Qed.
Lemma tanh_positive a : 0 < a -> 0 < tanh a.
Proof.
  intros H. unfold tanh, sinh, cosh. pose proof (exp_pos (- a)). assert (exp (- a) < exp a) by (apply exp_increasing; lra).
  apply Rdiv_lt_0_compat; lra.
Qed.
Lemma sn_positive : 0 < tanh (tanh 1) * sin 1 + tanh (tanh 2) * sin 2.
Proof.
  assert (0 < sin 1) by (apply sin_gt_0; pose proof PI2_1; lra). assert (0 < sin 2) by (apply sin_gt_0; pose proof PI2_1; lra).
  assert (0 < tanh (tanh 1)) by (apply tanh_positive, tanh_positive; lra). assert (0 < tanh (tanh 2)) by (apply tanh_positive, tanh_positive; lra).
  assert (0 < tanh (tanh 1) * sin 1) by (apply Rmult_lt_0_compat; auto). assert (0 < tanh (tanh 2) * sin 2) by (apply Rmult_lt_0_compat; auto). lra.
Qed.
Lemma sn_slope : derivable_pt_lim (fun h => ((h * tanh (tanh 1) - sin 1) * (h * tanh (tanh 1) - sin 1) + (h * tanh (tanh 2) - sin 2) * (h * tanh (tanh 2) - sin 2)) / 2) 0
  (- (tanh (tanh 1) * sin 1 + tanh (tanh 2) * sin 2)).
Proof.
  generalize (tanh (tanh 1)) (tanh (tanh 2)) (sin 1) (sin 2). intros a b p q. apply is_derive_Reals. auto_derive; [auto|]. field.
Qed.
Definition sn_dir (i : nat) : arr R := if (i =? 3)%nat then Arr [2; 1]%nat [1; 0] else full (sn_ls i) 0.
Lemma sn_dir_shape v : has_shape (sn_ls v) (sn_dir v).
Proof. destruct v as [|[|[|[|v]]]]; split; reflexivity. Qed.
Lemma sn_moved i h : i <> 3%nat -> move sn_rho sn_xs sn_dir h i = sn_rho i.
Proof.
  intros Hi. unfold move. destruct (existsb (Nat.eqb i) sn_xs); [|reflexivity].
  destruct i as [|[|[|[|i]]]]; try congruence; cbv -[Rplus Rmult Rdiv Rinv Ropp IZR]; f_equal; repeat (apply f_equal2; [lra|]); reflexivity.
Qed.
Lemma sn_moved3 h : move sn_rho sn_xs sn_dir h 3 = Arr [2; 1]%nat [h; 0].
Proof. cbv -[Rplus Rmult Rdiv Rinv Ropp IZR]; f_equal; repeat (apply f_equal2; [lra|]); reflexivity. Qed.
Lemma dot_zeros a sh : dot a (full sh 0) = 0.
Proof.
  unfold dot, full, tab. cbn [a_data]. generalize (indices sh). induction (a_data a) as [|x l IH]; intros [|n m]; cbn; try reflexivity. rewrite IH. ring.
Qed.
Lemma sn_tensors : exists t3 b3 l, res_tensors sn_result = (t3, b3) :: l.
Proof. eexists _, _, _. vm_compute. reflexivity. Qed.
Lemma sn_all_leaves v : In v (0%nat :: [1%nat; 2%nat] ++ [3%nat]) -> t_input_leaf sn_start v.
Proof. intros Hv. apply sn_inputs. cbn in Hv. lia. Qed.
Lemma sn_gradient : exists v r i, In (v, r) (combine sn_xs (res_tensors sn_result)) /\ in_bounds (sn_ls v) i /\ aget 0 (aval sn_rho sn_g' (fst r)) i <> 0.
Proof.
  destruct sn_ok as (log & Hg). pose proof sn_params as [Nx Hx].
  destruct (C85_gradients sn_ls 2 1 0 [1%nat; 2%nat] 3 sn_y sn_start sn_graph sn_g' (@max_pop top) true 2000
    sn_xs (res_tensors sn_result) log sn_rho sn_dir sn_twf sn_all_leaves sn_sizes sn_made (fun g => max_pop_ok g) Nx) as [F D].
  - intros v Hv. apply sn_inputs. auto.
  - exact Hg.
  - exact sn_conform.
  - intros v _. apply sn_dir_shape.
  - destruct sn_tensors as (t3 & b3 & l & E). rewrite E in *.
    assert (D' : derivable_pt_lim (fun h => ((h * tanh (tanh 1) - sin 1) * (h * tanh (tanh 1) - sin 1) + (h * tanh (tanh 2) - sin 2) * (h * tanh (tanh 2) - sin 2)) / 2) 0
      (dot (aval sn_rho sn_g' t3) (Arr [2; 1]%nat [1; 0]))).
    { revert D. change (combine sn_xs ((t3, b3) :: l)) with ((3%nat, (t3, b3)) :: combine [2; 1]%nat l). rewrite map_cons. cbn [fold_right]. cbn [fst snd].
      assert (Z : forall xs, ~ In 3%nat xs -> fold_right Rplus 0 (map (fun p => dot (aval sn_rho sn_g' (fst (snd p))) (sn_dir (fst p))) (combine xs l)) = 0).
      { clear. intros xs. revert l. induction xs as [|x xs IH]; intros [|r l] H; try reflexivity. cbn [combine map fold_right fst snd]. rewrite IH by (intros K; apply H; right; exact K).
        unfold sn_dir. destruct (x =? 3)%nat eqn:Q; [apply Nat.eqb_eq in Q; subst; exfalso; apply H; left; reflexivity|]. rewrite dot_zeros. ring. }
      rewrite Z by (cbn; lia). rewrite Rplus_0_r. apply lim_ext. intros h. cbv zeta. apply sn_along; [intros i Hi; apply sn_moved; exact Hi|apply sn_moved3]. }
    pose proof (uniqueness_limite _ _ _ _ D' sn_slope) as Q.
    exists 3%nat, (t3, b3), [0; 0]%nat. split; [left; reflexivity|]. split; [repeat constructor|].
    cbn [fst]. intros K. inversion F as [|? ? ? ? F1 _]; subst. cbn [fst] in F1.
    destruct (typed_aval sn_ls sn_rho sn_g' t3 [2; 1]%nat sn_conform (proj1 (shaped_typed sn_ls sn_g' t3 [2; 1]%nat) F1)) as (_ & Hs & Hl).
    revert K Q Hs Hl. generalize (aval sn_rho sn_g' t3). intros [sh d] K Q Hs Hl. cbn [a_shape a_data] in *. subst sh.
    destruct d as [|u [|v [|? ?]]]; try discriminate Hl. cbn in K. subst u. unfold dot in Q. cbn [a_data map2 fold_right] in Q.
    pose proof sn_positive. lra.
Qed.
(** All hypotheses hold; [update] returns; small rates decrease the error, which is
    ((sin 1)^2 + (sin 2)^2) / 2. *)
Example C85_hypotheses_met :
  twf sn_ls sn_start /\ sine_sizes sn_ls 2 1 0 [1%nat; 2%nat] 3 /\ sine_loss 0 [1%nat; 2%nat] 3 sn_start = Some (sn_y, sn_graph) /\
  sn_error sn_rho = (sin 1 * sin 1 + sin 2 * sin 2) / 2 /\
  leaf_arrays sn_g' [] (array_list sn_env) sn_rho /\ exact_in (float_int 24) sn_ls sn_g' /\ good sn_ctx /\
  updatable (SGD 1) sn_env (c_graph sn_ctx) sn_xs sn_gs /\ shared_readers (SGD 1) sn_env (c_graph sn_ctx) sn_xs sn_gs /\
  exists delta, 0 < delta /\ forall lr, 0 < lr < delta ->
    exists c' e' rho',
      update (NTens TLeaf) NOpt (num_compute (float_int 24) Rpower) true 2000 (SGD lr) sn_env sn_ctx sn_xs sn_gs [] = Ok (c', e') /\
      leaf_arrays sn_g' [] (array_list e') rho' /\ sn_error rho' < (sin 1 * sin 1 + sin 2 * sin 2) / 2.
Proof.
  assert (Lx : forall v, In v sn_xs -> t_input_leaf sn_start v) by (intros v Hv; apply sn_inputs; apply (proj2 sn_params); exact Hv).
  assert (V : sn_error sn_rho = (sin 1 * sin 1 + sin 2 * sin 2) / 2).
  { rewrite (sn_along sn_rho 0); [field|reflexivity|reflexivity]. }
  destruct sn_ok as (log & Hg).
  split; [exact sn_twf|]. split; [exact sn_sizes|]. split; [exact sn_made|]. split; [exact V|].
  split; [exact sn_leaves|]. split; [exact sn_exact|]. split; [exact sn_good|].
  split; [apply sn_updatable|]. split; [apply sn_shared|].
  destruct (C85_step_decreases_loss sn_ls 2 1 0 [1%nat; 2%nat] 3 sn_y sn_start sn_graph sn_g' (float_int 24) Rpower (@max_pop top) true 2000
    sn_xs (res_tensors sn_result) log sn_env sn_ctx [] sn_rho (SGD 1) sn_twf sn_all_leaves sn_sizes sn_made (fun g => max_pop_ok g) (proj1 sn_params) Lx Hg sn_exact
    sn_conform sn_leaves sn_ctx_graph sn_good (sn_updatable 1) (sn_shared 1)) as (delta & Hd & K).
  - intros x vid sids s i _ _ Hs Hin. inversion Hs; subst. destruct Hin.
  - exact sn_states.
  - exact sn_gradient.
  - exists delta. split; [exact Hd|]. intros lr Hlr.
    assert (HC : exists c' us, compute_updates (NTens TLeaf) NOpt (SGD lr) sn_env sn_ctx sn_xs sn_gs = Some (c', us) /\
      (2 * (length us + edge_count (c_graph c')) < 2000)%nat).
    { eexists _, _. split; [vm_compute; reflexivity|]. apply Nat.ltb_lt. vm_compute. reflexivity. }
    destruct HC as (c' & us & HC & Hf).
    destruct (sine_graph _ _ _ _ _ _ _ _ _ sn_twf sn_all_leaves sn_sizes sn_made) as (W' & G & T & _ & Sm).
    assert (Hy : forall y, In y [sn_y] -> fits sn_ls sn_graph y /\ exists sh, shaped sn_ls sn_graph y sh).
    { intros y [<-|[]]. split; [|exists []; exact T]. apply (Sm sn_rho 0%nat sn_conform I). cbn. lia. }
    assert (Hsm : forall v y, In v sn_xs -> In y [sn_y] -> t_smooth sn_ls sn_graph sn_rho v y).
    { intros v y Hv [<-|[]]. apply (Sm sn_rho v sn_conform I). exact (proj2 sn_params v Hv). }
    assert (Hx' : forall v, In v sn_xs -> t_input_leaf sn_graph v).
    { intros v Hv. destruct (Lx v Hv) as (n & Hn & Hn2). exists n. split; [exact (grows_nth sn_start sn_graph v n G Hn)|exact Hn2]. }
    destruct (C63_step_returns (float_int 24) Rpower (@max_pop top) true 2000 2000 sn_ls [sn_y] sn_xs us sn_graph sn_g'
      (res_tensors sn_result) log sn_env sn_ctx c' [] sn_rho (SGD 1) lr W' (fun g => max_pop_ok g) Hy (proj1 sn_params) Hx' Hg sn_exact sn_conform sn_leaves
      Hsm sn_ctx_graph sn_good (sn_updatable 1) (sn_shared 1) sn_states HC Hf) as (e' & Hup).
    destruct (K lr 2000%nat c' e' Hlr Hup) as (rho' & _ & HL & Hlt).
    exists c', e', rho'. split; [exact Hup|]. split; [exact HL|]. rewrite V in Hlt. exact Hlt.
Qed.
