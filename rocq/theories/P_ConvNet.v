(** Property C65: convolutional classifiers (examples/cnn_mnist.rs). *)
From Coq Require Import String List Arith ZArith NArith Bool Reals Lra Lia.
From Coquelicot Require Import Coquelicot.
Import ListNotations.
From Verif Require Import Graph_Model Eval_Model Eval_Spec Eval_Proofs Eval_Proofs2 Graph_Proofs Eval_Update Var_Model Grad_Model Grad_Spec Grad_Examples Scalar_Proofs.
From Verif Require Import Array_Model Array_Proofs Arith_Model Vjp_Spec Vjp_Proofs Scalar_Model Dot_Spec Conv_Spec
  Tens_Model Tens_Spec Tens_Build Tens_Grad Tens_Final Tens_Joint Tens_Examples Comp_Spec Tens_Comp.
From Verif Require Import Opt_Model Opt_Proofs Opt_Effect Num_Model Num_Spec Num_Proofs P_Num Train_Spec Train_Proofs Train_Step P_Train Train_Witness.
From Verif Require Import Net_Model Net_Spec Net_Proofs.
Local Open Scope R_scope.
Local Set Bullet Behavior "Strict Subproofs".

(** ** C65: convolutional classifiers *)

(** The facts about the graph that the theorems below share. *)
Lemma net_graph (checked : bool) (lowest : R) (bits : N) (ls : nat -> list nat) (ks : list block) (img flat labels : list Z) (x w b t : nat) (g0 g : tgraph) :
  twf ls g0 -> (forall v, In v (net_leaves ks x w b) -> t_input_leaf g0 v) -> lowest < 0 ->
  net_sizes checked bits ls ks img flat labels x w b = true ->
  mean_loss checked lowest bits ks img flat labels x w b g0 = Some (t, g) ->
  twf ls g /\ grows g0 g /\
  at_ ls (length g0) g t [1%nat] (fun rho => Arr [1%nat] [net_loss ks img flat labels x w b rho])
    (fun rho => regular ks rho (arranged img (rho x))).
Proof.
  intros W Hl Hlow Hs Hm.
  assert (Hk : forall k, In k ks -> t_input_leaf g0 (k_w k) /\ t_input_leaf g0 (k_b k)).
  { intros k Hin. split; apply Hl; do 3 right; apply in_flat_map; exists k; (split; [exact Hin|]); [left|right; left]; reflexivity. }
  apply (net_made checked lowest bits ls (length g0) g0); auto; apply Hl; unfold net_leaves; [left|right; left|right; right; left]; reflexivity.
Qed.
Lemma net_total checked lowest bits ls ks img flat labels x w b t g0 g rho :
  twf ls g0 -> (forall v, In v (net_leaves ks x w b) -> t_input_leaf g0 v) -> lowest < 0 ->
  net_sizes checked bits ls ks img flat labels x w b = true ->
  mean_loss checked lowest bits ks img flat labels x w b g0 = Some (t, g) -> conform ls rho ->
  total_loss rho g [t] = net_loss ks img flat labels x w b rho.
Proof.
  intros W Hl Hlow Hs Hm C. destruct (net_graph _ _ _ _ _ _ _ _ _ _ _ _ _ _ W Hl Hlow Hs Hm) as (_ & _ & _ & V & _).
  unfold total_loss. cbn [map fold_right]. rewrite (V rho C). unfold elements_sum. cbn [a_data fold_right]. ring.
Qed.

Lemma move_conform ls rho xs dir h : conform ls rho -> (forall v, In v xs -> has_shape (ls v) (dir v)) -> conform ls (move rho xs dir h).
Proof.
  intros C Hd i. unfold move. destruct (existsb (Nat.eqb i) xs) eqn:E; [|apply C]. apply existsb_exists in E. destruct E as (j & Hj & Q).
  apply Nat.eqb_eq in Q. subst j. apply step_has_shape; auto.
Qed.
Lemma lim_ext f g a l : (forall h, f h = g h) -> derivable_pt_lim f a l -> derivable_pt_lim g a l.
Proof. intros E H eps He. destruct (H eps He) as (d & Hd). exists d. intros h. rewrite <- !E. apply Hd. Qed.

(** Evaluating the loss gives the average over the images of the negative log
    probability of the label, as the formulas of convolution, relu, pooling and
    softmax define it. *)
Theorem C65_loss :
  forall (checked : bool) (lowest : R) (bits : N) (ls : nat -> list nat) (ks : list block) (img flat labels : list Z)
    (x w b t : nat) (g0 g : tgraph) (debug : bool) (feeds : list (ph_key * tv)) (env : list tv) (rho : nat -> arr R),
  twf ls g0 -> (forall v, In v (net_leaves ks x w b) -> t_input_leaf g0 v) -> lowest < 0 ->
  net_sizes checked bits ls ks img flat labels x w b = true ->
  mean_loss checked lowest bits ks img flat labels x w b g0 = Some (t, g) ->
  conform ls rho -> t_leaf_values g feeds env rho ->
  tensor_value tv_shape tens_compute debug g feeds env t (inl (TA (Arr [1%nat] [net_loss ks img flat labels x w b rho]))).
Proof.
  intros checked lowest bits ls ks img flat labels x w b t g0 g debug feeds env rho W Hl Hlow Hs Hm C HL.
  destruct (net_graph _ _ _ _ _ _ _ _ _ _ _ _ _ _ W Hl Hlow Hs Hm) as (W' & _ & T & V & _).
  rewrite <- (V rho C). apply (tens_tensor_value ls g W' debug feeds env rho C HL t [1%nat]). exact T.
Qed.
Print Assumptions C65_loss.

(** Away from kinks and ties, the tensors that [grad] returns for any of the
    network's leaves are the derivative of the loss. *)
Theorem C65_gradients :
  forall (checked : bool) (lowest : R) (bits : N) (ls : nat -> list nat) (ks : list block) (img flat labels : list Z)
    (x w b t : nat) (g0 g g' : tgraph) (pop : tgraph -> list nat -> option (nat * list nat)) (debug : bool) (fuel : nat)
    (xs : list nat) (l : list (nat * bool)) (log : list nat) (rho dir : nat -> arr R),
  twf ls g0 -> (forall v, In v (net_leaves ks x w b) -> t_input_leaf g0 v) -> lowest < 0 ->
  net_sizes checked bits ls ks img flat labels x w b = true ->
  mean_loss checked lowest bits ks img flat labels x w b g0 = Some (t, g) ->
  (forall g, heap_pop g (pop g)) -> NoDup xs -> (forall v, In v xs -> t_input_leaf g0 v) ->
  t_grad pop debug fuel [t] xs g = Ok (l, g', log) ->
  conform ls rho -> regular ks rho (arranged img (rho x)) ->
  (forall v, In v xs -> has_shape (ls v) (dir v)) ->
  Forall2 (fun v r => shaped ls g' (fst r) (ls v)) xs l /\
  derivable_pt_lim (fun h => net_loss ks img flat labels x w b (move rho xs dir h)) 0
    (fold_right Rplus 0 (map (fun p => dot (aval rho g' (fst (snd p))) (dir (fst p))) (combine xs l))).
Proof.
  intros checked lowest bits ls ks img flat labels x w b t g0 g g' pop debug fuel xs l log rho dir W Hl Hlow Hs Hm Hp Nx Hx H C Hr Hd.
  destruct (net_graph _ _ _ _ _ _ _ _ _ _ _ _ _ _ W Hl Hlow Hs Hm) as (W' & G & T & V & S).
  assert (Hlt : forall v, t_input_leaf g0 v -> (v < length g0)%nat).
  { intros v (n & Hn & _). apply nth_error_Some. congruence. }
  assert (HF : fits ls g t).
  { apply (S rho x C Hr). apply Hlt. apply Hl. left. reflexivity. }
  assert (Hy : forall y, In y [t] -> fits ls g y /\ exists sh, shaped ls g y sh).
  { intros y [<-|[]]. split; [exact HF|]. exists [1%nat]. exact T. }
  assert (Hx' : forall v, In v xs -> t_input_leaf g v).
  { intros v Hv. destruct (Hx v Hv) as (n & Hn & Hn2). exists n. split; [exact (grows_nth g0 g v n G Hn)|exact Hn2]. }
  destruct (tgrad_derivative pop debug fuel [t] xs ls g l g' log W' Hp Hy Nx Hx' H) as (_ & _ & F).
  split.
  - clear -F. induction F as [|v r vs rs [F1 _] _ IH]; constructor; [exact F1|exact IH].
  - assert (Hsm : forall v y, In v xs -> In y [t] -> t_smooth ls g rho v y).
    { intros v y Hv [<-|[]]. apply (S rho v C Hr). apply Hlt. auto. }
    pose proof (C63_total_derivative pop debug fuel ls [t] xs g g' l log rho dir W' Hp Hy Nx Hx' H C Hsm Hd) as D.
    revert D. apply lim_ext. intros h.
    apply (net_total checked lowest bits ls ks img flat labels x w b t g0 g); auto. apply move_conform; auto.
Qed.
Print Assumptions C65_gradients.

(** One step of an optimizer without momentum, with any sufficiently small learning
    rate, makes the classifier's loss smaller, unless all gradients are zero. *)
Theorem C65_step_decreases_loss :
  forall (checked : bool) (lowest : R) (bits : N) (ls : nat -> list nat) (ks : list block) (img flat labels : list Z)
    (x w b t : nat) (g0 g g' : tgraph) (rnd : Z -> Z) (powf : R -> R -> R)
    (pop : tgraph -> list nat -> option (nat * list nat)) (debug : bool) (fuel : nat)
    (xs : list nat) (l : list (nat * bool)) (log : list nat)
    (e : env (arr R)) (c : context nop) (feeder : list (ph_key * arr R)) (rho : nat -> arr R) (opt : optimizer),
  twf ls g0 -> (forall v, In v (net_leaves ks x w b) -> t_input_leaf g0 v) -> lowest < 0 ->
  net_sizes checked bits ls ks img flat labels x w b = true ->
  mean_loss checked lowest bits ks img flat labels x w b g0 = Some (t, g) ->
  (forall g, heap_pop g (pop g)) -> NoDup xs -> (forall v, In v xs -> t_input_leaf g0 v) ->
  t_grad pop debug fuel [t] xs g = Ok (l, g', log) -> exact_in rnd ls g' ->
  conform ls rho -> regular ks rho (arranged img (rho x)) -> leaf_arrays g' feeder (array_list e) rho ->
  c_graph c = num_graph g' -> good c ->
  updatable opt e (c_graph c) xs (map fst l) -> shared_readers opt e (c_graph c) xs (map fst l) ->
  (forall v vid sids s i, In v xs -> var_tensor (c_graph c) v vid -> state_ids opt e vid sids -> In s sids ->
     ~ var_tensor (c_graph c) i s) ->
  (forall v vid, In v xs -> var_tensor (c_graph c) v vid -> exists sids svs, state_ids opt e vid sids /\
     Forall2 (fun sid a => nth_error (array_list e) sid = Some a) sids svs /\ no_momentum powf opt (ls v) svs) ->
  (exists v r i, In (v, r) (combine xs l) /\ in_bounds (ls v) i /\ aget 0 (aval rho g' (fst r)) i <> 0) ->
  exists delta, 0 < delta /\
    forall lr fuel2 c' e', 0 < lr < delta ->
      update (NTens TLeaf) NOpt (num_compute rnd powf) debug fuel2 (with_rate opt lr) e c xs (map fst l) feeder = Ok (c', e') ->
      exists rho', conform ls rho' /\ leaf_arrays g' feeder (array_list e') rho' /\
        net_loss ks img flat labels x w b rho' < net_loss ks img flat labels x w b rho.
Proof.
  intros checked lowest bits ls ks img flat labels x w b t g0 g g' rnd powf pop debug fuel xs l log e c feeder rho opt
    W Hl Hlow Hs Hm Hp Nx Hx H X C Hr HL Hc Hgd U S St Nm Nz.
  destruct (net_graph _ _ _ _ _ _ _ _ _ _ _ _ _ _ W Hl Hlow Hs Hm) as (W' & G & T & V & Sm).
  assert (Hlt : forall v, t_input_leaf g0 v -> (v < length g0)%nat).
  { intros v (n & Hn & _). apply nth_error_Some. congruence. }
  assert (Hy : forall y, In y [t] -> fits ls g y /\ exists sh, shaped ls g y sh).
  { intros y [<-|[]]. split; [|exists [1%nat]; exact T]. apply (Sm rho x C Hr). apply Hlt. apply Hl. left. reflexivity. }
  assert (Hx' : forall v, In v xs -> t_input_leaf g v).
  { intros v Hv. destruct (Hx v Hv) as (n & Hn & Hn2). exists n. split; [exact (grows_nth g0 g v n G Hn)|exact Hn2]. }
  assert (Hsm : forall v y, In v xs -> In y [t] -> t_smooth ls g rho v y).
  { intros v y Hv [<-|[]]. apply (Sm rho v C Hr). apply Hlt. auto. }
  destruct (step_descends false rnd powf pop debug fuel ls [t] xs g g' l log (sound_false ls g W') Hp Hy Nx Hx' H (proj1 (exact_in_x rnd ls g') X) e c feeder rho C HL Hsm Hc Hgd opt U S St Nm Nz) as (delta & Hd & K).
  exists delta. split; [exact Hd|]. intros lr fuel2 c' e' Hlr Hup. destruct (K lr fuel2 c' e' Hlr Hup) as (rho' & C' & HL' & Hlt').
  exists rho'. split; [exact C'|]. split; [exact HL'|].
  rewrite (net_total checked lowest bits ls ks img flat labels x w b t g0 g rho W Hl Hlow Hs Hm C) in Hlt'.
  rewrite (net_total checked lowest bits ls ks img flat labels x w b t g0 g rho' W Hl Hlow Hs Hm C') in Hlt'. exact Hlt'.
Qed.
Print Assumptions C65_step_decreases_loss.

(** ** An example *)

(** One image of 4 by 4 pixels, one filter of 3 by 3 with padding 1, windows of 2 by
    2, two classes.  Variables 0 (image), 1 (filter), 2 (its bias), 3 and 4 (last layer). *)
Definition cnn_ls (i : nat) : list nat :=
  match i with
  | 0 => [1; 16] | 1 => [1; 1; 3; 3] | 2 => [1; 1; 1; 1] | 3 => [4; 2] | 4 => [1; 2] | _ => []
  end%nat.
Definition cnn_ks : list block := [Block 1 2 1 1 2 2].
Definition cnn_img : list Z := [(-1); 1; 4; 4]%Z.
Definition cnn_flat : list Z := [(-1); 4]%Z.
Definition cnn_start : tgraph := [t_var 0; t_var 1; t_var 2; t_var 3; t_var 4].
Notation cnn_build := (mean_loss true (-1) 24 cnn_ks cnn_img cnn_flat [1%Z] 0 3 4).
Definition cnn_graph : tgraph := match cnn_build cnn_start with Some (_, g) => g | None => [] end.
Definition cnn_y : nat := match cnn_build cnn_start with Some (y, _) => y | None => 0%nat end.
(** From the last layer to the first: [update] starts with the last parameter
    listed, and in the other order it would change the last layer before the
    filter's gradient reads it ([cnn_layer_order], [C26_simultaneous_refuted]). *)
Definition cnn_xs : list nat := [4; 3; 2; 1]%nat.
Definition cnn_result := t_grad (@max_pop top) true 2000 [cnn_y] cnn_xs cnn_graph.
Definition cnn_g' : tgraph := res_graph cnn_result.
Definition cnn_ctx : context nop := Context (num_graph cnn_g') (own_ids 5).
Definition cnn_rho (i : nat) : arr R :=
  match i with
  | 0%nat => Arr [1; 16]%nat [1; 2; -1; -2;  3; 5; -3; -1;  1; 4; 7; 1;  2; 3; 5; 2]
  | 1%nat => Arr [1; 1; 3; 3]%nat [0; 0; 0; 0; 2; 1; 0; 0; 0]
  | 2%nat => Arr [1; 1; 1; 1]%nat [1 / 2]
  | 3%nat => Arr [4; 2]%nat [1; 0; 0; 1; 1; 1; 0; -1]
  | 4%nat => Arr [1; 2]%nat [0; 1]
  | _ => Arr [] [0]
  end.
Definition cnn_env : env (arr R) := Env (map cnn_rho (seq 0 5)) [].
Notation cnn_gs := (map fst (res_tensors cnn_result)).

Lemma cnn_layer_order : readers_in_time_b cnn_g' cnn_xs cnn_gs = true /\ readers_in_time_b cnn_g' (rev cnn_xs) (rev cnn_gs) = false.
Proof. split; vm_compute; reflexivity. Qed.
Lemma cnn_sizes : net_sizes true 24 cnn_ls cnn_ks cnn_img cnn_flat [1%Z] 0 3 4 = true.
Proof. vm_compute. reflexivity. Qed.
Lemma some_pair {B : Type} (d : B) (r : option (nat * B)) : match r with Some _ => true | None => false end = true ->
  r = Some (match r with Some (y, _) => y | None => 0%nat end, match r with Some (_, g) => g | None => d end).
Proof. destruct r as [[y g]|]; [reflexivity|discriminate]. Qed.
Lemma cnn_made : cnn_build cnn_start = Some (cnn_y, cnn_graph).
Proof.
  assert (B : match cnn_build cnn_start with Some _ => true | None => false end = true) by (vm_compute; reflexivity).
  unfold cnn_y, cnn_graph. apply some_pair. exact B.
Qed.
Lemma cnn_twf : twf cnn_ls cnn_start.
Proof. apply twf_b_sound. vm_compute. reflexivity. Qed.
Lemma cnn_inputs v : (v < 5)%nat -> t_input_leaf cnn_start v.
Proof. intros H. destruct v as [|[|[|[|[|v]]]]]; [| | | | |lia]; eexists; (split; [reflexivity|split; reflexivity]). Qed.
Lemma cnn_ctx_graph : c_graph cnn_ctx = num_graph cnn_g'.
Proof. reflexivity. Qed.
Lemma cnn_twf' : twf cnn_ls cnn_g'.
Proof. apply twf_b_sound. vm_compute. reflexivity. Qed.
Lemma cnn_vars : var_leaves_b 5 cnn_g' = true.
Proof. vm_compute. reflexivity. Qed.
Lemma cnn_leaf : forall v, (v < 5)%nat -> exists n, nth_error cnn_g' v = Some n /\ n_op n = TLeaf.
Proof. apply leaves_first_sound. vm_compute. reflexivity. Qed.
Lemma cnn_grad_ids gr : In gr cnn_gs -> (5 <= gr < length (num_graph cnn_g'))%nat.
Proof. apply ids_between_sound. vm_compute. reflexivity. Qed.
Lemma cnn_good : good cnn_ctx.
Proof. exact (vn_good 5 cnn_ls cnn_g' cnn_twf' cnn_vars cnn_leaf). Qed.
Lemma cnn_params : NoDup cnn_xs /\ forall p, In p cnn_xs -> (p < 5)%nat.
Proof. split; [repeat constructor; cbn; intuition discriminate|]. intros p [<-|[<-|[<-|[<-|[]]]]]; lia. Qed.
Lemma cnn_updatable lr : updatable (SGD lr) cnn_env (c_graph cnn_ctx) cnn_xs cnn_gs.
Proof. exact (vn_updatable 5 cnn_ls cnn_g' cnn_twf' cnn_vars cnn_leaf cnn_env lr cnn_xs cnn_gs (proj1 cnn_params) (proj2 cnn_params) cnn_grad_ids). Qed.
Lemma cnn_shared lr : shared_readers (SGD lr) cnn_env (c_graph cnn_ctx) cnn_xs cnn_gs.
Proof. exact (vn_shared 5 cnn_ls cnn_g' cnn_twf' cnn_vars cnn_env lr cnn_xs cnn_gs cnn_grad_ids (proj1 cnn_layer_order)). Qed.
Lemma cnn_conform : conform cnn_ls cnn_rho.
Proof. intros i. destruct i as [|[|[|[|[|i]]]]]; split; reflexivity. Qed.
Lemma cnn_leaves : leaf_arrays cnn_g' [] (array_list cnn_env) cnn_rho.
Proof.
  apply arrays_of_leaves. change (map (fun a => TA a) (array_list cnn_env)) with (map (fun i => TA (cnn_rho i)) (seq 0 5)).
  apply var_leaves_sound. vm_compute. reflexivity.
Qed.
Lemma cnn_ok : exists log, t_grad (@max_pop top) true 2000 [cnn_y] cnn_xs cnn_graph = Ok (res_tensors cnn_result, cnn_g', log).
Proof.
  assert (B : is_ok cnn_result = true) by (vm_compute; reflexivity).
  assert (Q : cnn_result = t_grad (@max_pop top) true 2000 [cnn_y] cnn_xs cnn_graph) by reflexivity.
  rewrite <- Q. unfold cnn_g'. apply is_ok_sound. exact B.
Qed.
Lemma cnn_exact : exact_in (float_int 24) cnn_ls cnn_g'.
Proof. apply exact_b_sound. vm_compute. reflexivity. Qed.
Lemma cnn_states : forall x vid, In x cnn_xs -> var_tensor (c_graph cnn_ctx) x vid -> exists sids svs, state_ids (SGD 1) cnn_env vid sids /\
     Forall2 (fun sid a => nth_error (array_list cnn_env) sid = Some a) sids svs /\ no_momentum Rpower (SGD 1) (cnn_ls x) svs.
Proof. intros x vid _ _. exists [], []. split; [constructor|]. split; [constructor|]. exact I. Qed.
(** What relu is applied to. *)
Lemma cnn_filtered : filtered (Block 1 2 1 1 2 2) (arranged cnn_img (cnn_rho 0)) (cnn_rho 1) (cnn_rho 2) =
  Arr [1; 1; 4; 4]%nat [9/2; 7/2; -7/2; -7/2;  23/2; 15/2; -13/2; -3/2;  13/2; 31/2; 31/2; 5/2;  15/2; 23/2; 25/2; 9/2].
Proof.
  cbv -[Rplus Rmult Rdiv Rinv Ropp IZR]. f_equal. repeat (apply f_equal2; [lra|]). reflexivity.
Qed.
Ltac cut_bounds := unfold in_bounds in *; repeat match goal with H : Forall2 _ _ _ |- _ => inversion H; clear H; subst end.
Lemma cnn_regular : regular cnn_ks cnn_rho (arranged cnn_img (cnn_rho 0)).
Proof.
  split; [|exact I]. change (k_w (Block 1 2 1 1 2 2)) with 1%nat. change (k_b (Block 1 2 1 1 2 2)) with 2%nat. rewrite cnn_filtered.
  unfold regular_block. cbn [a_shape]. split.
  - intros i Hi. assert (E : exists p q, i = [0; 0; p; q]%nat /\ (p < 4)%nat /\ (q < 4)%nat).
    { cut_bounds. eexists _, _. split; [f_equal; [lia|f_equal; lia]|lia]. }
    destruct E as (p & q & -> & Hp & Hq).
    destruct p as [|[|[|[|p]]]]; [| | | |lia]; (destruct q as [|[|[|[|q]]]]; [| | | |lia]); cbv -[Rplus Rmult Rdiv Rinv Ropp IZR]; lra.
  - intros i o r q Hi.
    assert (E : i = 0%nat /\ o = 0%nat /\ (r < 2)%nat /\ (q < 2)%nat).
    { cut_bounds. unfold places in *. cbn in *. lia. }
    destruct E as (-> & -> & Hr & Hq). cbn [k_size k_step].
    destruct r as [|[|r]]; [| |lia]; (destruct q as [|[|q]]; [| |lia]).
    + left. exists (1, 0)%nat. split; [cbn; auto|]. split; [cbv -[Rplus Rmult Rdiv Rinv Ropp IZR Rlt]; lra|].
      intros m Hm Hne. cbn in Hm. destruct Hm as [<-|[<-|[<-|[<-|[]]]]]; try congruence; cbv -[Rplus Rmult Rdiv Rinv Ropp IZR Rlt]; lra.
    + right. intros m Hm. cbn in Hm. destruct Hm as [<-|[<-|[<-|[<-|[]]]]]; cbv -[Rplus Rmult Rdiv Rinv Ropp IZR Rlt]; lra.
    + left. exists (2, 1)%nat. split; [cbn; auto|]. split; [cbv -[Rplus Rmult Rdiv Rinv Ropp IZR Rlt]; lra|].
      intros m Hm Hne. cbn in Hm. destruct Hm as [<-|[<-|[<-|[<-|[]]]]]; try congruence; cbv -[Rplus Rmult Rdiv Rinv Ropp IZR Rlt]; lra.
    + left. exists (2, 2)%nat. split; [cbn; auto|]. split; [cbv -[Rplus Rmult Rdiv Rinv Ropp IZR Rlt]; lra|].
      intros m Hm Hne. cbn in Hm. destruct Hm as [<-|[<-|[<-|[<-|[]]]]]; try congruence; cbv -[Rplus Rmult Rdiv Rinv Ropp IZR Rlt]; lra.
Qed.
(** What the last layer reads. *)
Lemma cnn_features : arranged cnn_flat (features cnn_ks cnn_rho (arranged cnn_img (cnn_rho 0))) = Arr [1; 4]%nat [23/2; 0; 31/2; 31/2].
Proof.
  unfold cnn_ks. cbn [features]. unfold block_value. cbn [k_w k_b k_size k_step]. rewrite cnn_filtered.
  cbv -[Rplus Rmult Rdiv Rinv Ropp IZR Rmax]. f_equal.
  repeat match goal with |- context [Rmax (?a / ?b) 0] => first [rewrite (Rmax_left (a / b) 0) by lra | rewrite (Rmax_right (a / b) 0) by lra] end.
  repeat match goal with |- context [Rmax ?a ?b] => lazymatch a with context [Rmax] => fail | _ => lazymatch b with context [Rmax] => fail | _ => first [rewrite (Rmax_left a b) by lra | rewrite (Rmax_right a b) by lra] end end end.
  reflexivity.
Qed.
(** The loss as a function of the bias of the wrong class. *)
Lemma cnn_loss_along rho h : (forall i, i <> 4%nat -> rho i = cnn_rho i) -> rho 4%nat = Arr [1; 2]%nat [h; 1] ->
  net_loss cnn_ks cnn_img cnn_flat [1%Z] 0 3 4 rho = ln (exp (27 + h) + exp 1) - 1.
Proof.
  intros E E4. unfold net_loss.
  assert (F : features cnn_ks rho (arranged cnn_img (rho 0%nat)) = features cnn_ks cnn_rho (arranged cnn_img (cnn_rho 0%nat))).
  { unfold cnn_ks. cbn [features]. unfold block_value. cbn [k_w k_b k_size k_step]. rewrite !E by lia. reflexivity. }
  rewrite F, cnn_features, (E 3%nat) by lia. rewrite E4.
  unfold nll, logit. cbn [hd a_shape seq map nth cnn_rho length].
  cbv -[Rplus Rmult Rdiv Rinv Ropp IZR Rminus exp ln].
  replace (0 + 23 / 2 * 1 + 0 * 0 + 31 / 2 * 1 + 31 / 2 * 0 + h) with (27 + h) by lra.
  replace (0 + 23 / 2 * 0 + 0 * 1 + 31 / 2 * 1 + 31 / 2 * -1 + 1) with 1 by lra.
  rewrite Rplus_0_l. field.
Qed.
Lemma cnn_slope : derivable_pt_lim (fun h => ln (exp (27 + h) + exp 1) - 1) 0 (exp 27 / (exp 27 + exp 1)).
Proof.
  pose proof (exp_pos 27) as P1. pose proof (exp_pos 1) as P2.
  apply is_derive_Reals. auto_derive.
  - rewrite Rplus_0_r. repeat split; lra.
  - rewrite Rplus_0_r. field. lra.
Qed.
Definition cnn_dir (i : nat) : arr R := if (i =? 4)%nat then Arr [1; 2]%nat [1; 0] else full (cnn_ls i) 0.
Lemma cnn_dir_shape v : has_shape (cnn_ls v) (cnn_dir v).
Proof. destruct v as [|[|[|[|[|v]]]]]; split; reflexivity. Qed.
Lemma cnn_moved i h : i <> 4%nat -> move cnn_rho cnn_xs cnn_dir h i = cnn_rho i.
Proof.
  intros Hi. unfold move. destruct (existsb (Nat.eqb i) cnn_xs); [|reflexivity].
  destruct i as [|[|[|[|[|i]]]]]; try congruence; cbv -[Rplus Rmult Rdiv Rinv Ropp IZR]; f_equal; repeat (apply f_equal2; [lra|]); reflexivity.
Qed.
Lemma cnn_moved4 h : move cnn_rho cnn_xs cnn_dir h 4 = Arr [1; 2]%nat [h; 1].
Proof. cbv -[Rplus Rmult Rdiv Rinv Ropp IZR]; f_equal; repeat (apply f_equal2; [lra|]); reflexivity. Qed.
Lemma dot_zeros a sh : dot a (full sh 0) = 0.
Proof.
  unfold dot, full, tab. cbn [a_data]. generalize (indices sh). induction (a_data a) as [|x l IH]; intros [|n m]; cbn; try reflexivity. rewrite IH. ring.
Qed.
Lemma cnn_tensors : exists t4 b4 l, res_tensors cnn_result = (t4, b4) :: l.
Proof. eexists _, _, _. vm_compute. reflexivity. Qed.
Lemma cnn_gradient : exists v r i, In (v, r) (combine cnn_xs (res_tensors cnn_result)) /\ in_bounds (cnn_ls v) i /\ aget 0 (aval cnn_rho cnn_g' (fst r)) i <> 0.
Proof.
  destruct cnn_ok as (log & Hg). pose proof cnn_params as [Nx Hx].
  destruct (C65_gradients true (-1) 24 cnn_ls cnn_ks cnn_img cnn_flat [1%Z] 0 3 4 cnn_y cnn_start cnn_graph cnn_g' (@max_pop top) true 2000
    cnn_xs (res_tensors cnn_result) log cnn_rho cnn_dir cnn_twf) as [F D].
  - intros v Hv. apply cnn_inputs. cbn in Hv. lia.
  - lra.
  - exact cnn_sizes.
  - exact cnn_made.
  - exact (fun g => max_pop_ok g).
  - exact Nx.
  - intros v Hv. apply cnn_inputs. auto.
  - exact Hg.
  - exact cnn_conform.
  - exact cnn_regular.
  - intros v _. apply cnn_dir_shape.
  - destruct cnn_tensors as (t4 & b4 & l & E). rewrite E in *. 
    assert (D' : derivable_pt_lim (fun h => ln (exp (27 + h) + exp 1) - 1) 0 (dot (aval cnn_rho cnn_g' t4) (Arr [1; 2]%nat [1; 0]))).
    { revert D. change (combine cnn_xs ((t4, b4) :: l)) with ((4%nat, (t4, b4)) :: combine [3; 2; 1]%nat l). rewrite map_cons. cbn [fold_right]. cbn [fst snd].
      assert (Z : forall xs, ~ In 4%nat xs -> fold_right Rplus 0 (map (fun p => dot (aval cnn_rho cnn_g' (fst (snd p))) (cnn_dir (fst p))) (combine xs l)) = 0).
      { clear. intros xs. revert l. induction xs as [|x xs IH]; intros [|r l] H; try reflexivity. cbn [combine map fold_right fst snd]. rewrite IH by (intros K; apply H; right; exact K).
        unfold cnn_dir. destruct (x =? 4)%nat eqn:Q; [apply Nat.eqb_eq in Q; subst; exfalso; apply H; left; reflexivity|]. rewrite dot_zeros. ring. }
      rewrite Z by (cbn; lia). rewrite Rplus_0_r. apply lim_ext. intros h. apply cnn_loss_along; [intros i Hi; apply cnn_moved; exact Hi|apply cnn_moved4]. }
    pose proof (uniqueness_limite _ _ _ _ D' cnn_slope) as Q.
    exists 4%nat, (t4, b4), [0; 0]%nat. split; [left; reflexivity|]. split; [repeat constructor|].
    cbn [fst]. intros K. inversion F as [|? ? ? ? F1 _]; subst. cbn [fst] in F1.
    destruct (typed_aval cnn_ls cnn_rho cnn_g' t4 [1; 2]%nat cnn_conform (proj1 (shaped_typed cnn_ls cnn_g' t4 [1; 2]%nat) F1)) as (_ & Hs & Hl).
    revert K Q Hs Hl. generalize (aval cnn_rho cnn_g' t4). intros [sh d] K Q Hs Hl. cbn [a_shape a_data] in *. subst sh.
    destruct d as [|u [|v [|? ?]]]; try discriminate Hl. cbn in K. subst u. unfold dot in Q. cbn [a_data map2 fold_right] in Q.
    pose proof (exp_pos 27) as P1. pose proof (exp_pos 1) as P2.
    assert (0 < exp 27 / (exp 27 + exp 1)) by (apply Rdiv_lt_0_compat; lra). lra.
Qed.
(** One 4 by 4 image: the filter gives a positive maximum in three windows and only
    negative numbers in the fourth; the loss is ln (e^27 + e) - 1.  All hypotheses
    hold, [update] returns, and small rates decrease the loss. *)
Example C65_hypotheses_met :
  twf cnn_ls cnn_start /\ net_sizes true 24 cnn_ls cnn_ks cnn_img cnn_flat [1%Z] 0 3 4 = true /\
  mean_loss true (-1) 24 cnn_ks cnn_img cnn_flat [1%Z] 0 3 4 cnn_start = Some (cnn_y, cnn_graph) /\
  regular cnn_ks cnn_rho (arranged cnn_img (cnn_rho 0)) /\
  net_loss cnn_ks cnn_img cnn_flat [1%Z] 0 3 4 cnn_rho = ln (exp 27 + exp 1) - 1 /\
  leaf_arrays cnn_g' [] (array_list cnn_env) cnn_rho /\ exact_in (float_int 24) cnn_ls cnn_g' /\ good cnn_ctx /\
  updatable (SGD 1) cnn_env (c_graph cnn_ctx) cnn_xs cnn_gs /\ shared_readers (SGD 1) cnn_env (c_graph cnn_ctx) cnn_xs cnn_gs /\
  exists delta, 0 < delta /\ forall lr, 0 < lr < delta ->
    exists c' e' rho',
      update (NTens TLeaf) NOpt (num_compute (float_int 24) Rpower) true 2000 (SGD lr) cnn_env cnn_ctx cnn_xs cnn_gs [] = Ok (c', e') /\
      leaf_arrays cnn_g' [] (array_list e') rho' /\
      net_loss cnn_ks cnn_img cnn_flat [1%Z] 0 3 4 rho' < ln (exp 27 + exp 1) - 1.
Proof.
  assert (Lv : forall v, In v (net_leaves cnn_ks 0 3 4) -> t_input_leaf cnn_start v) by (intros v Hv; apply cnn_inputs; cbn in Hv; lia).
  assert (Lx : forall v, In v cnn_xs -> t_input_leaf cnn_start v) by (intros v Hv; apply cnn_inputs; apply (proj2 cnn_params); exact Hv).
  assert (Low : -1 < 0) by lra.
  assert (V : net_loss cnn_ks cnn_img cnn_flat [1%Z] 0 3 4 cnn_rho = ln (exp 27 + exp 1) - 1).
  { rewrite (cnn_loss_along cnn_rho 0); [rewrite Rplus_0_r; reflexivity|reflexivity|reflexivity]. }
  destruct cnn_ok as (log & Hg).
  split; [exact cnn_twf|]. split; [exact cnn_sizes|]. split; [exact cnn_made|]. split; [exact cnn_regular|]. split; [exact V|].
  split; [exact cnn_leaves|]. split; [exact cnn_exact|]. split; [exact cnn_good|].
  split; [apply cnn_updatable|]. split; [apply cnn_shared|].
  destruct (C65_step_decreases_loss true (-1) 24 cnn_ls cnn_ks cnn_img cnn_flat [1%Z] 0 3 4 cnn_y cnn_start cnn_graph cnn_g' (float_int 24) Rpower (@max_pop top) true 2000
    cnn_xs (res_tensors cnn_result) log cnn_env cnn_ctx [] cnn_rho (SGD 1) cnn_twf Lv Low cnn_sizes cnn_made (fun g => max_pop_ok g) (proj1 cnn_params) Lx Hg cnn_exact
    cnn_conform cnn_regular cnn_leaves cnn_ctx_graph cnn_good (cnn_updatable 1) (cnn_shared 1)) as (delta & Hd & K).
  - intros x vid sids s i _ _ Hs Hin. inversion Hs; subst. destruct Hin.
  - exact cnn_states.
  - exact cnn_gradient.
  - exists delta. split; [exact Hd|]. intros lr Hlr.
    assert (HC : exists c' us, compute_updates (NTens TLeaf) NOpt (SGD lr) cnn_env cnn_ctx cnn_xs cnn_gs = Some (c', us) /\
      (2 * (length us + edge_count (c_graph c')) < 2000)%nat).
    { eexists _, _. split; [vm_compute; reflexivity|]. apply Nat.ltb_lt. vm_compute. reflexivity. }
    destruct HC as (c' & us & HC & Hf).
    destruct (net_graph _ _ _ _ _ _ _ _ _ _ _ _ _ _ cnn_twf Lv Low cnn_sizes cnn_made) as (W' & G & T & _ & Sm).
    assert (Hy : forall y, In y [cnn_y] -> fits cnn_ls cnn_graph y /\ exists sh, shaped cnn_ls cnn_graph y sh).
    { intros y [<-|[]]. split; [|exists [1%nat]; exact T]. apply (Sm cnn_rho 0%nat cnn_conform cnn_regular). cbn. lia. }
    assert (Hsm : forall v y, In v cnn_xs -> In y [cnn_y] -> t_smooth cnn_ls cnn_graph cnn_rho v y).
    { intros v y Hv [<-|[]]. apply (Sm cnn_rho v cnn_conform cnn_regular). exact (proj2 cnn_params v Hv). }
    assert (Hx' : forall v, In v cnn_xs -> t_input_leaf cnn_graph v).
    { intros v Hv. destruct (Lx v Hv) as (n & Hn & Hn2). exists n. split; [exact (grows_nth cnn_start cnn_graph v n G Hn)|exact Hn2]. }
    destruct (C63_step_returns (float_int 24) Rpower (@max_pop top) true 2000 2000 cnn_ls [cnn_y] cnn_xs us cnn_graph cnn_g'
      (res_tensors cnn_result) log cnn_env cnn_ctx c' [] cnn_rho (SGD 1) lr W' (fun g => max_pop_ok g) Hy (proj1 cnn_params) Hx' Hg cnn_exact cnn_conform cnn_leaves
      Hsm cnn_ctx_graph cnn_good (cnn_updatable 1) (cnn_shared 1) cnn_states HC Hf) as (e' & Hup).
    destruct (K lr 2000%nat c' e' Hlr Hup) as (rho' & _ & HL & Hlt).
    exists c', e', rho'. split; [exact Hup|]. split; [exact HL|]. rewrite V in Hlt. exact Hlt.
Qed.
