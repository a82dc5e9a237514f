(** Property C68: the recurrent language model of examples/lstm_lm.rs. *)
From Coq Require Import String List Arith ZArith NArith Bool Reals Lra Lia.
From Coquelicot Require Import Coquelicot.
Import ListNotations.
From Verif Require Import Graph_Model Eval_Model Eval_Spec Eval_Proofs Eval_Proofs2 Graph_Proofs Grad_Model Grad_Spec Grad_Examples
  Scalar_Model Scalar_Spec Scalar_Proofs.
From Verif Require Import Array_Model Array_Proofs Array_Sum Arith_Model Vjp_Spec Vjp_Proofs Dot_Spec Dot_Proofs
  Tens_Model Tens_Spec Tens_Build Tens_Lax Tens_Grad Tens_Final Tens_Joint Tens_Examples Tens_Comp Train_Spec Train_Proofs P_Gather.
From Verif Require Import Lstm_Model Lstm_Spec Lstm_Proofs.
Local Open Scope R_scope.
Local Set Bullet Behavior "Strict Subproofs".

(** ** C68: recurrent language models *)

Lemma lm_graph (lowest : R) (ls : nat -> list nat) (v : lstm) (d vocab n : nat) (words : list (list Z)) (t : nat) (g0 g : tgraph) :
  twf ls g0 -> attached g0 -> (forall i, In i (lm_leaves v) -> t_input_leaf g0 i) ->
  lm_sizes ls v d vocab n words -> lstm_loss lowest v d words g0 = Some (t, g) ->
  fine ls (length g0) g /\ grows g0 g /\
  gridt ls (length g0) g t n 1 (fun rho i _ => lm_loss v d vocab words rho i).
Proof.
  intros W A Hl (Hd & Hv & Hn & Lt & Lx & Lh & Lb & Lp & _ & Hw) Hm.
  apply (lstm_made lowest ls (length g0) g0) with (v := v) (d := d) (vocab := vocab) (n := n); auto.
  split; [exact W|]. split; [exact A|]. lia.
Qed.
Lemma column_is n f : grid n 1 (fun i _ => f i) = Arr [n; 1%nat] (map f (seq 0 n)).
Proof.
  unfold grid, tab. f_equal. cbn [indices]. generalize (seq 0 n) as l. induction l as [|k l IH]; [reflexivity|].
  cbn [flat_map map app seq] in *. rewrite IH. reflexivity.
Qed.
Lemma sum_seq n (f : nat -> R) : fold_right Rplus 0 (map f (seq 0 n)) = sum_below n f.
Proof.
  induction n as [|n IH]; [reflexivity|]. rewrite seq_S, map_app, fold_right_app. cbn [map fold_right Nat.add sum_below].
  rewrite <- IH. clear IH. generalize (map f (seq 0 n)) as l. intros l. induction l as [|x l IH]; cbn [fold_right]; [ring|]. rewrite IH. ring.
Qed.
Lemma lm_total lowest ls v d vocab n words t g0 g rho :
  twf ls g0 -> attached g0 -> (forall i, In i (lm_leaves v) -> t_input_leaf g0 i) ->
  lm_sizes ls v d vocab n words -> lstm_loss lowest v d words g0 = Some (t, g) -> conform ls rho ->
  total_loss rho g [t] = sum_below n (lm_loss v d vocab words rho).
Proof.
  intros W A Hl Hs Hm C. destruct (lm_graph _ _ _ _ _ _ _ _ _ _ W A Hl Hs Hm) as (_ & _ & _ & V & _).
  unfold total_loss. cbn [map fold_right]. rewrite (holds_aval rho g t _ (V rho C)), column_is. unfold elements_sum. cbn [a_data].
  rewrite sum_seq. ring.
Qed.
Lemma move_conform ls rho xs dir h : conform ls rho -> (forall v, In v xs -> has_shape (ls v) (dir v)) -> conform ls (move rho xs dir h).
Proof.
  intros C Hd i. unfold move. destruct (existsb (Nat.eqb i) xs) eqn:E; [|apply C]. apply existsb_exists in E. destruct E as (j & Hj & Q).
  apply Nat.eqb_eq in Q. subst j. apply step_has_shape; auto.
Qed.
Lemma lim_ext f g a l : (forall h, f h = g h) -> derivable_pt_lim f a l -> derivable_pt_lim g a l.
Proof. intros E H eps He. destruct (H eps He) as (d & Hd). exists d. intros h. rewrite <- !E. apply Hd. Qed.

(** Evaluating the loss gives, for every sentence, the sum over its positions of
    the negative log probability that the recurrent network gives to the next word. *)
Theorem C68_loss :
  forall (lowest : R) (ls : nat -> list nat) (v : lstm) (d vocab n : nat) (words : list (list Z)) (t : nat) (g0 g : tgraph)
    (debug : bool) (feeds : list (ph_key * tv)) (env : list tv) (rho : nat -> arr R),
  twf ls g0 -> attached g0 -> (forall i, In i (lm_leaves v) -> t_input_leaf g0 i) ->
  lm_sizes ls v d vocab n words -> lstm_loss lowest v d words g0 = Some (t, g) ->
  conform ls rho -> t_leaf_values g feeds env rho ->
  tensor_value tv_shape tens_compute debug g feeds env t
    (inl (TA (Arr [n; 1%nat] (map (lm_loss v d vocab words rho) (seq 0 n))))).
Proof.
  intros lowest ls v d vocab n words t g0 g debug feeds env rho W A Hl Hs Hm C HL.
  destruct (lm_graph _ _ _ _ _ _ _ _ _ _ W A Hl Hs Hm) as ((W' & _) & _ & T & V & _).
  rewrite <- column_is, <- (holds_aval rho g t _ (V rho C)).
  apply (tens_tensor_value ls g W' debug feeds env rho C HL t [n; 1%nat]). exact T.
Qed.
Print Assumptions C68_loss.

(** The tensors that [grad] returns for any of the variables are, at every point,
    the derivative of the loss through all steps. *)
Theorem C68_gradients :
  forall (lowest : R) (ls : nat -> list nat) (v : lstm) (d vocab n : nat) (words : list (list Z)) (t : nat) (g0 g g' : tgraph)
    (pop : tgraph -> list nat -> option (nat * list nat)) (debug : bool) (fuel : nat)
    (xs : list nat) (l : list (nat * bool)) (log : list nat) (rho dir : nat -> arr R),
  twf ls g0 -> attached g0 -> (forall i, In i (lm_leaves v) -> t_input_leaf g0 i) ->
  lm_sizes ls v d vocab n words -> lstm_loss lowest v d words g0 = Some (t, g) ->
  (forall g, heap_pop g (pop g)) -> NoDup xs -> (forall x, In x xs -> t_input_leaf g0 x) ->
  t_grad pop debug fuel [t] xs g = Ok (l, g', log) ->
  conform ls rho -> (forall x, In x xs -> has_shape (ls x) (dir x)) ->
  Forall2 (fun x r => sized ls g' (fst r) (ls x)) xs l /\
  derivable_pt_lim (fun h => sum_below n (lm_loss v d vocab words (move rho xs dir h))) 0
    (fold_right Rplus 0 (map (fun p => dot (aval rho g' (fst (snd p))) (dir (fst p))) (combine xs l))).
Proof.
  intros lowest ls v d vocab n words t g0 g g' pop debug fuel xs l log rho dir W A Hl Hs Hm Hp Nx Hx H C Hd.
  destruct (lm_graph _ _ _ _ _ _ _ _ _ _ W A Hl Hs Hm) as ((W' & A' & _) & G & T & V & S).
  assert (Hlt : forall x, t_input_leaf g0 x -> (x < length g0)%nat).
  { intros x (nd & Hnd & _). apply nth_error_Some. congruence. }
  assert (HU : uses ls g t).
  { apply (S rho (v_table v) C). apply Hlt. apply Hl. left. reflexivity. }
  assert (Hy : forall y, In y [t] -> uses ls g y /\ exists sh, shaped ls g y sh).
  { intros y [<-|[]]. split; [exact HU|]. exists [n; 1%nat]. exact T. }
  assert (Hx' : forall x, In x xs -> t_input_leaf g x).
  { intros x Hv. destruct (Hx x Hv) as (nd & Hn & Hn2). exists nd. split; [exact (grows_nth g0 g x nd G Hn)|exact Hn2]. }
  destruct (C67_grad_is_vjp pop debug fuel ls [t] xs g g' l log W' A' Hp Hy Nx Hx' H) as (_ & _ & _ & F).
  split.
  - clear -F. induction F as [|x r vs rs [F1 _] _ IH]; constructor; [exact F1|exact IH].
  - assert (Hsm : forall x y, In x xs -> In y [t] -> t_smooth ls g rho x y).
    { intros x y Hv [<-|[]]. apply (S rho x C). apply Hlt. auto. }
    pose proof (C67_total_derivative pop debug fuel ls [t] xs g g' l log rho dir W' A' Hp Hy Nx Hx' H C Hsm Hd) as D.
    revert D. apply lim_ext. intros h.
    apply (lm_total lowest ls v d vocab n words t g0 g); auto. apply move_conform; auto.
Qed.
Print Assumptions C68_gradients.

(** ** An example *)

(** Two sentences of three words from a vocabulary of three; vectors of dimension 2. *)
Definition lm_vars : lstm := Lstm 0 1 2 3 4.
Definition lm_ls (i : nat) : list nat :=
  match i with 0 => [3; 2] | 1 => [2; 8] | 2 => [2; 8] | 3 => [1; 8] | 4 => [2; 3] | _ => [] end%nat.
Definition lm_words : list (list Z) := [[0; 2]; [1; 1]; [2; 0]]%Z.
Definition lm_start : tgraph := [t_var 0; t_var 1; t_var 2; t_var 3; t_var 4].
Notation lm_build := (lstm_loss (-1) lm_vars 2 lm_words).
Definition lm_g : tgraph := match lm_build lm_start with Some (_, g) => g | None => [] end.
Definition lm_y : nat := match lm_build lm_start with Some (y, _) => y | None => 0%nat end.
Definition lm_result := t_grad (@max_pop top) true 2000 [lm_y] (lm_leaves lm_vars) lm_g.
Lemma lm_made : lm_build lm_start = Some (lm_y, lm_g).
Proof.
  assert (B : match lm_build lm_start with Some _ => true | None => false end = true) by (vm_compute; reflexivity).
  unfold lm_y, lm_g. destruct (lm_build lm_start) as [[y g]|]; [reflexivity|discriminate].
Qed.
Example C68_hypotheses_met :
  twf lm_ls lm_start /\ attached lm_start /\ (forall i, In i (lm_leaves lm_vars) -> t_input_leaf lm_start i) /\
  lm_sizes lm_ls lm_vars 2 3 2 lm_words /\ lstm_loss (-1) lm_vars 2 lm_words lm_start = Some (lm_y, lm_g) /\
  (forall g : tgraph, heap_pop g (max_pop g)) /\ NoDup (lm_leaves lm_vars) /\
  (exists log, t_grad (@max_pop top) true 2000 [lm_y] (lm_leaves lm_vars) lm_g = Ok (res_tensors lm_result, res_graph lm_result, log)) /\
  map snd (res_tensors lm_result) = [true; true; true; true; true] /\
  (forall rho, t_leaf_values lm_g [] (map (fun i => TA (rho i)) (seq 0 5)) rho) /\
  lm_loss lm_vars 2 3 lm_words (fun i => tab (lm_ls i) (fun _ => 0)) 0 = 2 * ln 3.
Proof.
  split; [apply twf_b_sound; vm_compute; reflexivity|]. split; [apply attached_b_sound; vm_compute; reflexivity|].
  split.
  { intros i [<-|[<-|[<-|[<-|[<-|[]]]]]]; eexists; (split; [reflexivity|split; reflexivity]). }
  split.
  { unfold lm_sizes. do 3 (split; [lia|]). do 5 (split; [reflexivity|]). split; [cbn; lia|].
    apply Forall_forall. intros w Hw. split; [|intros z Hz]; cbn in Hw; intuition (subst; cbn in *; intuition lia). }
  split; [apply lm_made|]. split; [intros; apply max_pop_ok|].
  split; [repeat constructor; cbn; intuition discriminate|].
  split.
  { assert (B : is_ok lm_result = true) by (vm_compute; reflexivity).
    assert (Q : lm_result = t_grad (@max_pop top) true 2000 [lm_y] (lm_leaves lm_vars) lm_g) by reflexivity.
    rewrite <- Q. apply is_ok_sound. exact B. }
  split; [vm_compute; reflexivity|].
  split; [intros; apply var_leaves_sound; vm_compute; reflexivity|].
  assert (Z : forall h i w, score (tab (lm_ls 4) (fun _ => 0)) 2 h i w = 0).
  { intros h i w. unfold score. assert (T : forall k, aget 0 (tab (lm_ls 4) (fun _ => 0)) [k; w] = 0).
    { intros k. unfold aget, tab. cbn [a_data a_shape]. generalize (ravel (lm_ls 4) [k; w]) as q. generalize (indices (lm_ls 4)) as l.
      induction l as [|x l IH]; intros [|q]; cbn; auto. }
    cbn [sum_below]. rewrite !T. ring. }
  assert (S : forall h i w, surprise (tab (lm_ls 4) (fun _ => 0)) 2 3 h i w = ln 3).
  { intros h i w. unfold surprise. rewrite Z. cbn [sum_below]. rewrite !Z, exp_0. replace (0 + 1 + 1 + 1) with 3 by ring. ring. }
  unfold lm_loss, lm_words. cbn [sentence_loss lm_vars v_table v_wx v_wh v_b v_pred]. rewrite !S. ring.
Qed.
