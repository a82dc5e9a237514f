(** The gradient rules of array operations compute vector-Jacobian products:
    each operation has a kernel [K p i j], the derivative of output element [i]
    with respect to element [j] of input [p], which its rule applies. *)
From Coq Require Import String List Arith ZArith Bool Lia Reals Lra.
From Coquelicot Require Import Coquelicot.
Import ListNotations.
From Verif Require Import Graph_Model Eval_Model Eval_Spec Eval_Proofs Graph_Proofs Grad_Model Grad_Spec
  Scalar_Model Scalar_Spec Scalar_Rules Scalar_Proofs.
From Verif Require Import Array_Model Array_Proofs Array_Sum Arith_Model Arith_Proofs Arith_Final Vjp_Spec Vjp_Proofs
  Reduce_Model Reduce_Spec Reduce_Proofs Shape_Model Shape_Spec Shape_Proofs3
  Dot_Model Dot_Proofs Softmax_Model Softmax_Spec Softmax_Proofs Softmax_Proofs2 Tens_Model Tens_Spec Tens_Fwd Tens_Build.
Local Set Bullet Behavior "Strict Subproofs".
Local Open Scope R_scope.

Lemma is_derive_rsum {I} (l : list I) (f : I -> R -> R) (d : I -> R) t0 :
  (forall i, In i l -> is_derive (f i) t0 (d i)) -> is_derive (fun t : R => rsum l (fun i => f i t)) t0 (rsum l d).
Proof.
  induction l as [|a l IH]; intros H.
  - apply (is_derive_const (V := R_NormedModule) 0).
  - apply (is_derive_ext (fun t => f a t + rsum l (fun i => f i t))); [reflexivity|].
    change (rsum (a :: l) d) with (d a + rsum l d).
    apply (is_derive_plus (f a) (fun t => rsum l (fun i => f i t))); [apply H; simpl; auto|apply IH; intros; apply H; simpl; auto].
Qed.
Lemma is_derive_cmul c (f : R -> R) t0 d : is_derive f t0 d -> is_derive (fun t : R => c * f t) t0 (c * d).
Proof. intros H. apply (is_derive_scal f t0 c d H). Qed.
Lemma is_derive_eq (f : R -> R) t0 (d d' : R) : is_derive f t0 d -> d = d' -> is_derive f t0 d'.
Proof. intros H <-. exact H. Qed.
Lemma is_derive_fext (f g : R -> R) t0 (d : R) : (forall t, g t = f t) -> is_derive f t0 d -> is_derive g t0 d.
Proof. intros H. apply is_derive_ext. intros t. symmetry. apply H. Qed.

Lemma rsum_cons {I} (a : I) l f : rsum (a :: l) f = f a + rsum l f.
Proof. reflexivity. Qed.

(** ** Kernels *)
Definition run (o : top) (vs : list tv) : arr R := match tcompute o vs with Some v => arr_of v | None => Arr [] [0] end.
(** Inputs of types [ts] moving with velocities [d]. *)
Definition curve (ts : list ty) (Fs : list (R -> tv)) (d : nat -> list nat -> R) : Prop :=
  (forall t, Forall2 has_ty (map (fun F : R -> tv => F t) Fs) ts) /\
  forall p F shp j, nth_error Fs p = Some F -> nth_error ts p = Some (TyA shp) -> in_bounds shp j ->
    is_derive (fun t : R => rget (arr_of (F t)) j) 0 (d p j).
Definition kernel := nat -> list nat -> list nat -> R.
Definition spread (ts : list ty) (K : kernel) (i : list nat) (d : nat -> list nat -> R) : R :=
  rsum (seq 0 (length ts)) (fun p => match nth_error ts p with
    | Some (TyA shp) => rsum (indices shp) (fun j => K p i j * d p j) | _ => 0 end).
Definition applied (shp sh : list nat) (k : list nat -> list nat -> R) (gy : arr R) : arr R :=
  tab shp (fun j => rsum (indices sh) (fun i => k i j * rget gy i)).
Record correct (o : top) (ts : list ty) (vs : list tv) (sh : list nat) (out : arr R) (K : kernel) : Prop := {
  cr_rule : forall rs p e, trule o (length ts) = Some rs -> nth_error rs p = Some (Some e) ->
    exists shp, nth_error ts p = Some (TyA shp) /\ ety ts (TyA sh) (TyA sh) [] e = Some (TyA shp) /\
      forall gy, has_shape sh gy -> eeval vs (TA out) (TA gy) [] e = Some (TA (applied shp sh (K p) gy));
  cr_zero : forall rs p i j, trule o (length ts) = Some rs -> (forall e, nth_error rs p <> Some (Some e)) -> K p i j = 0;
  cr_diff : t_dom o vs -> forall Fs d, curve ts Fs d -> (forall p j, frozen o p = true -> d p j = 0) ->
    map (fun F : R -> tv => F 0) Fs = vs ->
    forall i, in_bounds sh i -> is_derive (fun t : R => rget (run o (map (fun F : R -> tv => F t) Fs)) i) 0 (spread ts K i d)
}.

Lemma mk_correct o ts vs sh out K :
  (forall rs p e, trule o (length ts) = Some rs -> nth_error rs p = Some (Some e) ->
    exists shp, nth_error ts p = Some (TyA shp) /\ ety ts (TyA sh) (TyA sh) [] e = Some (TyA shp) /\
      forall gy, has_shape sh gy -> eeval vs (TA out) (TA gy) [] e = Some (TA (applied shp sh (K p) gy))) ->
  (forall rs p i j, trule o (length ts) = Some rs -> (forall e, nth_error rs p <> Some (Some e)) -> K p i j = 0) ->
  (t_dom o vs -> forall Fs d, curve ts Fs d -> map (fun F : R -> tv => F 0) Fs = vs ->
    forall i, in_bounds sh i -> is_derive (fun t : R => rget (run o (map (fun F : R -> tv => F t) Fs)) i) 0 (spread ts K i d)) ->
  correct o ts vs sh out K.
Proof. intros H1 H2 H3. constructor; eauto. Qed.

Lemma applied_ext shp sh k k' gy : (forall i j, in_bounds sh i -> in_bounds shp j -> k i j = k' i j) -> applied shp sh k gy = applied shp sh k' gy.
Proof. intros H. apply tab_ext. intros j Hj. apply rsum_idx_ext. intros i Hi. rewrite H by auto. reflexivity. Qed.

(** Operations whose output does not depend on the elements of the inputs. *)
Lemma const_correct o ts vs sh out :
  (forall rs p e, trule o (length ts) = Some rs -> nth_error rs p <> Some (Some e)) ->
  (exists c, forall ws, Forall2 has_ty ws ts -> run o ws = c) ->
  correct o ts vs sh out (fun _ _ _ => 0).
Proof.
  intros HR [c Hc]. apply mk_correct.
  - intros rs p e H1 H2. exfalso. eapply HR; eauto.
  - reflexivity.
  - intros _ Fs d [HT _] _ i Hi. eapply is_derive_eq.
    + apply (is_derive_fext (fun _ => rget c i)); [intros t; rewrite (Hc _ (HT t)); reflexivity|]. apply @is_derive_const.
    + symmetry. apply rsum_zero. intros p _. destruct (nth_error ts p) as [[shp|]|]; auto. apply rsum_zero. intros. ring.
Qed.
(** A single array input, followed by integer vectors. *)
Definition first_only (k : list nat -> list nat -> R) : kernel := fun p => match p with 0%nat => k | _ => fun _ _ => 0 end.
Lemma spread_first s0 rest k i d : spread (TyA s0 :: rest) (first_only k) i d = rsum (indices s0) (fun j => k i j * d 0%nat j).
Proof.
  unfold spread. simpl length. rewrite <- cons_seq, rsum_cons. cbn [nth_error first_only].
  match goal with |- ?a + ?b = _ => replace b with 0; [ring|] end.
  symmetry. apply rsum_zero. intros p Hp. apply in_seq in Hp. destruct p as [|p]; [lia|]. simpl.
  destruct (nth_error rest p) as [[shp|]|]; auto. apply rsum_zero. intros. ring.
Qed.
Lemma ints_const rest ws : Forall2 has_ty ws (map TyI rest) -> ws = map TI rest.
Proof.
  revert ws. induction rest as [|l rest IH]; intros ws H; inversion H; subst; [reflexivity|].
  simpl. f_equal; [apply has_tyI; auto|apply IH; auto].
Qed.
Lemma curve_first s0 rest Fs d : curve (TyA s0 :: map TyI rest) Fs d ->
  exists F, (forall t, map (fun F : R -> tv => F t) Fs = TA (arr_of (F t)) :: map TI rest) /\ (forall t, has_shape s0 (arr_of (F t))) /\
    forall j, in_bounds s0 j -> is_derive (fun t : R => rget (arr_of (F t)) j) 0 (d 0%nat j).
Proof.
  intros [HT HD]. destruct Fs as [|F Fs]; [specialize (HT 0); inversion HT|]. exists F. split; [|split].
  - intros t. specialize (HT t). simpl in HT. inversion HT; subst. simpl. apply ints_const in H4. rewrite H4. f_equal.
    apply has_tyA in H2. destruct H2 as (a & E & _). rewrite E. reflexivity.
  - intros t. specialize (HT t). simpl in HT. inversion HT; subst. apply has_tyA in H2. destruct H2 as (a & E & H). rewrite E. exact H.
  - intros j Hj. apply (HD 0%nat F s0); auto.
Qed.

Lemma nth_first_rule (e : expr) n p e' : nth_error (Some e :: repeat None n) p = Some (Some e') -> p = 0%nat /\ e' = e.
Proof.
  destruct p as [|p]; simpl; intros H; [injection H; auto|]. apply nth_error_In, repeat_spec in H. discriminate.
Qed.

(** Linear operations of one array. *)
Lemma lin_correct o s0 rest sh a out C e :
  (forall a', has_shape s0 a' -> tcompute o (TA a' :: map TI rest) =
     Some (TA (tab sh (fun i => rsum (indices s0) (fun j => C i j * rget a' j))))) ->
  trule o (S (length rest)) = Some (Some e :: repeat None (length rest)) ->
  ety (TyA s0 :: map TyI rest) (TyA sh) (TyA sh) [] e = Some (TyA s0) ->
  (forall gy, has_shape sh gy -> eeval (TA a :: map TI rest) (TA out) (TA gy) [] e = Some (TA (applied s0 sh C gy))) ->
  correct o (TyA s0 :: map TyI rest) (TA a :: map TI rest) sh out (first_only C).
Proof.
  intros HF HR HT HE.
  assert (HR' : trule o (length (TyA s0 :: map TyI rest)) = Some (Some e :: repeat None (length rest)))
    by (simpl; rewrite map_length; exact HR).
  apply mk_correct.
  - intros rs p e' H1 H2. rewrite HR' in H1. injection H1 as <-. apply nth_first_rule in H2. destruct H2 as [-> ->].
    exists s0. split; [reflexivity|]. split; [exact HT|]. exact HE.
  - intros rs p i j H1 H2. rewrite HR' in H1. injection H1 as <-. destruct p as [|p]; [|reflexivity]. exfalso. apply (H2 e). reflexivity.
  - intros _ Fs d HC _ i Hi. apply curve_first in HC. destruct HC as (F & HM & HS & HD). rewrite spread_first.
    apply (is_derive_fext (fun t => rsum (indices s0) (fun j => C i j * rget (arr_of (F t)) j))).
    + intros t. unfold run. rewrite HM, HF by auto. simpl. rewrite aget_tab by exact Hi. reflexivity.
    + apply is_derive_rsum. intros j Hj. apply is_derive_cmul. apply HD. apply indices_in. exact Hj.
Qed.
(** Gathers: the rule adds up along the same index map. *)
Lemma pull_correct o s0 rest sh a out f e :
  (forall i, in_bounds sh i -> in_bounds s0 (f i)) ->
  (forall a', has_shape s0 a' -> tcompute o (TA a' :: map TI rest) = Some (TA (pullr f sh a'))) ->
  trule o (S (length rest)) = Some (Some e :: repeat None (length rest)) ->
  ety (TyA s0 :: map TyI rest) (TyA sh) (TyA sh) [] e = Some (TyA s0) ->
  (forall gy, has_shape sh gy -> eeval (TA a :: map TI rest) (TA out) (TA gy) [] e = Some (TA (push f sh s0 gy))) ->
  correct o (TyA s0 :: map TyI rest) (TA a :: map TI rest) sh out (first_only (fun i j => delta (f i) j)).
Proof.
  intros HB HF HR HT HE. apply (lin_correct _ _ _ _ _ _ _ e); auto.
  intros a' Ha. rewrite HF by auto. do 2 f_equal. apply tab_ext. intros i Hi. rewrite rsum_delta; auto.
Qed.
(** Sums: the rule gathers along the same index map. *)
Lemma push_correct o s0 rest sh a out f e :
  (forall j, in_bounds s0 j -> in_bounds sh (f j)) ->
  (forall a', has_shape s0 a' -> tcompute o (TA a' :: map TI rest) = Some (TA (push f s0 sh a'))) ->
  trule o (S (length rest)) = Some (Some e :: repeat None (length rest)) ->
  ety (TyA s0 :: map TyI rest) (TyA sh) (TyA sh) [] e = Some (TyA s0) ->
  (forall gy, has_shape sh gy -> eeval (TA a :: map TI rest) (TA out) (TA gy) [] e = Some (TA (pullr f s0 gy))) ->
  correct o (TyA s0 :: map TyI rest) (TA a :: map TI rest) sh out (first_only (fun i j => delta (f j) i)).
Proof.
  intros HB HF HR HT HE. apply (lin_correct _ _ _ _ _ _ _ e); auto.
  intros gy Hg. rewrite HE by auto. do 2 f_equal. apply tab_ext. intros i Hi. rewrite rsum_delta; auto.
Qed.

(** ** Sums, broadcasts, reshaping, transposition *)
Lemma reduces_bounds o g i : reduces_to o g = true -> in_bounds g i -> in_bounds o (bc_idx o i).
Proof. intros H Hi. apply reduces_reducible in H. destruct H as (_ & H & _). eapply bc_bounds; eauto. Qed.
Lemma reduces_refl sh : nonempty sh = true -> reduces_to sh sh = true.
Proof. intros H. unfold reduces_to. rewrite H, can_broadcast_refl, Nat.eqb_refl. reflexivity. Qed.
Lemma sv_eq sh : (if list_eq_dec Z.eq_dec (shape_vec sh) (shape_vec sh) then true else false) = true.
Proof. destruct (list_eq_dec _ _ _); [reflexivity|congruence]. Qed.

Lemma mreduce_correct g l o a out : dims l = Some o -> reduces_to o g = true -> has_shape g a ->
  exists K, correct TMaybeReduceSum [TyA g; TyI l] [TA a; TI l] o out K.
Proof.
  intros HD HR Ha. eexists. apply (push_correct TMaybeReduceSum g [l] o a out (bc_idx o) (embed (RBcast 0 RGy))).
  - intros j. apply reduces_bounds. exact HR.
  - intros a' Ha'. simpl. rewrite HD, (maybe_reduce_push o g) by auto. reflexivity.
  - reflexivity.
  - cbn. unfold ety_op, op_ty. rewrite dims_shape_vec, HR. reflexivity.
  - intros gy Hgy. cbn. rewrite (hs_sh _ _ Ha), dims_shape_vec, (maybe_broadcast_pull o g) by auto. reflexivity.
Qed.
Lemma mbroadcast_correct s l t a out : dims l = Some t -> reduces_to s t = true -> has_shape s a ->
  exists K, correct TMaybeBroadcast [TyA s; TyI l] [TA a; TI l] t out K.
Proof.
  intros HD HR Ha. eexists. apply (pull_correct TMaybeBroadcast s [l] t a out (bc_idx s) (embed (RReduce 0 RGy))).
  - intros j. apply reduces_bounds. exact HR.
  - intros a' Ha'. simpl. rewrite HD, (maybe_broadcast_pull s t) by auto. reflexivity.
  - reflexivity.
  - cbn. unfold ety_op, op_ty. rewrite dims_shape_vec, HR. cbn. rewrite sv_eq. reflexivity.
  - intros gy Hgy. cbn. rewrite (hs_sh _ _ Ha), dims_shape_vec, (maybe_reduce_push s t) by auto. reflexivity.
Qed.
Lemma in_bounds_nil_only j : in_bounds [] j <-> j = [].
Proof. split; [intros H; inversion H; reflexivity|intros ->; constructor]. Qed.
Lemma sumall_correct sh a out : has_shape sh a -> exists K, correct TSumAll [TyA sh] [TA a] [] out K.
Proof.
  intros Ha. eexists. apply (push_correct TSumAll sh [] [] a out (fun _ => []) (embed (RSumAllGrad 0 RGy))).
  - intros j _. constructor.
  - intros a' Ha'. simpl. rewrite (sum_all_push sh) by auto. reflexivity.
  - reflexivity.
  - cbn. unfold ety_op, op_ty. rewrite dims_shape_vec. reflexivity.
  - intros gy Hgy. cbn. rewrite (hs_sh _ _ Ha), dims_shape_vec. cbn. rewrite sum_all_grad_pull by auto. reflexivity.
Qed.
Lemma sumallgrad_correct l sh a out : dims l = Some sh -> has_shape [] a -> exists K, correct TSumAllGrad [TyA []; TyI l] [TA a; TI l] sh out K.
Proof.
  intros HD Ha. eexists. apply (pull_correct TSumAllGrad [] [l] sh a out (fun _ => []) (embed (RSumAll RGy))).
  - intros j _. constructor.
  - intros a' Ha'. simpl. rewrite HD. simpl. rewrite sum_all_grad_pull by auto. reflexivity.
  - reflexivity.
  - reflexivity.
  - intros gy Hgy. cbn. rewrite (sum_all_push sh) by auto. reflexivity.
Qed.
Lemma reduced_bounds keep axes ax sh i : axes_of (length sh) axes = Some ax -> in_bounds sh i ->
  in_bounds (reduced_shape keep ax sh) (reduced_index keep ax i).
Proof.
  intros H. apply axes_of_ok in H. destruct H as [ND F]. apply reduced_index_in; auto.
  clear ND. induction F as [|z k l m [Hk _] _ IH]; constructor; auto.
Qed.
Lemma shape_eqb_refl sh : shape_eqb sh sh = true.
Proof. apply shape_eqb_ok. reflexivity. Qed.
Lemma shape_eqb_ne a b : a <> b -> shape_eqb a b = false.
Proof. intros H. destruct (shape_eqb a b) eqn:E; auto. apply shape_eqb_ok in E. contradiction. Qed.
Lemma reducesum_correct keep axes ax sh a out : sh <> [0%nat] -> axes_of (length sh) axes = Some ax -> has_shape sh a ->
  exists K, correct (TReduceSum keep) [TyA sh; TyI axes] [TA a; TI axes] (reduced_shape keep ax sh) out K.
Proof.
  intros N HA Ha. eexists.
  apply (push_correct (TReduceSum keep) sh [axes] (reduced_shape keep ax sh) a out (reduced_index keep ax)
          (EOp3 (TReduceGrad (negb keep)) SNone EGy (EShape 0) (EIn 1))).
  - intros j. eapply reduced_bounds; eauto.
  - intros a' Ha'. simpl. rewrite (reduce_push keep axes ax sh) by auto. reflexivity.
  - reflexivity.
  - cbn. unfold ety_op, op_ty. rewrite dims_shape_vec, (shape_eqb_ne _ _ N), HA, negb_involutive, shape_eqb_refl. reflexivity.
  - intros gy Hgy. cbn. rewrite (hs_sh _ _ Ha), dims_shape_vec, (reduce_grad_pull keep axes ax sh) by auto. reflexivity.
Qed.
Lemma delta_iff a b c d : (a = b <-> c = d) -> delta a b = delta c d.
Proof.
  intros H. unfold delta. destruct (shape_eqb a b) eqn:E1; destruct (shape_eqb c d) eqn:E2; auto; exfalso.
  - apply shape_eqb_ok in E1. apply H in E1. subst. rewrite shape_eqb_refl in E2. discriminate.
  - apply shape_eqb_ok in E2. apply H in E2. subst. rewrite shape_eqb_refl in E1. discriminate.
Qed.
(** Gathering along an invertible index map is adding up along its inverse. *)
Lemma pull_inverse f h s0 sh gy : has_shape sh gy ->
  (forall i, in_bounds sh i -> in_bounds s0 (f i) /\ h (f i) = i) ->
  (forall j, in_bounds s0 j -> in_bounds sh (h j) /\ f (h j) = j) ->
  pullr h s0 gy = push f sh s0 gy.
Proof.
  intros Hg HF HH. apply tab_ext. intros j Hj. destruct (HH j Hj) as [Hb Hi]. rewrite <- (rsum_delta sh (h j)) by exact Hb.
  apply rsum_idx_ext. intros i Hib. destruct (HF i Hib) as [Fb Fi]. f_equal. apply delta_iff. split; intros; congruence.
Qed.
Lemma reshape_correct l sh out a y : reshape_dims (prod sh) l l = Some out -> prod sh = prod out -> has_shape sh a ->
  exists K, correct TReshape [TyA sh; TyI l] [TA a; TI l] out y K.
Proof.
  intros HD HP Ha. eexists.
  apply (pull_correct TReshape sh [l] out a y (reindex sh out) (EOp2 TReshape SNone EGy (EShape 0))).
  - intros i Hi. apply reindex_in; auto.
  - intros a' Ha'. simpl. rewrite (reshape_pull l sh out) by auto. reflexivity.
  - reflexivity.
  - cbn. unfold ety_op, op_ty. unfold shape_vec. rewrite (reshape_dims_ok _ sh) by (auto using plain_shape). rewrite HP, Nat.eqb_refl. reflexivity.
  - intros gy Hgy. cbn. rewrite (hs_sh _ _ Ha).
    rewrite (reshape_pull (shape_vec sh) out sh); auto.
    + simpl. do 2 f_equal. apply pull_inverse; auto; intros i Hi; (split; [apply reindex_in; auto|apply reindex_back; auto]).
    + apply reshape_dims_ok; auto using plain_shape.
Qed.
Lemma pull_in_back n p r sh i : inverses n p r -> length sh = n -> in_bounds (pull p sh) i -> in_bounds sh (pull r i).
Proof.
  intros IV L H. rewrite <- (pull_pull n p r sh) by auto. eapply pull_in_bounds; [apply inverses_sym; eauto| |exact H].
  rewrite pull_length. apply (iv_lp _ _ _ IV).
Qed.
Lemma transpose_correct inv perm q sh a out : perm_of (length sh) inv perm = Some q -> has_shape sh a ->
  exists K, correct (TTranspose inv) [TyA sh; TyI perm] [TA a; TI perm] (pull q sh) out K.
Proof.
  intros HP Ha. destruct (transpose_pull inv perm q sh a Ha HP) as (r & IV & HR & _).
  assert (Lq : length (pull q sh) = length sh) by (rewrite pull_length; apply (iv_lp _ _ _ IV)).
  assert (PP : pull r (pull q sh) = sh) by (apply (pull_pull (length sh)); auto).
  eexists. apply (pull_correct (TTranspose inv) sh [perm] (pull q sh) a out (pull r) (EOp2 (TTranspose (negb inv)) (SOfIn 0) EGy (EIn 1))).
  - intros i Hi. eapply pull_in_back; eauto.
  - intros a' Ha'. destruct (transpose_pull inv perm q sh a' Ha' HP) as (r' & IV' & HR' & T). assert (r' = r) by congruence. subst r'.
    simpl. rewrite T. reflexivity.
  - reflexivity.
  - cbn. unfold ety_op, op_ty. rewrite Lq, HR. cbn -[shape_eqb]. unfold pull in PP at 1. rewrite PP, shape_eqb_refl. reflexivity.
  - intros gy Hgy. cbn.
    destruct (transpose_pull (negb inv) perm r (pull q sh) gy Hgy) as (q' & IV' & HR' & T); [rewrite Lq; exact HR|].
    rewrite negb_involutive, Lq in HR'. assert (q' = q) by congruence. subst q'. rewrite T. simpl. do 2 f_equal. rewrite PP.
    apply pull_inverse; auto.
    + intros i Hi. split; [eapply pull_in_back; eauto|]. apply (pull_pull (length sh)); [apply inverses_sym; auto|].
      rewrite (in_bounds_length _ _ Hi). exact Lq.
    + intros j Hj. split; [eapply pull_in_bounds; eauto|]. apply (pull_pull (length sh)); auto. apply (in_bounds_length _ _ Hj).
Qed.

(** ** Sums of several arrays *)
Lemma fold_rsum_nth {X} (h : X -> R) (d0 : X) l : fold_right Rplus 0 (map h l) = rsum (seq 0 (length l)) (fun p => h (nth p l d0)).
Proof.
  rewrite fold_rsum. induction l as [|x l IH]; [reflexivity|]. simpl length. rewrite <- cons_seq, !rsum_cons, IH. cbn [nth]. f_equal.
  rewrite <- seq_shift. clear. generalize (seq 0 (length l)). intros m. induction m as [|a m IH]; [reflexivity|].
  simpl map. rewrite !rsum_cons, IH. reflexivity.
Qed.
Lemma addn_types sh ts : forallb (fun t => match t with TyA s => shape_eqb s sh | _ => false end) ts = true -> ts = map (fun _ => TyA sh) ts.
Proof.
  induction ts as [|[s|] ts IH]; simpl; intros H; auto; [|discriminate].
  apply andb_prop in H. destruct H as [H1 H2]. apply shape_eqb_ok in H1. subst. rewrite <- IH; auto.
Qed.
Lemma addn_correct sh ts vs out : op_ty TAddN ts = Some (TyA sh) -> Forall2 has_ty vs ts -> exists K, correct TAddN ts vs sh out K.
Proof.
  intros HT HV.
  assert (HS : ts <> [] /\ forallb (fun t => match t with TyA s => shape_eqb s sh | _ => false end) ts = true).
  { destruct ts as [|[s|] ts0]; try discriminate. unfold op_ty in HT. destruct (forallb _ ts0) eqn:EF; [|discriminate]. inv HT.
    split; [discriminate|]. simpl. rewrite shape_eqb_refl. exact EF. }
  destruct HS as [Ets EF2].
  assert (HN : forall p, (p < length ts)%nat -> nth_error ts p = Some (TyA sh)).
  { intros p Hp. rewrite (addn_types sh ts EF2), nth_error_map. destruct (nth_error ts p) eqn:E; [reflexivity|]. apply nth_error_None in E. lia. }
  exists (fun p i j => if (p <? length ts)%nat then delta i j else 0). apply mk_correct.
  - intros rs p e HR Hp. inv HR.
    assert (Lp : (p < length ts)%nat) by (rewrite <- (repeat_length (Some EGy) (length ts)); apply nth_error_Some; congruence).
    apply nth_error_In, repeat_spec in Hp. inv Hp. exists sh. split; [apply HN; auto|]. split; [reflexivity|].
    intros gy Hgy. simpl. do 2 f_equal. apply tab_eq; auto. intros j Hj. rewrite (proj2 (Nat.ltb_lt _ _) Lp).
    symmetry. apply rsum_delta_r. exact Hj.
  - intros rs p i j HR Hp. inv HR. destruct (Nat.ltb_spec p (length ts)) as [L|]; auto. exfalso. apply (Hp EGy).
    clear -L. revert L. generalize (length ts). revert p. induction p as [|p IH]; intros [|n] L; simpl; try lia; auto. apply IH. lia.
  - intros _ Fs d [HC HD] _ i Hi.
    assert (HL : length Fs = length ts) by (rewrite <- (Forall2_len _ _ _ (HC 0)); rewrite map_length; reflexivity).
    apply (is_derive_fext (fun t => rsum (seq 0 (length Fs)) (fun p => rget (arr_of (nth p Fs (fun _ => TI []) t)) i))).
    + intros t. destruct (addn_typed sh ts _ EF2 (HC t)) as (l & El & Fl).
      unfold run. rewrite El, (addn_ok sh); auto.
      * simpl. rewrite aget_tab by exact Hi. unfold total.
        assert (l = map (fun F : R -> tv => arr_of (F t)) Fs) as -> .
        { clear -El. revert l El. induction Fs as [|F Fs IH]; intros [|a l] El; simpl in *; try discriminate; auto.
          injection El as E1 E2. rewrite E1. simpl. f_equal. auto. }
        rewrite map_map. rewrite (fold_rsum_nth _ (fun _ => TI [])). reflexivity.
      * intros ->. specialize (HC t). rewrite El in HC. inversion HC. congruence.
    + unfold spread. rewrite HL. apply is_derive_rsum. intros p Hp. apply in_seq in Hp. destruct Hp as [_ Hp]. simpl in Hp.
      rewrite (HN p Hp), (proj2 (Nat.ltb_lt _ _) Hp), rsum_delta by exact Hi.
      apply (HD p (nth p Fs (fun _ => TI [])) sh); auto. apply nth_error_nth'. lia.
Qed.
