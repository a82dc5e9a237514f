(** The rules of the elementwise operations on arrays. *)
From Coq Require Import String List Arith ZArith Bool Lia Reals Lra.
From Coquelicot Require Import Coquelicot.
Import ListNotations.
From Verif Require Import Graph_Model Eval_Model Eval_Spec Eval_Proofs Graph_Proofs Grad_Model Grad_Spec
  Scalar_Model Scalar_Spec Scalar_Rules Scalar_Proofs.
From Verif Require Import Array_Model Array_Proofs Array_Sum Arith_Model Arith_Proofs Arith_Final Vjp_Spec Vjp_Proofs
  Reduce_Model Reduce_Spec Reduce_Proofs Shape_Model Shape_Spec Shape_Proofs3
  Dot_Model Dot_Proofs Softmax_Model Softmax_Spec Softmax_Proofs Softmax_Proofs2 Tens_Model Tens_Spec Tens_Fwd Tens_Build Tens_Rules.
Local Set Bullet Behavior "Strict Subproofs".
Local Open Scope R_scope.

(** ** Shapes of sums and products *)
Lemma scalar_nonempty sh : nonempty sh = true -> is_scalar_shape sh = shape_eqb sh [].
Proof. intros H. apply scalar_shape_nonempty. apply nonempty_prod. exact H. Qed.
Lemma nonempty_nil : nonempty [] = true.
Proof. reflexivity. Qed.
Lemma map2_max_bc : forall s r, dims_ok s r = true -> (prod r <> 0)%nat -> map2 Nat.max r s = r.
Proof.
  induction s as [|x s IH]; intros [|y r] H P; simpl in *; try discriminate; auto.
  apply andb_prop in H. destruct H as [H1 H2]. f_equal; [|apply IH; auto; lia].
  apply orb_prop in H1. destruct H1 as [H1|H1]; apply Nat.eqb_eq in H1; subst; [|lia].
  destruct y; [simpl in P; lia|lia].
Qed.
Lemma arith_self s r : reduces_to s r = true -> arith_ty r s = Some r.
Proof.
  intros H. apply reduces_reducible in H. destruct H as (P & B & L). unfold arith_ty.
  assert (N : nonempty r = true) by (apply nonempty_prod; exact P).
  assert (E : co_broadcast r s = Some r).
  { rewrite co_broadcast_sym. destruct L as [L| ->]; [apply can_co_broadcast; auto|apply co_broadcast_nil_l]. }
  rewrite E. assert (I : infer_shape r s = Some r).
  { unfold infer_shape. rewrite (scalar_nonempty r N). destruct L as [L| ->].
    - assert (Ns : is_scalar_shape s = shape_eqb s []).
      { eapply scalar_nonzero; [right; reflexivity|exact E|exact P]. }
      rewrite Ns. destruct (shape_eqb r []) eqn:Er.
      + apply shape_eqb_ok in Er. subst r. destruct s; [reflexivity|discriminate].
      + destruct (shape_eqb s []) eqn:Es.
        * apply shape_eqb_ok in Es. subst s. destruct r; [rewrite shape_eqb_refl in Er|]; discriminate.
        * simpl. rewrite L, Nat.eqb_refl. f_equal. apply map2_max_bc; auto. unfold can_broadcast in B. rewrite L, Nat.sub_diag in B.
          simpl in B. apply andb_prop in B. apply B.
    - simpl. destruct (shape_eqb r []) eqn:Er; [apply shape_eqb_ok in Er; subst; reflexivity|reflexivity]. }
  rewrite I, shape_eqb_refl, N. reflexivity.
Qed.
Lemma arith_same r : nonempty r = true -> arith_ty r r = Some r.
Proof. intros H. apply arith_self. apply reduces_refl. exact H. Qed.
Lemma reduces_nil r : nonempty r = true -> reduces_to [] r = true.
Proof. intros H. unfold reduces_to. rewrite H. cbn. unfold can_broadcast. simpl. rewrite Nat.sub_0_r, skipn_all. simpl. apply orb_true_r. Qed.
Lemma arith_nil_l r : nonempty r = true -> arith_ty [] r = Some r.
Proof.
  intros H. unfold arith_ty. rewrite co_broadcast_nil_l. unfold infer_shape. simpl. rewrite shape_eqb_refl, H. reflexivity.
Qed.
Lemma arith_reduces s0 s1 r : arith_ty s0 s1 = Some r -> nonempty r = true /\ reduces_to s0 r = true /\ reduces_to s1 r = true.
Proof.
  intros H. apply arith_ty_ok in H. destruct H as (C & I & P).
  assert (N : nonempty r = true) by (apply nonempty_prod; exact P). split; [exact N|].
  pose proof (co_broadcast_ok_l _ _ _ C) as B0. pose proof (co_broadcast_ok_r _ _ _ C) as B1.
  pose proof (co_broadcast_length _ _ _ C) as L.
  assert (S0 : is_scalar_shape s0 = shape_eqb s0 []) by (eapply scalar_nonzero; [left; reflexivity|exact C|exact P]).
  assert (S1 : is_scalar_shape s1 = shape_eqb s1 []) by (eapply scalar_nonzero; [right; reflexivity|exact C|exact P]).
  unfold infer_shape in I. rewrite S0, S1 in I.
  assert (Q : (length s0 = length r \/ s0 = []) /\ (length s1 = length r \/ s1 = [])).
  { destruct (shape_eqb s0 []) eqn:E0; destruct (shape_eqb s1 []) eqn:E1; cbn in I;
      repeat match goal with E : shape_eqb _ [] = true |- _ => apply shape_eqb_ok in E; subst end; simpl in L; rewrite ?Nat.max_0_r in L; auto.
    destruct (Nat.eqb_spec (length s0) (length s1)); [|discriminate]. split; left; lia. }
  destruct Q as [Q0 Q1]. split; apply reduces_reducible; split; auto.
Qed.

(** ** Rules on arrays of one shape and numbers *)
Section Elem.
Variables (sh : list nat) (dv : bool).
Hypothesis NE : nonempty sh = true.
Hypothesis DV : dv = true -> sh <> [1%nat].
Definition fsh (f : bool) : list nat := if f then sh else [].
Definition fpos (f : bool) (i : list nat) : list nat := if f then i else [].
Lemma fpos_in f i : in_bounds sh i -> in_bounds (fsh f) (fpos f i).
Proof. intros H. destruct f; [exact H|constructor]. Qed.
Lemma fpos_bc f g i : in_bounds sh i -> bc_idx (fsh f) (fpos (f || g) i) = fpos f i.
Proof. intros H. destruct f; simpl; [apply bc_idx_self; exact H|apply bc_idx_nil]. Qed.
Lemma fsh_ne f : nonempty (fsh f) = true.
Proof. destruct f; [exact NE|reflexivity]. Qed.

Fixpoint flag (ins : list bool) (fo fg : bool) (env : list bool) (e : rexp) : option bool :=
  match e with
  | RGy => Some fg
  | RIn i => nth_error ins i
  | ROut => Some fo
  | RVar k => nth_error env k
  | RScalar _ => Some false
  | RUn _ e => flag ins fo fg env e
  | RBin b e1 e2 =>
      match flag ins fo fg env e1, flag ins fo fg env e2 with
      | Some f1, Some f2 =>
          match b with
          | Div => if dv || negb f2 then Some (f1 || f2) else None
          | ELUGrad _ | ClipGrad _ _ => if Bool.eqb f1 f2 then Some f1 else None
          | _ => Some (f1 || f2)
          end
      | _, _ => None
      end
  | RLet a b => match flag ins fo fg env a with Some f => flag ins fo fg (f :: env) b | None => None end
  | _ => None
  end.
Lemma arith_fsh f1 f2 : arith_ty (fsh f1) (fsh f2) = Some (fsh (f1 || f2)).
Proof.
  destruct f1, f2; simpl; [apply arith_same| apply arith_self; apply reduces_nil|apply arith_nil_l|apply arith_same]; auto.
Qed.
Lemma cmp_fsh f1 f2 : cmp_ty (fsh f1) (fsh f2) = Some (fsh (f1 || f2)).
Proof.
  unfold cmp_ty. rewrite !fsh_ne. cbn [andb]. destruct f1, f2; simpl.
  - destruct (shape_eqb sh []); [reflexivity|]. rewrite shape_eqb_refl. reflexivity.
  - reflexivity.
  - destruct (shape_eqb sh []) eqn:E; [apply shape_eqb_ok in E; rewrite E; reflexivity|reflexivity].
  - reflexivity.
Qed.
Lemma bin_fsh b f1 f2 : match b with Div => dv || negb f2 = true | ELUGrad _ | ClipGrad _ _ => f1 = f2 | _ => True end ->
  bin_ty b (fsh f1) (fsh f2) = Some (fsh (f1 || f2)).
Proof.
  intros H. destruct b; simpl; try apply arith_fsh; try apply cmp_fsh.
  - rewrite shape_eqb_ne; [apply arith_fsh|]. destruct f2; simpl; [|discriminate]. apply DV. destruct dv; auto.
  - subst. unfold same_ty. rewrite shape_eqb_refl, orb_diag. reflexivity.
  - subst. unfold same_ty. rewrite shape_eqb_refl, orb_diag. reflexivity.
Qed.

Local Notation fa := (bool * arr R)%type.
Definition fok (q : fa) : Prop := has_shape (fsh (fst q)) (snd q).
Definition fty (q : fa) : ty := TyA (fsh (fst q)).
Definition fval (q : fa) : tv := TA (snd q).
Definition fat (i : list nat) (q : fa) : R := rget (snd q) (fpos (fst q) i).
Lemma nth_map_at i l k q : nth_error l k = Some q -> nth k (map (fat i) l) 0 = fat i q.
Proof. intros H. apply nth_error_nth. rewrite nth_error_map, H. reflexivity. Qed.

Lemma elem_rule ins out gy : List.Forall fok ins -> fok out -> fok gy -> forall e env f, List.Forall fok env ->
  flag (map fst ins) (fst out) (fst gy) (map fst env) e = Some f ->
  ety (map fty ins) (fty out) (fty gy) (map fty env) (embed e) = Some (TyA (fsh f)) /\
  exists a, eeval (map fval ins) (fval out) (fval gy) (map fval env) (embed e) = Some (TA a) /\ has_shape (fsh f) a /\
    forall i, in_bounds sh i -> rget a (fpos f i) = rval (map (fat i) ins) (fat i out) (fat i gy) (map (fat i) env) e.
Proof.
  intros HI HO HG. induction e; intros env f HE H; cbn [flag embed ety eeval rval] in *; try discriminate.
  - inv H. split; [reflexivity|]. eexists. split; [reflexivity|]. split; [exact HG|]. reflexivity.
  - rewrite nth_error_map in H. destruct (nth_error ins i) as [q|] eqn:E; simpl in H; [|discriminate H]. inv H.
    rewrite !nth_error_map, E. split; [reflexivity|]. eexists. split; [reflexivity|].
    split; [rewrite Forall_forall in HI; apply HI; eapply nth_error_In; eauto|]. intros j _. rewrite (nth_map_at _ _ _ q) by exact E. reflexivity.
  - inv H. split; [reflexivity|]. eexists. split; [reflexivity|]. split; [exact HO|]. reflexivity.
  - rewrite nth_error_map in H. destruct (nth_error env k) as [q|] eqn:E; simpl in H; [|discriminate H]. inv H.
    rewrite !nth_error_map, E. split; [reflexivity|]. eexists. split; [reflexivity|].
    split; [rewrite Forall_forall in HE; apply HE; eapply nth_error_In; eauto|]. intros j _. rewrite (nth_map_at _ _ _ q) by exact E. reflexivity.
  - inv H. split; [reflexivity|]. eexists. split; [reflexivity|]. split; [apply scalar_shape|]. intros i _. reflexivity.
  - destruct (IHe env f HE H) as (T & a & V & S & G). rewrite T, V. split; [reflexivity|].
    eexists. split; [reflexivity|]. rewrite (amap_tab _ (fsh f)) by auto. split; [apply tab_has_shape|].
    intros i Hi. rewrite aget_tab by (apply fpos_in; auto). rewrite G by auto. reflexivity.
  - destruct (flag (map fst ins) (fst out) (fst gy) (map fst env) e1) as [f1|] eqn:E1; [|discriminate].
    destruct (flag (map fst ins) (fst out) (fst gy) (map fst env) e2) as [f2|] eqn:E2; [|discriminate].
    destruct (IHe1 env f1 HE E1) as (T1 & a1 & V1 & S1 & G1). destruct (IHe2 env f2 HE E2) as (T2 & a2 & V2 & S2 & G2).
    rewrite T1, T2, V1, V2.
    assert (HB : bin_ty b (fsh f1) (fsh f2) = Some (fsh (f1 || f2)) /\ f = f1 || f2).
    { destruct b; try (inv H; split; [apply bin_fsh; exact I|reflexivity]).
      - destruct (dv || negb f2) eqn:D; [|discriminate]. inv H. split; [apply bin_fsh; exact D|reflexivity].
      - destruct (Bool.eqb f1 f2) eqn:D; [|discriminate]. apply eqb_prop in D. inv H. split; [apply bin_fsh; reflexivity|symmetry; apply orb_diag].
      - destruct (Bool.eqb f1 f2) eqn:D; [|discriminate]. apply eqb_prop in D. inv H. split; [apply bin_fsh; reflexivity|symmetry; apply orb_diag]. }
    destruct HB as [HB ->]. split; [simpl; rewrite HB; reflexivity|]. simpl tcompute.
    rewrite (bin_arr_ok b a1 a2 (fsh f1) (fsh f2) (fsh (f1 || f2))) by auto. eexists. split; [reflexivity|]. split; [apply zip_tab_shape|].
    intros i Hi. unfold zip_tab. rewrite aget_tab by (apply fpos_in; auto). rewrite fpos_bc by auto.
    rewrite (orb_comm f1 f2), fpos_bc by auto. rewrite G1, G2 by auto. reflexivity.
  - destruct (flag (map fst ins) (fst out) (fst gy) (map fst env) e1) as [f1|] eqn:E1; [|discriminate].
    destruct (IHe1 env f1 HE E1) as (T1 & a1 & V1 & S1 & G1). rewrite T1, V1.
    destruct (IHe2 ((f1, a1) :: env) f) as (T2 & a2 & V2 & S2 & G2); [constructor; auto|exact H|].
    split; [exact T2|]. exists a2. split; [exact V2|]. split; [exact S2|]. intros i Hi. rewrite G2 by auto. cbn [map].
    change (fat i (f1, a1)) with (rget a1 (fpos f1 i)). rewrite G1 by auto. reflexivity.
Qed.
End Elem.

Lemma un_flag u e : un_rule u = Some e -> flag (divides u) [true] true true [] e = Some true.
Proof. destruct u; intros H; inv H; reflexivity. Qed.

(** ** Functions of one argument *)
Lemma rule_value_linear u x gy : rule_value u x gy = gy * rule_value u x 1.
Proof. exact (op_vjp_linear (OUn u) [x] (un u x) 0 gy) || (pose proof (op_vjp_linear (OUn u) [x] (un u x) 0 gy) as H; unfold op_vjp in H; simpl in H; unfold rule_value; destruct (un_rule u); exact H). Qed.
Lemma rget_in x sh i : has_shape sh x -> in_bounds sh i -> In (rget x i) (a_data x).
Proof.
  intros [S L] Hi. unfold aget. rewrite S. apply nth_In. rewrite L. apply ravel_lt. exact Hi.
Qed.
Lemma un_correct u sh x : op_fit (TUn u) [TyA sh] = true -> has_shape sh x ->
  exists K, correct (TUn u) [TyA sh] [TA x] sh (amap (un u) x) K.
Proof.
  intros HF Hx. simpl in HF. apply andb_prop in HF. destruct HF as [NE HD].
  assert (DV : divides u = true -> sh <> [1%nat]).
  { intros E ->. rewrite E in HD. discriminate. }
  exists (first_only (fun i j => delta i j * rule_value u (rget x i) 1)). apply mk_correct.
  - intros rs p e HR Hp. inv HR. destruct (un_rule u) as [e0|] eqn:EU; [|destruct p as [|[|p]]; discriminate].
    destruct p as [|[|p]]; [|discriminate|discriminate]. inv Hp. exists sh. split; [reflexivity|].
    pose proof (un_flag u e0 EU) as HFl.
    assert (HG : forall gy, has_shape sh gy -> ety [TyA sh] (TyA sh) (TyA sh) [] (embed e0) = Some (TyA sh) /\
      eeval [TA x] (TA (amap (un u) x)) (TA gy) [] (embed e0) = Some (TA (applied sh sh (first_only (fun i j => delta i j * rule_value u (rget x i) 1) 0%nat) gy))).
    { intros gy Hgy.
      destruct (elem_rule sh (divides u) NE DV [(true, x)] (true, amap (un u) x) (true, gy)) with (e := e0) (env := @nil (bool * arr R)) (f := true) as (T & a & V & S & G).
      - constructor; [exact Hx|constructor].
      - red. simpl. rewrite (amap_tab _ sh) by auto. apply tab_has_shape.
      - exact Hgy.
      - constructor.
      - exact HFl.
      - split; [exact T|]. unfold fval in V. simpl in V. rewrite V. do 2 f_equal. apply tab_eq; auto. intros j Hj.
        specialize (G j Hj). simpl in G. rewrite G. unfold fat; simpl. rewrite (amap_tab _ sh) by auto. rewrite aget_tab by exact Hj.
        pose proof (rule_value_linear u (rget x j) (rget gy j)) as L. unfold rule_value in L at 1. rewrite EU in L. rewrite L.
        rewrite (rsum_idx_ext sh _ (fun i => delta i j * (rule_value u (rget x i) 1 * rget gy i))) by (intros; cbn [first_only]; ring).
        rewrite rsum_delta_r by exact Hj. ring. }
    split; [apply (HG (full sh 0)); apply full_shape|]. intros gy Hgy. apply HG. exact Hgy.
  - intros rs p i j HR Hp. inv HR. destruct p as [|p]; [|reflexivity]. simpl.
    unfold rule_value. destruct (un_rule u) as [e0|]; [|ring]. exfalso. apply (Hp (embed e0)). reflexivity.
  - intros HDom Fs d HC HV i Hi. apply (curve_first sh []) in HC. destruct HC as (F & HM & HS & HDv).
    change [TyA sh] with (TyA sh :: map TyI []). rewrite spread_first. pose proof (HM 0) as HM0. rewrite HV in HM0. simpl in HM0. injection HM0 as EX.
    apply (is_derive_fext (fun t => un u (rget (arr_of (F t)) i))).
    + intros t. unfold run. rewrite HM. simpl. rewrite (amap_tab _ sh) by auto. rewrite aget_tab by exact Hi. reflexivity.
    + simpl in HDom. rewrite Forall_forall in HDom. destruct (un_rule_correct u (rget x i)) as (d0 & D0 & R0); [apply HDom; eapply rget_in; eauto|].
      eapply is_derive_eq.
      * apply (is_derive_comp (un u) (fun t : R => rget (arr_of (F t)) i) 0 d0 (d 0%nat i)); [rewrite <- EX; exact D0|apply HDv; exact Hi].
      * unfold scal; simpl. unfold mult; simpl. rewrite (rsum_idx_ext sh _ (fun j => delta i j * (rule_value u (rget x i) 1 * d 0%nat j))) by (intros; ring).
        rewrite rsum_delta by exact Hi. rewrite R0. ring.
Qed.
