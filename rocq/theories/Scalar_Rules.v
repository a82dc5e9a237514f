(** The gradient rules of the elementwise operations compute derivatives. *)
From Coq Require Import String List Arith ZArith Bool Reals Lra Lia.
From Coquelicot Require Import Coquelicot.
Import ListNotations.
From Verif Require Import Graph_Model Scalar_Model Scalar_Spec.
Local Open Scope R_scope.

(** The value of a rule's expression. *)
Fixpoint rval (ins : list R) (out gy : R) (env : list R) (e : rexp) : R :=
  match e with
  | RGy => gy
  | RIn i => nth i ins 0
  | ROut => out
  | RVar k => nth k env 0
  | RScalar r => r
  | RUn u e => un u (rval ins out gy env e)
  | RBin b e1 e2 => bin b (rval ins out gy env e1) (rval ins out gy env e2)
  | RReduce _ e | RBcast _ e | RSumAll e | RSumAllGrad _ e => rval ins out gy env e
  | RLet e body => rval ins out gy (rval ins out gy env e :: env) body
  end.

(** ** Functions not covered by the libraries *)

Lemma powf_pos x a : 0 < x -> powf x a = Rpower x a.
Proof. intros H. unfold powf. destruct (Rlt_dec 0 x); [reflexivity|contradiction]. Qed.

Lemma Int_part_IZR z : Int_part (IZR z) = z.
Proof.
  unfold Int_part. assert (up (IZR z) = (z + 1)%Z); [|lia].
  symmetry. apply tech_up; rewrite plus_IZR; lra.
Qed.
Lemma is_int_IZR z : is_int (IZR z) = true.
Proof. unfold is_int. rewrite Int_part_IZR. destruct (Req_EM_T (IZR z) (IZR z)); auto. Qed.

Lemma powf_neg x z : x < 0 -> powf x (IZR z) = if Z.even z then Rpower (- x) (IZR z) else - Rpower (- x) (IZR z).
Proof.
  intros H. unfold powf. destruct (Rlt_dec 0 x); [lra|]. destruct (Req_EM_T x 0); [lra|].
  rewrite is_int_IZR, Int_part_IZR. reflexivity.
Qed.

Lemma powf_nat x n : powf x (INR n) = x ^ n.
Proof.
  destruct (Rtotal_order x 0) as [H|[H|H]].
  - rewrite INR_IZR_INZ, powf_neg, <- INR_IZR_INZ, Rpower_pow by lra.
    destruct (Z.even (Z.of_nat n)) eqn:E.
    + apply Z.even_spec in E. destruct E as [k Hk]. assert (n = 2 * Z.to_nat k)%nat as -> by lia.
      rewrite !pow_mult. f_equal. ring.
    + assert (Z.odd (Z.of_nat n) = true) by (rewrite <- Z.negb_even, E; reflexivity).
      apply Z.odd_spec in H0. destruct H0 as [k Hk]. assert (n = S (2 * Z.to_nat k))%nat as -> by lia.
      simpl pow. replace (Z.to_nat k + (Z.to_nat k + 0))%nat with (2 * Z.to_nat k)%nat by lia.
      rewrite !pow_mult. replace ((-x) ^ 2) with (x ^ 2) by ring. ring.
  - subst. unfold powf. destruct (Rlt_dec 0 0); [lra|]. destruct (Req_EM_T 0 0); [|lra].
    destruct n as [|n].
    + simpl. destruct (Req_EM_T 0 0); [auto|lra].
    + destruct (Req_EM_T _ 0) as [E|]; [|simpl; ring].
      rewrite S_INR in E. pose proof (pos_INR n). lra.
  - rewrite powf_pos by auto. apply Rpower_pow; auto.
Qed.

Lemma Rpower_pred x a : 0 < x -> Rpower x (a - 1) = Rpower x a / x.
Proof. intros H. unfold Rminus. rewrite Rpower_plus, Rpower_Ropp, Rpower_1; auto. Qed.

Lemma is_derive_Rpower x a : 0 < x -> is_derive (fun x => Rpower x a) x (a * Rpower x (a - 1)).
Proof.
  intros H. rewrite Rpower_pred by auto. unfold Rpower at 1. auto_derive; auto. unfold Rpower. field. lra.
Qed.

Lemma derive_local (f g : R -> R) x d e :
  0 < e -> (forall y, x - e < y < x + e -> f y = g y) -> is_derive g x d -> is_derive f x d.
Proof.
  intros He H D. eapply is_derive_ext_loc; [|exact D]. exists (mkposreal e He). intros y Hy.
  unfold ball in Hy; simpl in Hy; unfold AbsRing_ball, abs, minus, plus, opp in Hy; simpl in Hy.
  apply Rabs_def2 in Hy. symmetry. apply H. lra.
Qed.

Lemma powf_derive x a : un_dom (Pow a) x -> is_derive (fun x => powf x a) x (a * powf x (a - 1)).
Proof.
  assert (Hpos : 0 < x -> is_derive (fun x => powf x a) x (a * powf x (a - 1))).
  { intros H. rewrite powf_pos by auto. apply (derive_local _ (fun x => Rpower x a) _ _ x); auto.
    - intros y Hy. apply powf_pos. lra.
    - apply is_derive_Rpower; auto. }
  intros [H|[[H [z ->]]|[n ->]]]; auto.
  - destruct (Rtotal_order x 0) as [Hx|[Hx|Hx]]; [|contradiction|auto].
    apply (derive_local _ (fun x => (if Z.even z then 1 else -1) * Rpower (- x) (IZR z)) _ _ (- x)); [lra| |].
    { intros y Hy. rewrite powf_neg by lra. destruct (Z.even z); ring. }
    rewrite <- minus_IZR, powf_neg by auto.
    assert (E : Z.even (z - 1) = negb (Z.even z)).
    { replace (z - 1)%Z with (Z.pred z) by lia. rewrite Z.even_pred, <- Z.negb_even. auto. }
    rewrite E, minus_IZR.
    assert (D : is_derive (fun x => Rpower (- x) (IZR z)) x (- (IZR z * Rpower (- x) (IZR z - 1)))).
    { evar_last. apply (is_derive_comp (fun u => Rpower u (IZR z)) (fun x => - x)).
      - apply is_derive_Rpower. lra.
      - auto_derive; auto.
      - unfold scal; simpl; unfold mult; simpl. ring. }
    evar_last; [apply is_derive_scal, D|]. destruct (Z.even z); simpl; ring.
  - apply is_derive_ext with (f := fun x => x ^ n); [intros; symmetry; apply powf_nat|].
    destruct n as [|n].
    + simpl. evar_last; [apply is_derive_const|]. unfold zero; simpl. ring.
    + replace (INR (S n) - 1) with (INR n) by (rewrite S_INR; ring). rewrite powf_nat.
      evar_last; [apply is_derive_Reals, derivable_pt_lim_pow|]. reflexivity.
Qed.

Lemma floor_local x : (forall z : Z, x <> IZR z) ->
  exists e, 0 < e /\ forall y, x - e < y < x + e -> Int_part y = Int_part x.
Proof.
  intros H. destruct (base_Int_part x) as [H1 H2]. set (z := Int_part x) in *.
  assert (H3 : IZR z < x) by (destruct H1 as [H1|H1]; [auto|exfalso; apply (H z); auto]).
  exists (Rmin (x - IZR z) (IZR z + 1 - x)). split; [apply Rmin_glb_lt; lra|].
  intros y Hy. pose proof (Rmin_l (x - IZR z) (IZR z + 1 - x)). pose proof (Rmin_r (x - IZR z) (IZR z + 1 - x)).
  unfold Int_part. assert (up y = (z + 1)%Z); [|lia]. symmetry. apply tech_up; rewrite plus_IZR; lra.
Qed.

Lemma cosh_pos x : 0 < cosh x.
Proof. unfold cosh. pose proof (exp_pos x). pose proof (exp_pos (- x)). lra. Qed.
Lemma cosh_sinh_1 x : cosh x * cosh x - sinh x * sinh x = 1.
Proof.
  unfold cosh, sinh. assert (exp x * exp (- x) = 1) by (rewrite <- exp_plus, Rplus_opp_r; apply exp_0). nra.
Qed.
Lemma tanh_derive x : is_derive tanh x (1 - tanh x * tanh x).
Proof.
  pose proof (cosh_pos x) as Hc.
  assert (E : 1 - tanh x * tanh x = / (cosh x * cosh x)).
  { unfold tanh. rewrite <- (cosh_sinh_1 x). pose proof (cosh_sinh_1 x).
    apply Rmult_eq_reg_r with (cosh x * cosh x); [|nra]. field_simplify; nra. }
  rewrite E. apply is_derive_Reals. unfold tanh.
  replace (/ (cosh x * cosh x)) with ((cosh x * cosh x - sinh x * sinh x) / (Rsqr (cosh x))).
  - apply (derivable_pt_lim_div sinh cosh); [apply derivable_pt_lim_sinh|apply derivable_pt_lim_cosh|lra].
  - rewrite cosh_sinh_1. unfold Rsqr. field. lra.
Qed.

(** ** Unary operations *)
Definition rule_value (u : uop) (x gy : R) : R :=
  match un_rule u with
  | Some e => rval [x] (un u x) gy [] e
  | None => 0
  end.

Lemma lt_near (a x : R) : a < x -> forall y, x - (x - a) < y < x + (x - a) -> a < y.
Proof. intros; lra. Qed.

Lemma half_power x : 0 < x -> Rpower x (- (1 / (1 + 1))) = / sqrt x.
Proof.
  intros H. rewrite Rpower_Ropp. f_equal. replace (1 / (1 + 1)) with (/ 2) by field. apply Rpower_sqrt; auto.
Qed.

Lemma rsqrt_power x : 0 < x -> Rpower x (- (3 / 2)) = / (x * sqrt x).
Proof.
  intros H. rewrite Rpower_Ropp. f_equal. replace (3 / 2) with (1 + / 2) by field.
  rewrite Rpower_plus, Rpower_1, Rpower_sqrt by auto. reflexivity.
Qed.

Lemma sqrt_sqr_pos x : 0 < x -> 0 < sqrt x /\ sqrt x * sqrt x = x.
Proof. intros H. split; [apply sqrt_lt_R0; auto | apply sqrt_sqrt; lra]. Qed.


Lemma is_derive_lim f x d : derivable_pt_lim f x d -> is_derive f x d.
Proof. apply is_derive_Reals. Qed.

Lemma un_rule_correct u x : un_dom u x ->
  exists d, is_derive (un u) x d /\ forall gy, rule_value u x gy = gy * d.
Proof.
  intros H. destruct u; unfold rule_value; cbn -[cos sin tan asin acos atan sinh cosh tanh arcsinh powf pow sqrt Int_part] in *;
    cbv beta iota delta [un].
  - (* Sin *) exists (cos x). split; [auto_derive; auto; ring|]. intros; ring.
  - (* Cos *) exists (- sin x). split; [auto_derive; auto; ring|]. intros; ring.
  - (* Tan *) exists (/ (cos x * cos x)). split; [|intros; unfold Rdiv; ring].
    apply is_derive_ext with (f := fun x => sin x / cos x); [reflexivity|]. auto_derive; auto.
    pose proof (sin2_cos2 x) as E. unfold Rsqr in E.
    apply Rmult_eq_reg_r with (cos x * cos x); [|apply Rmult_integral_contrapositive; auto].
    field_simplify; auto. rewrite <- E. ring.
  - (* Asin *) exists (/ sqrt (1 - x * x)). split; [|intros; ring].
    apply is_derive_lim. pose proof (derive_pt_asin x H) as E.
    apply derive_pt_eq in E. unfold Rsqr in E.
    replace (/ sqrt (1 - x * x)) with (1 / sqrt (1 - x * x)) by (unfold Rdiv; ring). exact E.
  - (* Acos *) exists (- / sqrt (1 - x * x)). split; [|intros; ring].
    apply is_derive_lim. pose proof (derive_pt_acos x H) as E.
    apply derive_pt_eq in E. unfold Rsqr in E.
    replace (- / sqrt (1 - x * x)) with (- 1 / sqrt (1 - x * x)) by (unfold Rdiv; ring). exact E.
  - (* Atan *) exists (/ (x * x + 1)). split; [|intros; ring].
    apply is_derive_lim. replace (x * x + 1) with (1 + x ^ 2) by ring. apply Ratan.derivable_pt_lim_atan.
  - (* Sinh *) exists (cosh x). split; [|intros; ring]. apply is_derive_lim, derivable_pt_lim_sinh.
  - (* Cosh *) exists (sinh x). split; [|intros; ring]. apply is_derive_lim, derivable_pt_lim_cosh.
  - (* Tanh *) exists (1 - tanh x * tanh x). split; [|intros; ring]. apply tanh_derive.
  - (* Asinh *) exists (/ sqrt (x * x + 1)). split; [|intros; ring].
    apply is_derive_lim. replace (x * x + 1) with (x ^ 2 + 1) by ring. apply derivable_pt_lim_arcsinh.
  - (* Acosh *) exists (/ sqrt (x * x - 1)). split; [|intros; ring].
    assert (Hs : 0 < x * x - 1) by nra. destruct (sqrt_sqr_pos _ Hs) as [S1 S2].
    auto_derive.
    + split; [exact Hs|]. replace (x * x + - (1)) with (x * x - 1) by ring. split; [lra|auto].
    + replace (x * x + - (1)) with (x * x - 1) by ring. field. split; lra.
  - (* Atanh *) exists (/ (1 - x * x)). split; [|intros; ring].
    auto_derive.
    + split; [lra|]. split; [|auto]. apply Rmult_lt_0_compat; [lra|apply Rinv_0_lt_compat; lra].
    + field. repeat split; nra.
  - (* Exp *) exists (exp x). split; [auto_derive; auto; ring|]. intros; ring.
  - (* Exp2 *) exists (ln 2 * Rpower 2 x). split.
    + unfold Rpower. auto_derive; auto. ring.
    + intros. replace (1 + 1) with 2 by ring. ring.
  - (* Exp10 *) exists (ln 10 * Rpower 10 x). split.
    + apply is_derive_ext with (f := fun x => Rpower 10 x); [intros; symmetry; apply powf_pos; lra|].
      unfold Rpower. auto_derive; auto. ring.
    + intros. rewrite powf_pos by lra. ring.
  - (* Ln *) exists (/ x). split; [auto_derive; auto; ring|]. intros; unfold Rdiv; ring.
  - (* Log2 *) exists (/ (ln 2 * x)).
    assert (0 < ln 2) by (rewrite <- ln_1; apply ln_increasing; lra). split.
    + auto_derive; auto. field; lra.
    + intros. replace (1 + 1) with 2 by ring. unfold Rdiv. ring.
  - (* Log10 *) exists (/ (ln 10 * x)).
    assert (0 < ln 10) by (rewrite <- ln_1; apply ln_increasing; lra). split.
    + auto_derive; auto. field; lra.
    + intros. unfold Rdiv. ring.
  - (* Sqrt *) exists (/ (2 * sqrt x)). destruct (sqrt_sqr_pos _ H) as [S1 S2]. split.
    + auto_derive; auto. field. lra.
    + intros. rewrite powf_pos, half_power by auto. field. lra.
  - (* InvSqrt *) exists (- (1 / 2) * / (x * sqrt x)). destruct (sqrt_sqr_pos _ H) as [S1 S2]. split.
    + auto_derive; [repeat split; auto; lra|]. rewrite <- S2 at 4. field. lra.
    + intros. rewrite powf_pos, rsqrt_power by auto. ring.
  - (* Inv *) exists (- (/ x * / x)). split; [|intros; ring]. auto_derive; auto. field; auto.
  - (* Square *) exists (2 * x). split; [auto_derive; auto; ring|]. intros; ring.
  - (* Neg *) exists (-1). split; [auto_derive; auto; ring|]. intros; ring.
  - (* Abs *)
    destruct (Req_EM_T x 0) as [E|_]; [contradiction|]. destruct (Rlt_dec 0 x) as [Hp|Hp].
    + exists 1. split; [|intros; ring]. apply (derive_local _ (fun y => y) _ _ x); auto.
      * intros y Hy. apply Rabs_pos_eq. lra.
      * auto_derive; auto.
    + exists (-1). split; [|intros; ring]. apply (derive_local _ (fun y => - y) _ _ (- x)); [lra| |].
      * intros y Hy. apply Rabs_left. lra.
      * auto_derive; auto.
  - (* Sign *) exists 0. split; [|intros; ring].
    destruct (Rlt_dec 0 x) as [Hp|Hp].
    + apply (derive_local _ (fun _ => 1) _ _ x); auto; [|apply @is_derive_const].
      intros y Hy. destruct (Req_EM_T y 0); [lra|]. destruct (Rlt_dec 0 y); lra.
    + apply (derive_local _ (fun _ => -1) _ _ (- x)); [lra| |apply @is_derive_const].
      intros y Hy. destruct (Req_EM_T y 0); [lra|]. destruct (Rlt_dec 0 y); lra.
  - (* Floor *) exists 0. split; [|intros; ring]. destruct (floor_local x H) as (e & He & Hl).
    apply (derive_local _ (fun _ => IZR (Int_part x)) _ _ e); auto; [|apply @is_derive_const].
    intros y Hy. rewrite Hl by auto. reflexivity.
  - (* Ceil *) exists 0. split; [|intros; ring].
    destruct (floor_local (- x)) as (e & He & Hl).
    { intros z Hz. apply (H (- z)%Z). rewrite opp_IZR. lra. }
    apply (derive_local _ (fun _ => - IZR (Int_part (- x))) _ _ e); auto; [|apply @is_derive_const].
    intros y Hy. rewrite Hl by lra. reflexivity.
  - (* Pow *) exists (a * powf x (a - 1)). split; [|intros; ring]. apply powf_derive; auto.
  - (* Sigmoid *) set (y := tanh (x * (1 / 2)) * (1 / 2) + 1 / 2). exists (y - y * y). split; [|intros; ring].
    evar_last.
    + apply (is_derive_ext (fun x => plus (scal (1 / 2) (tanh (x * (1 / 2)))) (1 / 2))).
      { intros t. unfold plus, scal; simpl; unfold mult; simpl. ring. }
      apply @is_derive_plus; [|apply @is_derive_const]. apply is_derive_scal.
      apply (is_derive_comp tanh (fun x => x * (1 / 2))); [apply tanh_derive|].
      instantiate (1 := 1 / 2). auto_derive; auto. field.
    + unfold plus, scal, zero; simpl; unfold mult; simpl. unfold y. field.
  - (* Softplus *) exists (exp x / (exp x + 1)). split; [|intros; ring].
    pose proof (exp_pos x). auto_derive; [lra|]. field. lra.
  - (* ReLU *) unfold rltb. destruct (Rlt_dec 0 x) as [Hp|Hp].
    + exists 1. split; [|intros; simpl; ring]. apply (derive_local _ (fun y => y) _ _ x); auto.
      * intros y Hy. apply Rmax_left. lra.
      * auto_derive; auto.
    + exists 0. split; [|intros; simpl; ring]. apply (derive_local _ (fun y => 0) _ _ (- x)); [lra| |apply @is_derive_const].
      intros y Hy. apply Rmax_right. lra.
  - (* ELU *) destruct (Rlt_dec 0 x) as [Hp|Hp].
    + exists 1. split; [|intros; simpl; ring]. apply (derive_local _ (fun y => y) _ _ x); auto.
      * intros y Hy. destruct (Rlt_dec 0 y); lra.
      * auto_derive; auto.
    + exists (alpha * exp x). split; [|intros; simpl; ring].
      apply (derive_local _ (fun y => alpha * (exp y - 1)) _ _ (- x)); [lra| |].
      * intros y Hy. destruct (Rlt_dec 0 y); lra.
      * auto_derive; auto. ring.
  - (* Clip *) destruct H as [H1 H2]. unfold rltb.
    destruct (Rlt_dec mn x) as [Hn|Hn]; destruct (Rlt_dec x mx) as [Hx|Hx].
    + exists 1. split; [|intros; simpl; ring].
      apply (derive_local _ (fun y => y) _ _ (Rmin (x - mn) (mx - x))); [apply Rmin_glb_lt; lra| |auto_derive; auto].
      intros y Hy. pose proof (Rmin_l (x - mn) (mx - x)). pose proof (Rmin_r (x - mn) (mx - x)).
      rewrite Rmin_left, Rmax_left; lra.
    + exists 0. split; [|intros; simpl; ring].
      apply (derive_local _ (fun y => Rmax mx mn) _ _ (x - mx)); [lra| |apply @is_derive_const].
      intros y Hy. rewrite (Rmin_right y mx); auto; lra.
    + exists 0. split; [|intros; simpl; ring].
      apply (derive_local _ (fun y => mn) _ _ (mn - x)); [lra| |apply @is_derive_const].
      intros y Hy. apply Rmax_right. pose proof (Rmin_l y mx). lra.
    + exists 0. split; [|intros; simpl; ring].
      apply (derive_local _ (fun y => mn) _ _ (mn - x)); [lra| |apply @is_derive_const].
      intros y Hy. apply Rmax_right. pose proof (Rmin_l y mx). lra.
  - (* Identity *) exists 1. split; [auto_derive; auto|]. intros; ring.
Qed.

(** ** All operations *)

(** What the rule of operation [o], at numeric inputs [vs] and output [out],
    propagates to its [p]-th input. *)
Definition op_vjp (o : sop) (vs : list R) (out : R) (p : nat) (gy : R) : R :=
  match rule o (length vs) with
  | Some rs => match nth_error rs p with
               | Some (Some e) => rval vs out gy [] e
               | _ => 0
               end
  | None => 0
  end.

Lemma nth_error_two {A} (a b : A) p :
  nth_error [a; b] p = match p with 0%nat => Some a | 1%nat => Some b | _ => None end.
Proof. destruct p as [|[|p]]; auto. simpl. destruct p; auto. Qed.
Lemma nth_error_one {A} (a : A) p : nth_error [a] p = match p with 0%nat => Some a | _ => None end.
Proof. destruct p as [|p]; auto. simpl. destruct p; auto. Qed.

Lemma op_vjp_linear o vs out p gy : op_vjp o vs out p gy = gy * op_vjp o vs out p 1.
Proof.
  unfold op_vjp. destruct o; cbn [rule].
  - ring.
  - rewrite nth_error_one. destruct p; ring.
  - destruct p; simpl; ring.
  - rewrite nth_error_one. destruct p; ring.
  - rewrite nth_error_two. destruct p as [|[|p]]; ring.
  - rewrite nth_error_one. destruct p; ring.
  - rewrite nth_error_two. destruct p as [|[|p]]; simpl; ring.
  - rewrite nth_error_two. destruct p as [|[|p]]; simpl; ring.
  - rewrite nth_error_one. destruct p; simpl; ring.
  - rewrite nth_error_two. destruct p as [|[|p]]; simpl; ring.
  - destruct (nth_error (repeat (Some RGy) (length vs)) p) as [[e|]|] eqn:E; try ring.
    apply nth_error_In, repeat_spec in E. injection E as ->. simpl. ring.
  - rewrite nth_error_one. destruct p; ring.
  - rewrite nth_error_one. destruct p; [|ring]. destruct u; simpl; unfold Rdiv; ring.
  - destruct b; cbn [bin_rule]; rewrite ?nth_error_one, ?nth_error_two;
      destruct p as [|[|p]]; simpl; unfold Rdiv; ring.
Qed.

Fixpoint wsum (f : nat -> R) (k : nat) (ds : list R) : R :=
  match ds with
  | [] => 0
  | d :: ds => f k * d + wsum f (S k) ds
  end.

Definition has_ty (v : sval) (t : sty) : Prop :=
  match v, t with
  | Num _, TNum | Shp, TShp | ShpShp, TShpShp => True
  | _, _ => False
  end.

Lemma lt_locally (f g : R -> R) t0 df dg :
  is_derive f t0 df -> is_derive g t0 dg -> f t0 < g t0 -> locally t0 (fun t => f t < g t).
Proof.
  intros Df Dg H.
  assert (C : continuous (fun t => minus (g t) (f t)) t0).
  { apply (ex_derive_continuous (V := R_NormedModule) (fun t => minus (g t) (f t))).
    eexists. apply @is_derive_minus; eauto. }
  assert (L : locally (minus (g t0) (f t0)) (fun v => 0 < v)).
  { apply open_gt. unfold minus, plus, opp; simpl. lra. }
  specialize (C _ L). unfold filtermap in C.
  eapply filter_imp; [|exact C]. intros t Ht. simpl in Ht. unfold minus, plus, opp in Ht; simpl in Ht. lra.
Qed.

Lemma derive_loc (f g : R -> R) t0 d : locally t0 (fun t => f t = g t) -> is_derive g t0 d -> is_derive f t0 d.
Proof.
  intros H D. eapply is_derive_ext_loc; [|exact D]. eapply filter_imp; [|exact H]. simpl. intros; auto.
Qed.

(** Binary operations: the chain rule along two differentiable arguments. *)
Lemma bin_rule_correct b (f g : R -> R) t0 df dg :
  is_derive f t0 df -> is_derive g t0 dg -> bin_dom b (f t0) (g t0) ->
  is_derive (fun t => bin b (f t) (g t)) t0
    (op_vjp (OBin b) [f t0; g t0] (bin b (f t0) (g t0)) 0 1 * df
     + op_vjp (OBin b) [f t0; g t0] (bin b (f t0) (g t0)) 1 1 * dg).
Proof.
  intros Df Dg H.
  assert (Hcmp : f t0 <> g t0 -> locally t0 (fun t => f t < g t) \/ locally t0 (fun t => g t < f t)).
  { intros Hn. destruct (Rtotal_order (f t0) (g t0)) as [Hl|[Hl|Hl]]; [left|contradiction|right];
      eapply lt_locally; eauto. }
  assert (Hat : forall P : R -> Prop, locally t0 P -> P t0) by (intros P HP; apply locally_singleton; auto).
  destruct b; unfold op_vjp; cbn -[Rpower powf] in *.
  - evar_last; [apply @is_derive_plus; eauto|]. unfold plus; simpl. ring.
  - evar_last; [apply @is_derive_minus; eauto|]. unfold minus, plus, opp; simpl. ring.
  - evar_last; [apply (is_derive_mult f g _ _ _ Df Dg); intros; apply Rmult_comm|].
    unfold plus, mult; simpl. ring.
  - evar_last; [apply is_derive_div; eauto|].
    assert (E : powf (g t0) (-2) = / (g t0 * g t0)).
    { destruct (Rtotal_order (g t0) 0) as [Hl|[Hl|Hl]]; [|contradiction|].
      - rewrite powf_neg by auto. simpl Z.even. cbv iota. replace (-2) with (- (2)) by lra. rewrite Rpower_Ropp.
        replace 2 with (INR 2) by (simpl; ring). rewrite Rpower_pow by lra. f_equal. ring.
      - rewrite powf_pos by auto. replace (-2) with (- (2)) by lra. rewrite Rpower_Ropp.
        replace 2 with (INR 2) by (simpl; ring). rewrite Rpower_pow by lra. f_equal. ring. }
    rewrite E. field. auto.
  - destruct (Hcmp H) as [L|L]; pose proof (Hat _ L) as Hl; simpl in Hl; unfold reqb.
    + rewrite (Rmax_right (f t0)) by lra.
      destruct (Req_EM_T (f t0) (g t0)); [lra|]. destruct (Req_EM_T (g t0) (g t0)); [|lra]. simpl.
      apply (derive_loc _ g); [eapply filter_imp; [|exact L]; simpl; intros; apply Rmax_right; lra|].
      evar_last; [eauto|]. ring.
    + rewrite (Rmax_left (f t0)) by lra.
      destruct (Req_EM_T (f t0) (f t0)); [|lra]. destruct (Req_EM_T (g t0) (f t0)); [lra|]. simpl.
      apply (derive_loc _ f); [eapply filter_imp; [|exact L]; simpl; intros; apply Rmax_left; lra|].
      evar_last; [eauto|]. ring.
  - destruct (Hcmp H) as [L|L]; pose proof (Hat _ L) as Hl; simpl in Hl; unfold reqb.
    + rewrite (Rmin_left (f t0)) by lra.
      destruct (Req_EM_T (f t0) (f t0)); [|lra]. destruct (Req_EM_T (g t0) (f t0)); [lra|]. simpl.
      apply (derive_loc _ f); [eapply filter_imp; [|exact L]; simpl; intros; apply Rmin_left; lra|].
      evar_last; [eauto|]. ring.
    + rewrite (Rmin_right (f t0)) by lra.
      destruct (Req_EM_T (f t0) (g t0)); [lra|]. destruct (Req_EM_T (g t0) (g t0)); [|lra]. simpl.
      apply (derive_loc _ g); [eapply filter_imp; [|exact L]; simpl; intros; apply Rmin_right; lra|].
      evar_last; [eauto|]. ring.
  - destruct (Hcmp H) as [L|L];
      (apply (derive_loc _ (fun _ => 0)); [eapply filter_imp; [|exact L]; intros t Ht; cbv beta in Ht; unfold reqb;
         destruct (Req_EM_T (f t) (g t)); [lra|reflexivity] |
       evar_last; [apply @is_derive_const|]; unfold zero; simpl; ring]).
  - destruct (Hcmp H) as [L|L];
      (apply (derive_loc _ (fun _ => 1)); [eapply filter_imp; [|exact L]; intros t Ht; cbv beta in Ht; unfold reqb;
         destruct (Req_EM_T (f t) (g t)); [lra|reflexivity] |
       evar_last; [apply @is_derive_const|]; unfold zero; simpl; ring]).
  - destruct (Hcmp H) as [L|L]; [apply (derive_loc _ (fun _ => 0))|apply (derive_loc _ (fun _ => 1))];
      try (eapply filter_imp; [|exact L]; intros t Ht; cbv beta in Ht; unfold rltb;
           destruct (Rlt_dec (g t) (f t)); [try lra; reflexivity|try lra; reflexivity]);
      (evar_last; [apply @is_derive_const|]; unfold zero; simpl; ring).
  - destruct (Hcmp H) as [L|L]; [apply (derive_loc _ (fun _ => 1))|apply (derive_loc _ (fun _ => 0))];
      try (eapply filter_imp; [|exact L]; intros t Ht; cbv beta in Ht; unfold rltb;
           destruct (Rlt_dec (f t) (g t)); [try lra; reflexivity|try lra; reflexivity]);
      (evar_last; [apply @is_derive_const|]; unfold zero; simpl; ring).
  - destruct (Hcmp H) as [L|L]; [apply (derive_loc _ (fun _ => 0))|apply (derive_loc _ (fun _ => 1))];
      try (eapply filter_imp; [|exact L]; intros t Ht; cbv beta in Ht; unfold rltb;
           destruct (Rlt_dec (f t) (g t)); [try lra; reflexivity|try lra; reflexivity]);
      (evar_last; [apply @is_derive_const|]; unfold zero; simpl; ring).
  - destruct (Hcmp H) as [L|L]; [apply (derive_loc _ (fun _ => 1))|apply (derive_loc _ (fun _ => 0))];
      try (eapply filter_imp; [|exact L]; intros t Ht; cbv beta in Ht; unfold rltb;
           destruct (Rlt_dec (g t) (f t)); [try lra; reflexivity|try lra; reflexivity]);
      (evar_last; [apply @is_derive_const|]; unfold zero; simpl; ring).
  - contradiction.
  - contradiction.
Qed.

Lemma has_num v : has_ty v TNum -> v = Num (num v).
Proof. destruct v; simpl; tauto. Qed.
Lemma has_shp v : has_ty v TShp -> v = Shp.
Proof. destruct v; simpl; tauto. Qed.

Lemma nums_num vs : List.Forall (fun v => has_ty v TNum) vs -> nums vs = Some (map num vs).
Proof.
  induction 1 as [|v vs Hv _ IH]; [reflexivity|]. unfold nums in *. simpl. rewrite IH.
  destruct v; simpl in Hv; try contradiction. reflexivity.
Qed.

Lemma Rsum_shift l : forall a, fold_left Rplus l a = a + fold_right Rplus 0 l.
Proof. induction l as [|b l IH]; intros a; simpl; [ring|]. rewrite IH. ring. Qed.

Lemma derive_sum (Fs : list (R -> R)) (ds : list R) t0 :
  Forall2 (fun F (d : R) => is_derive F t0 d) Fs ds ->
  is_derive (fun t => fold_right Rplus 0 (map (fun F => F t) Fs)) t0 (fold_right Rplus 0 ds).
Proof.
  induction 1 as [|F d Fs ds HF _ IH]; simpl; [apply @is_derive_const|].
  apply (is_derive_plus F (fun t => fold_right Rplus 0 (map (fun F => F t) Fs))); auto.
Qed.

Lemma wsum_ext f g ds : forall k, (forall i, (k <= i < k + length ds)%nat -> f i = g i) -> wsum f k ds = wsum g k ds.
Proof.
  induction ds as [|d ds IH]; intros k H; simpl; [reflexivity|].
  rewrite (H k) by (simpl; lia). f_equal. apply IH. intros i Hi. apply H. simpl. lia.
Qed.
Lemma wsum_one ds : forall k, wsum (fun _ => 1) k ds = fold_right Rplus 0 ds.
Proof. induction ds as [|d ds IH]; intros k; simpl; [reflexivity|]. rewrite IH. ring. Qed.
Lemma wsum_zero ds : forall k, wsum (fun _ => 0) k ds = 0.
Proof. induction ds as [|d ds IH]; intros k; simpl; [reflexivity|]. rewrite IH. ring. Qed.

Ltac rring := match goal with |- @eq _ ?a ?b => change (@eq R a b) end; ring.

Lemma op_rule_correct o (Fs : list (R -> sval)) (tys : list sty) (ds : list R) t0 (res : R -> sval) :
  o <> OLeaf -> op_ty o tys = Some TNum ->
  Forall2 (fun F ty => forall t, has_ty (F t) ty) Fs tys ->
  Forall2 (fun F (d : R) => is_derive (fun t => num (F t)) t0 d) Fs ds ->
  op_dom o (map (fun F => num (F t0)) Fs) ->
  (forall t, scompute o (map (fun F => F t) Fs) = Some (res t)) ->
  is_derive (fun t => num (res t)) t0
    (wsum (fun p => op_vjp o (map (fun F => num (F t0)) Fs) (num (res t0)) p 1) 0 ds).
Proof.
  intros Ho Hty HF HD Hdom Hres.
  assert (Hconst : forall c, (forall t, num (res t) = c) -> is_derive (fun t => num (res t)) t0 0).
  { intros c Hc. apply is_derive_ext with (f := fun _ => c); [intros; symmetry; auto|]. apply @is_derive_const. }
  assert (H1 : forall F d, (forall t, num (res t) = num (F t)) -> is_derive (fun t => num (F t)) t0 d ->
                 is_derive (fun t => num (res t)) t0 d).
  { intros F d Hc D. apply is_derive_ext with (f := fun t => num (F t)); [intros; symmetry; auto|auto]. }
  destruct o.
  - congruence.
  - destruct tys as [|? ?]; [|discriminate]. inversion HF; subst. inversion HD; subst. simpl.
    apply (Hconst r). intros t. specialize (Hres t). simpl in Hres. injection Hres as <-. reflexivity.
  - destruct tys as [|? ?]; [|discriminate]. inversion HF; subst. inversion HD; subst. simpl.
    apply (Hconst (num v)). intros t. specialize (Hres t). simpl in Hres. injection Hres as <-. reflexivity.
  - destruct tys as [|[] [|? ?]]; discriminate.
  - destruct tys as [|[] [|[] [|? ?]]]; discriminate.
  - destruct tys as [|[] [|? ?]]; try discriminate.
    inversion HF as [|F1 ? Fs1 ? HF1 HF2]; subst. inversion HF2; subst.
    inversion HD as [|? d1 ? ? HD1 HD2]; subst. inversion HD2; subst.
    simpl. evar_last; [apply (Hconst 0)|unfold op_vjp; simpl; rring].
    intros t. specialize (Hres t). simpl in Hres. rewrite (has_shp _ (HF1 t)) in Hres. injection Hres as <-. reflexivity.
  - destruct tys as [|[] [|[] [|? ?]]]; try discriminate.
    inversion HF as [|F1 ? Fs1 ? HF1 HF2]; subst. inversion HF2 as [|F2 ? Fs2 ? HF3 HF4]; subst. inversion HF4; subst.
    inversion HD as [|? d1 ? ? HD1 HD2]; subst. inversion HD2 as [|? d2 ? ? HD3 HD4]; subst. inversion HD4; subst.
    evar_last; [apply (H1 F1); [|exact HD1] | unfold op_vjp; simpl; rring].
    intros t. specialize (Hres t). simpl in Hres. rewrite (has_shp _ (HF3 t)), (has_num _ (HF1 t)) in Hres.
    injection Hres as <-. reflexivity.
  - destruct tys as [|[] [|[] [|? ?]]]; try discriminate.
    inversion HF as [|F1 ? Fs1 ? HF1 HF2]; subst. inversion HF2 as [|F2 ? Fs2 ? HF3 HF4]; subst. inversion HF4; subst.
    inversion HD as [|? d1 ? ? HD1 HD2]; subst. inversion HD2 as [|? d2 ? ? HD3 HD4]; subst. inversion HD4; subst.
    evar_last; [apply (H1 F1); [|exact HD1] | unfold op_vjp; simpl; rring].
    intros t. specialize (Hres t). simpl in Hres. rewrite (has_shp _ (HF3 t)), (has_num _ (HF1 t)) in Hres.
    injection Hres as <-. reflexivity.
  - destruct tys as [|[] [|? ?]]; try discriminate.
    inversion HF as [|F1 ? Fs1 ? HF1 HF2]; subst. inversion HF2; subst.
    inversion HD as [|? d1 ? ? HD1 HD2]; subst. inversion HD2; subst.
    evar_last; [apply (H1 F1); [|exact HD1] | unfold op_vjp; simpl; rring].
    intros t. specialize (Hres t). simpl in Hres. rewrite (has_num _ (HF1 t)) in Hres.
    injection Hres as <-. reflexivity.
  - destruct tys as [|[] [|[] [|? ?]]]; try discriminate.
    inversion HF as [|F1 ? Fs1 ? HF1 HF2]; subst. inversion HF2 as [|F2 ? Fs2 ? HF3 HF4]; subst. inversion HF4; subst.
    inversion HD as [|? d1 ? ? HD1 HD2]; subst. inversion HD2 as [|? d2 ? ? HD3 HD4]; subst. inversion HD4; subst.
    evar_last; [apply (H1 F1); [|exact HD1] | unfold op_vjp; simpl; rring].
    intros t. specialize (Hres t). simpl in Hres. rewrite (has_shp _ (HF3 t)), (has_num _ (HF1 t)) in Hres.
    injection Hres as <-. reflexivity.
  - (* AddN *)
    assert (Hall : List.Forall (fun F => forall t, has_ty (F t) TNum) Fs).
    { destruct tys as [|ty tys]; [discriminate|]. unfold op_ty in Hty.
      destruct (forallb _ (ty :: tys)) eqn:E; [|discriminate]. rewrite forallb_forall in E.
      clear - HF E. induction HF as [|F t' Fs ts HF' _ IH]; constructor.
      - intros t. specialize (HF' t). specialize (E t' (or_introl eq_refl)). destruct t'; try discriminate. auto.
      - apply IH. intros z Hz. apply E. right; auto. }
    apply is_derive_ext with (f := fun t => fold_right Rplus 0 (map (fun F => F t) (map (fun F t => num (F t)) Fs))).
    { intros t. specialize (Hres t). simpl in Hres. rewrite nums_num in Hres.
      - destruct Fs as [|F Fs']; [discriminate|]. simpl in Hres. injection Hres as <-. simpl.
        rewrite Rsum_shift, !map_map. reflexivity.
      - rewrite Forall_map. eapply Forall_impl; [|exact Hall]. simpl. auto. }
    assert (HD' : Forall2 (fun F (d : R) => is_derive F t0 d) (map (fun F t => num (F t)) Fs) ds).
    { clear - HD. induction HD; simpl; constructor; auto. }
    evar_last; [apply (derive_sum _ _ _ HD')|].
    + rewrite <- (wsum_one ds 0). apply wsum_ext. intros i Hi. unfold op_vjp. cbn [rule]. rewrite map_length.
      assert (Hlen : length ds = length Fs) by (clear - HD; induction HD; simpl; auto).
      rewrite nth_error_repeat by exact (eq_ind _ (fun k => (i < k)%nat) (proj2 Hi) _ Hlen). reflexivity.
  - destruct Hdom.
  - destruct tys as [|[] [|? ?]]; try discriminate.
    inversion HF as [|F1 ? Fs1 ? HF1 HF2]; subst. inversion HF2; subst.
    inversion HD as [|? d1 ? ? HD1 HD2]; subst. inversion HD2; subst.
    simpl in Hdom.
    assert (E : forall t, num (res t) = un u (num (F1 t))).
    { intros t. specialize (Hres t). simpl in Hres. rewrite (has_num _ (HF1 t)) in Hres. injection Hres as <-. reflexivity. }
    apply is_derive_ext with (f := fun t => un u (num (F1 t))); [intros; symmetry; auto|].
    destruct (un_rule_correct u (num (F1 t0)) Hdom) as (d & Hd & Hr).
    evar_last; [apply (is_derive_comp (un u) (fun t => num (F1 t))); eauto|].
    unfold scal; simpl; unfold mult; simpl. rewrite E. unfold op_vjp. simpl.
    specialize (Hr 1). unfold rule_value in Hr. destruct (un_rule u); rewrite ?Hr; [rring|]. rewrite <- (Rmult_1_l d), <- Hr. rring.
  - destruct tys as [|[] [|[] [|? ?]]]; try discriminate.
    inversion HF as [|F1 ? Fs1 ? HF1 HF2]; subst. inversion HF2 as [|F2 ? Fs2 ? HF3 HF4]; subst. inversion HF4; subst.
    inversion HD as [|? d1 ? ? HD1 HD2]; subst. inversion HD2 as [|? d2 ? ? HD3 HD4]; subst. inversion HD4; subst.
    assert (E : forall t, num (res t) = bin b (num (F1 t)) (num (F2 t))).
    { intros t. specialize (Hres t). simpl in Hres. rewrite (has_num _ (HF1 t)), (has_num _ (HF3 t)) in Hres.
      injection Hres as <-. reflexivity. }
    apply is_derive_ext with (f := fun t => bin b (num (F1 t)) (num (F2 t))); [intros; symmetry; auto|].
    evar_last; [apply (bin_rule_correct b (fun t => num (F1 t)) (fun t => num (F2 t))); eauto|].
    simpl. rewrite E. cbv beta. rring.
Qed.
