(** Array graphs: a tensor moves with its inputs as its rule says. *)
From Coq Require Import String List Arith ZArith Bool Lia Reals Lra Relations Classical_Prop.
From Coquelicot Require Import Coquelicot.
Import ListNotations.
From Verif Require Import Graph_Model Eval_Model Eval_Spec Eval_Proofs Graph_Proofs Grad_Model Grad_Spec
  Scalar_Model Scalar_Spec Scalar_Rules Scalar_Proofs.
From Verif Require Import Array_Model Array_Proofs Array_Sum Arith_Model Arith_Proofs Vjp_Spec Vjp_Proofs
  Tens_Model Tens_Spec Tens_Fwd Tens_Fwd4 Tens_Build Tens_Rules Tens_Rules2 Tens_Rules5 Tens_Rules8 Tens_Ops Tens_Lax Tens_Grad.
From Verif Require Pool_Spec.
Local Set Bullet Behavior "Strict Subproofs".
Local Open Scope R_scope.

Lemma Forall2_single {X Y} (P : X -> Y -> Prop) x ys : Forall2 P [x] ys -> exists y, ys = [y] /\ P x y.
Proof. intros H. inversion H as [|? y ? ? A B]; subst. inversion B; subst. exists y. auto. Qed.

Section Settle.
  Variable lax : bool.
  Variable ls : nat -> list nat.
  Variable g : tgraph.
  Variable rho : nat -> arr R.
  Hypothesis C : conform ls rho.
  (** The leaves move along [B]. *)
  Variable B : R -> nat -> arr R.
  Hypothesis CB : forall t, conform ls (B t).
  Hypothesis B0 : B 0 = rho.

  Lemma relu_value r a m inc' sh : conform ls r -> nth_error g a = Some m -> n_op m = TUn ReLU -> n_inputs m = [inc'] -> typed ls g a (TyA sh) ->
    (in_id inc' < a)%nat /\ typed ls g (in_id inc') (TyA sh) /\
    forall j, in_bounds sh j -> rget (aval r g a) j = Rmax (rget (aval r g (in_id inc')) j) 0.
  Proof.
    intros Cr Hm Ho Hi Hty. destruct (typed_inputs ls g a m _ Hm Hty) as [[Q _]|(Hl & ts & HT & Hop)]; [congruence|].
    rewrite Hi in HT. destruct (Forall2_single _ _ _ HT) as (ty' & -> & _ & Hlt & Hin). rewrite Ho in Hop.
    destruct ty' as [sh'|l']; [|discriminate]. simpl in Hop. injection Hop as ->.
    rewrite <- Hi in HT. split; [exact Hlt|]. split; [exact Hin|].
    assert (Hop : op_ty (n_op m) [TyA sh] = Some (TyA sh)) by (rewrite Ho; reflexivity).
    destruct (tval_eq ls r g a m [TyA sh] (TyA sh) Cr Hm Hl HT Hop Hty) as [V E].
    rewrite in_vals_tval, Hi in E, V. cbn [map] in E, V. rewrite (tval_aval ls r g _ sh Cr Hin), (tval_aval ls r g a sh Cr Hty), Ho in E.
    rewrite (tval_aval ls r g _ sh Cr Hin) in V. destruct (Forall2_single _ _ _ V) as (ty2 & Q2 & HA). injection Q2 as <-. cbn [has_ty] in HA.
    cbn [tcompute] in E. rewrite (amap_tab _ sh) in E by exact HA.
    assert (E2 : aval r g a = tab sh (fun i => un ReLU (rget (aval r g (in_id inc')) i))) by congruence.
    intros j Hj. rewrite E2, aget_tab by exact Hj. reflexivity.
  Qed.

  Theorem node_diff i n sh ts K d : nth_error g i = Some n -> typed ls g i (TyA sh) -> n_op n <> TLeaf ->
    Forall2 (fun inc ty => in_sel inc = 0%nat /\ (in_id inc < i)%nat /\ typed ls g (in_id inc) ty) (n_inputs n) ts ->
    op_ty (n_op n) ts = Some (TyA sh) -> op_use lax (n_op n) ts = true ->
    usable lax (n_op n) ts (in_vals rho g n) sh (aval rho g i) K -> t_dom_at rho g n ->
    (forall p j, frozen (n_op n) p = true -> d p j = 0) ->
    (forall p inc shp j, nth_error (n_inputs n) p = Some inc -> nth_error ts p = Some (TyA shp) -> in_bounds shp j ->
       is_derive (fun t : R => rget (aval (B t) g (in_id inc)) j) 0 (d p j)) ->
    (forall a shp j, (a < i)%nat -> depends g i a -> typed ls g a (TyA shp) -> in_bounds shp j ->
       exists v, is_derive (fun t : R => rget (aval (B t) g a) j) 0 v) ->
    forall k, in_bounds sh k -> is_derive (fun t : R => rget (aval (B t) g i) k) 0 (spread ts K k d).
  Proof.
    intros Hn Hty Ho HT Hop Hf HK Hdom Hfz HD HA k Hk.
    pose (Fs := map (fun inc (t : R) => tval (B t) g (in_id inc)) (n_inputs n)).
    assert (HFs : forall t, map (fun F : R -> tv => F t) Fs = in_vals (B t) g n).
    { intros t. unfold Fs. rewrite map_map, in_vals_tval. reflexivity. }
    assert (HRun : forall t, Forall2 has_ty (in_vals (B t) g n) ts /\ run (n_op n) (in_vals (B t) g n) = aval (B t) g i).
    { intros t. destruct (tval_eq ls (B t) g i n ts _ (CB t) Hn Ho HT Hop Hty) as [A E]. split; auto.
      unfold run. rewrite E, (tval_aval ls _ g i sh (CB t) Hty). reflexivity. }
    assert (HC : curve ts Fs d).
    { split.
      - intros t. rewrite HFs. apply HRun.
      - intros p F shp j HF Hs Hj. unfold Fs in HF. rewrite nth_error_map in HF.
        destruct (nth_error (n_inputs n) p) as [inc|] eqn:Hp; [|discriminate]. injection HF as <-.
        destruct (Forall2_nth _ _ _ _ _ HT Hp) as (ty & Hty' & _ & _ & Hit). assert (ty = TyA shp) by congruence. subst ty.
        apply (is_derive_fext (fun t : R => rget (aval (B t) g (in_id inc)) j)); [|apply (HD p inc shp); auto].
        intros t. rewrite (tval_aval ls _ g _ shp (CB t) Hit). reflexivity. }
    apply (is_derive_fext (fun t : R => rget (run (n_op n) (map (fun F : R -> tv => F t) Fs)) k)).
    { intros t. rewrite HFs. destruct (HRun t) as [_ ->]. reflexivity. }
    destruct Hdom as [Hdom|(lowest & bits & checked & pd & s & size & inc & m & inc' & E1 & E2 & E3 & E4 & E5 & E6 & E7)].
    { apply (us_diff _ _ _ _ _ _ _ HK Hdom Fs d); auto. rewrite HFs, B0. reflexivity. }
    (* pooling after relu *)
    rewrite E1 in *. rewrite E2 in HT. destruct (Forall2_single _ _ _ HT) as (ty & -> & _ & Hlt & Hin).
    cbn [op_ty] in Hop. destruct ty as [sx|]; [|discriminate]. destruct (pool_ty pd s size sx) as [sy|] eqn:EP; [|discriminate].
    cbn [otyA option_map] in Hop. injection Hop as ->. assert (Hf' : op_fit (TPool lowest bits checked pd s size) [TyA sx] = true) by (destruct lax; exact Hf). clear Hf. cbn [op_fit] in Hf'.
    pose proof EP as EP'. apply pool_ty_ok in EP'. destruct EP' as (b & ch & xh & xw & yh & yw & -> & Ex & Ey & S & _).
    assert (VR : forall r, conform ls r -> has_shape sx (aval r g (in_id inc)) /\ in_vals r g n = [TA (aval r g (in_id inc))]).
    { intros r Cr. destruct (tval_typed ls r g _ _ Cr Hin) as [_ Q]. rewrite (tval_aval ls r g _ sx Cr Hin) in Q. split; [exact Q|].
      rewrite in_vals_tval, E2. cbn [map]. rewrite (tval_aval ls r g _ sx Cr Hin). reflexivity. }
    destruct (VR rho C) as [Hx0 EV]. rewrite EV in HK. set (x := aval rho g (in_id inc)) in *.
    destruct (relu_value rho (in_id inc) m inc' sx C E3 E4 E5 Hin) as (L' & Tu & R0).
    assert (Hu : a_shape (aval rho g (in_id inc')) = sx).
    { destruct (tval_typed ls rho g _ _ C Tu) as [_ Q]. rewrite (tval_aval ls rho g _ sx C Tu) in Q. exact (proj1 Q). }
    assert (Hdep : depends g i (in_id inc')).
    { apply rt_trans with (in_id inc); apply rt_step.
      - exists n, inc. rewrite E2. repeat split; auto. left. reflexivity.
      - exists m, inc'. rewrite E5. repeat split; auto. left. reflexivity. }
    set (u := aval rho g (in_id inc')) in *. cbv zeta in E7. rewrite Hu in E7. rewrite Ex in E7. specialize (E7 b ch xh xw yh yw eq_refl).
    rewrite Ex, Ey in EP. specialize (E7 EP). subst sx sh.
    eapply is_derive_eq.
    - apply (is_derive_fext (fun t : R => fst (win lowest checked ch xh xw s size (aval (B t) g (in_id inc)) k))).
      + intros t. destruct (VR (B t) (CB t)) as [Hxt EVt]. rewrite HFs, EVt. unfold run.
        rewrite (pool_value lowest bits checked s size b ch xh xw yh yw _ S Hxt). cbn [arr_of]. rewrite aget_tab by exact Hk. reflexivity.
      + apply (pool_moves lowest checked b ch xh xw s size yh yw S x (fun j => rget u j < 0) (fun t => aval (B t) g (in_id inc)) (d 0%nat)); auto.
        * apply (all_above lowest b ch xh xw); auto. intros j Hj. rewrite R0 by exact Hj. pose proof (Rmax_r (rget u j) 0). lra.
        * intros i0 i1 i2 i3 A0 A1 A2 A3. destruct (E7 i0 i1 i2 i3 A0 A1 A2 A3) as [(h & w & IW & PO & UQ)|NG]; [left|right; exact NG].
          assert (WB : forall h' w', Pool_Spec.in_window xh xw 0 s size i2 i3 h' w' -> in_bounds [b; ch; xh; xw] [i0; i1; h'; w']).
          { intros h' w' (? & ? & _). repeat constructor; auto. }
          exists h, w. split; [exact IW|]. intros h' w' IW' NE. rewrite !R0 by (apply WB; assumption).
          specialize (UQ h' w' IW' NE). rewrite (Rmax_left (rget u [i0; i1; h; w])) by lra. apply Rmax_lub_lt; assumption.
        * intros t. apply (VR (B t) (CB t)).
        * rewrite B0. reflexivity.
        * intros j Hj. apply (HD 0%nat inc [b; ch; xh; xw]); auto. rewrite E2. reflexivity.
        * intros j Hj NG. destruct (HA (in_id inc') _ j ltac:(lia) Hdep Tu Hj) as (v & Dv).
          eapply filter_imp; [|apply (derive_locally_pos (fun t : R => (-1) * rget (aval (B t) g (in_id inc')) j) ((-1) * v))].
          -- intros t Ht. destruct (relu_value (B t) (in_id inc) m inc' _ (CB t) E3 E4 E5 Hin) as (_ & _ & Rt).
             rewrite Rt, R0 by exact Hj. rewrite !Rmax_right by lra. reflexivity.
          -- apply is_derive_cmul. exact Dv.
          -- rewrite B0. fold u. lra.
    - unfold spread. cbn [length seq]. rewrite rsum_cons. cbn [nth_error]. unfold sumf at 3. simpl fold_right. rewrite Rplus_0_r.
      apply rsum_idx_ext. intros j Hj. f_equal. symmetry.
      assert (HK' : forall rs p' e, trule (TPool lowest bits checked 0 s size) 1 = Some rs -> nth_error rs p' = Some (Some e) ->
        exists shp, nth_error [TyA [b; ch; xh; xw]] p' = Some (TyA shp) /\
          forall gy, has_shape [b; ch; yh; yw] gy -> eeval [TA x] (TA (aval rho g i)) (TA gy) [] e = Some (TA (applied shp [b; ch; yh; yw] (K p') gy))).
      { intros rs p' e A1 A2. destruct (us_rule _ _ _ _ _ _ _ HK rs p' e A1 A2) as (shp & B1 & _ & B2). exists shp. auto. }
      apply (pool_kernel lowest bits checked 0 s size [b; ch; xh; xw] [b; ch; yh; yw] x _ K EP Hf' Hx0 HK' b ch xh xw yh yw eq_refl eq_refl k j Hk Hj).
  Qed.
End Settle.
