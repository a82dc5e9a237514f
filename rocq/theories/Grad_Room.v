(** Gradient construction returns while the graph under construction has room for
    the tensors it adds. *)
From Coq Require Import List Arith Bool Lia Permutation Relations.
Import ListNotations.
From Verif Require Import Graph_Model Eval_Model Eval_Spec Eval_Proofs Grad_Model Grad_Spec Grad_Path_Proofs Grad_Proofs Grad_Final.

Section Room.
  Context {O S T M : Type}.
  Variable g : graph O.
  Variables (zero one_val : M) (add : M -> M -> M) (vjp : nat -> nat -> M -> M).
  Variables (good : S -> Prop) (valid : nat -> S -> T -> Prop) (den : S -> T -> M) (ext : S -> S -> Prop).
  Variable passes : nat -> nat -> Prop.
  Variable opgrad : nat -> T -> S -> option (list (option T) * S).
  Variable addn : list T -> S -> option (T * S).
  Variable one : S -> option (T * S).
  Variable zeros_like : nat -> S -> option (T * S).
  Variable pop : list nat -> option (nat * list nat).
  Variable debug : bool.
  Variables ys xs : list nat.

  Hypothesis Hrk : ranked g.
  Hypothesis Hys : forall y, In y ys -> differentiable g y.
  Hypothesis Hnd : NoDup ys.
  Hypothesis Hpop : heap_pop g pop.
  Hypothesis Hden : denotes g zero add vjp good valid den ext passes opgrad addn.
  Hypothesis Hone : builds good valid den ext (fun y => In y ys) one one_val.
  Hypothesis Hzeros : forall x, builds good valid den ext (eq x) (zeros_like x) zero.

  Notation gwd := (grad_with_default g opgrad addn one zeros_like pop debug).
  Notation binv := (BInv g zero add vjp good valid den passes ys).
  Notation pm_ok := (pm_ok g ys xs).

  Variable size : S -> nat.
  Variables A B U Z L : nat.
  Hypothesis Hrt : forall y gy s, good s -> valid y s gy -> differentiable g y ->
    (In y ys \/ (~ leaf g y /\ onpath g xs y /\ exists y0, In y0 ys /\ reaches g y0 y)) -> size s + B <= L ->
    exists gxs s', opgrad y gy s = Some (gxs, s') /\ size s' <= size s + B /\
      (debug = true -> gxs <> [] /\ forall n, nth_error g y = Some n -> length (get_backprop_inputs n) = length gxs).
  Hypothesis Hat : forall x l s, good s -> Forall (valid x s) l -> 2 <= length l -> size s + A <= L ->
    exists t s', addn l s = Some (t, s') /\ size s' <= size s + A.
  Hypothesis Hzt : forall x s, In x xs -> good s -> size s + Z <= L -> exists t s', zeros_like x s = Some (t, s') /\ size s' <= size s + Z.

  Section Loop.
    Variable seeds : list M.
    Variable pm : pathmap.
    Hypothesis Hpm : pm_ok pm.

    Lemma room_gradient x l s : good s -> Forall (valid x s) l -> l <> [] -> size s + A <= L ->
      exists t l' s', gradient addn l s = Some (t, l', s') /\ size s' <= size s + A.
    Proof.
      intros Hg Hv Hn Hl. unfold gradient. destruct l as [|t0 [|t1 l]]; [congruence|exists t0, [t0], s; split; [auto|lia]|].
      destruct (Hat x (t0 :: t1 :: l) s Hg Hv ltac:(simpl; lia) Hl) as (t & s' & E & Hs). rewrite E. eauto 6.
    Qed.

    Lemma room_step st G : binv seeds pm st G -> (gs_heap st <> [] -> size (gs_s st) + A + B <= L) ->
      exists r, back_step g opgrad addn pop debug st = Ok r /\
        match r with Some st' => size (gs_s st') <= size (gs_s st) + A + B /\ length (gs_log st) < length g | None => True end.
    Proof.
      intros HI Hsz. unfold back_step. destruct Hpm as (P1 & P2 & P3 & P4).
      destruct (pop (gs_heap st)) as [[y heap]|] eqn:Hp; [|exists None; auto].
      pose proof (pop_perm _ _ Hpop _ _ _ Hp) as Hperm.
      assert (Hyh : In y (gs_heap st)) by (eapply Permutation_in; [symmetry; exact Hperm | left; auto]).
      assert (Hl : size (gs_s st) + A + B <= L) by (apply Hsz; intros E; rewrite E in Hyh; destruct Hyh).
      destruct (b_heap _ _ _ _ _ _ _ _ _ _ _ _ _ HI y Hyh) as (Hylog & Hyk & Hyd & inf & Hinf & Hgne).
      pose proof Hyd as (n & Hn & Hdiff). rewrite Hn, Hinf.
      destruct (b_acc _ _ _ _ _ _ _ _ _ _ _ _ _ HI y inf Hinf) as (Ey & HEy & Hun & _). specialize (Hun Hylog).
      destruct (Forall2_rep_den zero vjp valid den seeds _ _ _ _ _ Hun) as [_ Hvl].
      destruct (room_gradient y (grads inf) (gs_s st) (b_good _ _ _ _ _ _ _ _ _ _ _ _ _ HI) Hvl Hgne ltac:(lia)) as (gy & l' & s1 & Hg & Hs1).
      rewrite Hg.
      destruct (gradient_spec g zero add vjp good valid den ext passes opgrad addn seeds Hden _ _ _ _ _ _ _ _ (b_good _ _ _ _ _ _ _ _ _ _ _ _ _ HI) Hun Hg) as (HEne & Hg1 & He1 & Hvgy & _).
      assert (Hkind : In y ys \/ (~ leaf g y /\ onpath g xs y /\ exists y0, In y0 ys /\ reaches g y0 y)).
      { destruct (b_log_kind _ _ _ _ _ _ _ _ _ _ _ _ _ HI y (or_introl Hyh)) as [K|[K1 K2]]; [left; exact K|right].
        split; [exact K1|]. split; [apply (P1 y true K2); auto|]. apply P4; [unfold known; congruence|exact Hyd]. }
      destruct (Hrt y gy s1 Hg1 Hvgy Hyd Hkind ltac:(lia)) as (gxs & s2 & Ho & Hs2 & Hdb).
      rewrite Ho.
      assert (Hlog : length (gs_log st) < length g).
      { assert (Hlt : length (y :: gs_log st) <= length (seq 0 (length g))).
        { apply NoDup_incl_length.
          - constructor; [exact Hylog|apply (b_log_nd _ _ _ _ _ _ _ _ _ _ _ _ _ HI)].
          - intros z [<-|Hz]; apply in_seq; split; try lia; simpl.
            + apply nth_error_Some. congruence.
            + exact (b_log_range _ _ _ _ _ _ _ _ _ _ _ _ _ HI z Hz). }
        rewrite seq_length in Hlt. simpl in Hlt. lia. }
      destruct (debug && _) eqn:Hd.
      - exfalso. apply andb_true_iff in Hd. destruct Hd as [Hd1 Hd2]. destruct (Hdb Hd1) as [K1 K2].
        rewrite (K2 n Hn), Nat.eqb_refl in Hd2. simpl in Hd2. destruct gxs; [congruence | discriminate].
      - match goal with |- context [register g ?cs gxs ?m heap] =>
          destruct (register_spec g cs gxs m heap 0) as (m' & new & Hreg & _) end.
        + intros c Hc. destruct (in_edge g _ _ _ Hn Hc) as (p & He). split; [|apply (rk_edge _ Hrk _ _ _ He)].
          pose proof (P3 y p (in_id c) Hyk Hyd He) as Hk. pose proof (b_flag _ _ _ _ _ _ _ _ _ _ _ _ _ HI (in_id c)) as Hf.
          unfold gm_set. destruct (in_id c =? y); [discriminate|]. intros Hcn. rewrite Hcn in Hf. apply Hk. symmetry. exact Hf.
        + rewrite Hreg. eexists. split; [reflexivity|]. cbn [gs_s]. split; [lia|exact Hlog].
    Qed.

    Lemma room_loop L' : L' <= L -> forall fuel st G, binv seeds pm st G ->
      size (gs_s st) + (A + B) * (length g - length (gs_log st)) <= L' -> length g - length (gs_log st) < fuel ->
      exists st', back_loop g opgrad addn pop debug fuel st = Ok st' /\ size (gs_s st') <= L'.
    Proof.
      intros HL. pose proof Hpm as (P1 & P2 & P3 & P4). induction fuel as [|fuel IH]; intros st G HI Hs Hf; [lia|]. cbn [back_loop].
      destruct (room_step st G HI) as ([st1|] & E & R).
      - intros Hh. destruct (gs_heap st) as [|y h] eqn:Eh; [congruence|].
        assert (Hyh : In y (gs_heap st)) by (rewrite Eh; left; auto).
        destruct (b_heap _ _ _ _ _ _ _ _ _ _ _ _ _ HI y Hyh) as (Hylog & _ & (n & Hn & _) & _).
        assert (Hlt : length (y :: gs_log st) <= length (seq 0 (length g))).
        { apply NoDup_incl_length.
          - constructor; [exact Hylog|apply (b_log_nd _ _ _ _ _ _ _ _ _ _ _ _ _ HI)].
          - intros z [<-|Hz]; apply in_seq; split; try lia; simpl.
            + apply nth_error_Some. congruence.
            + exact (b_log_range _ _ _ _ _ _ _ _ _ _ _ _ _ HI z Hz). }
        rewrite seq_length in Hlt. cbn [length] in Hlt. destruct (length g - length (gs_log st)) eqn:E0; [lia|]. nia.
      - rewrite E. destruct R as [R1 R2].
        destruct (step_inv g zero add vjp good valid den ext passes opgrad addn pop debug ys xs seeds pm Hrk Hpop Hden P1 P3 _ _ _ HI E) as (G1 & HI1 & y & Hlg).
        apply (IH st1 G1 HI1).
        + rewrite Hlg. simpl. replace (length g - length (gs_log st)) with (Datatypes.S (length g - Datatypes.S (length (gs_log st)))) in Hs by lia. nia.
        + rewrite Hlg. simpl. lia.
      - rewrite E. exists st. split; [reflexivity|]. nia.
    Qed.

    Lemma room_extract st G : binv seeds pm st G -> gs_heap st = [] ->
      (forall x, In x xs -> onpath g xs x -> (exists y, In y ys /\ reaches g y x) -> live g passes ys x) ->
      forall xs' m s, NoDup xs' -> (forall x, In x xs' -> In x xs /\ accum_once g ys x /\ m x = gs_map st x) ->
        ext (gs_s st) s -> good s -> size s + (A + Z) * length xs' <= L ->
        exists l s', extract_all addn zeros_like xs' m s = Some (l, s').
    Proof.
      intros HI Hemp Hlive. pose proof Hpm as (P1 & P2 & P3 & P4). induction xs' as [|x xs' IH]; intros m s Hn Hx He Hg Hsz; [simpl; eauto|].
      inv Hn. destruct (Hx x (or_introl eq_refl)) as (Hin & Hacc & Hmx). cbn [length] in Hsz.
      pose proof (b_flag _ _ _ _ _ _ _ _ _ _ _ _ _ HI x) as Hflag. cbn [extract_all].
      destruct (gs_map st x) as [inf|] eqn:Hinf; [destruct (on_path inf) eqn:Hop|].
      - simpl in Hflag. rewrite Hop in Hflag.
        assert (Ho : onpath g xs x) by (apply (P1 x true); auto).
        assert (Hl : live g passes ys x).
        { apply Hlive; auto. apply P4; [unfold known; congruence|apply Ho]. }
        destruct (b_acc _ _ _ _ _ _ _ _ _ _ _ _ _ HI x inf Hinf) as (E & HE).
        apply (accounts_ext g zero add vjp good valid den ext passes opgrad addn ys Hden seeds _ _ s) in HE; auto. destruct HE as ((HEn & HE1 & HE2) & Hun & Hpr).
        assert (HEne : E <> []).
        { intros ->. destruct Hl as (y0 & es & Hy0 & Hp). destruct es as [|e es].
          - inv Hp. destruct (In_nth_error _ _ Hy0) as (k & Hk). apply (proj2 (HE1 k)) in Hk. destruct Hk.
          - destruct (path_last g _ _ _ _ Hp ltac:(discriminate)) as (es0 & w & p & _ & Hp0 & Hedge & Hps & Hd).
            assert (Hw : In w (gs_log st)).
            { apply (consumers_done g zero add vjp good valid den passes ys xs seeds pm Hrk Hys P1 P2 P3 st G HI Hemp x Ho w p); eauto. }
            apply (proj2 (HE2 w p)). auto. }
        assert (Hok : grads inf <> [] /\ Forall (valid x s) (grads inf)).
        { destruct (in_dec Nat.eq_dec x (gs_log st)) as [Hxl|Hxl].
          - destruct (Hpr Hxl) as (_ & _ & t & ts & -> & Hv & _ & Hts). split; [discriminate|].
            constructor; auto. apply (Forall2_rep_den zero vjp valid den seeds _ _ _ _ _ Hts).
          - specialize (Hun Hxl). split; [intros H; apply (Forall2_nil_iff _ _ _ Hun) in H; contradiction|].
            apply (Forall2_rep_den zero vjp valid den seeds _ _ _ _ _ Hun). }
        destruct Hok as [Hok1 Hok2].
        destruct (room_gradient x (grads inf) s Hg Hok2 Hok1 ltac:(nia)) as (t & l' & s1 & Egr & Hs1).
        assert (Hex : extract_grad addn m x s = Some (Some t, gm_set m x (Info (on_path inf) l'), s1)).
        { unfold extract_grad. rewrite Hmx, Hop, Egr. reflexivity. }
        assert (Hmx' : m x = gs_map st x) by congruence.
        destruct (extract_correct g zero add vjp good valid den ext passes opgrad addn ys xs Hrk Hys Hnd Hden seeds pm st G x m s _ _ _ Hpm HI Hemp Hacc He Hg Hmx' Ho Hex) as (Hg1 & He1 & Hv & Hsum & Hoth).
        rewrite Hex. destruct (IH (gm_set m x (Info (on_path inf) l')) s1) as (l & s' & Hl'); auto.
        { intros z Hz. destruct (Hx z (or_intror Hz)) as (K1 & K2 & K3). split; auto. split; auto.
          rewrite Hoth; auto. intros ->. contradiction. }
        { eapply (ext_trans _ _ _ _ _ _ _ _ _ _ _ Hden); eauto. }
        { nia. }
        rewrite Hl'. eauto.
      - assert (Hex : extract_grad addn m x s = Some (None, m, s)) by (unfold extract_grad; rewrite Hmx, Hop; reflexivity).
        rewrite Hex. destruct (Hzt x s Hin Hg ltac:(nia)) as (t & s2 & Hz & Hs2). rewrite Hz.
        destruct (Hzeros x _ _ _ Hg Hz) as (Hg1 & He1 & _).
        destruct (IH m s2) as (l & s' & Hl); auto.
        { intros z Hz'. apply Hx. right; auto. }
        { eapply (ext_trans _ _ _ _ _ _ _ _ _ _ _ Hden); eauto. }
        { nia. }
        rewrite Hl. eauto.
      - assert (Hex : extract_grad addn m x s = Some (None, m, s)) by (unfold extract_grad; rewrite Hmx; reflexivity).
        rewrite Hex. destruct (Hzt x s Hin Hg ltac:(nia)) as (t & s2 & Hz & Hs2). rewrite Hz.
        destruct (Hzeros x _ _ _ Hg Hz) as (Hg1 & He1 & _).
        destruct (IH m s2) as (l & s' & Hl); auto.
        { intros z Hz'. apply Hx. right; auto. }
        { eapply (ext_trans _ _ _ _ _ _ _ _ _ _ _ Hden); eauto. }
        { nia. }
        rewrite Hl. eauto.
    Qed.
  End Loop.

  Theorem grad_returns fuel gys s seeds :
    ys <> [] -> good s -> seed_values valid den one_val ys gys s seeds -> enough_fuel g ys fuel ->
    NoDup xs -> (forall x, In x xs -> accum_once g ys x) ->
    (forall x, In x xs -> onpath g xs x -> (exists y, In y ys /\ reaches g y x) -> live g passes ys x) ->
    size s + U + (A + B) * length g + (A + Z) * length xs <= L ->
    (gys = None -> exists t s', one s = Some (t, s') /\ size s' <= size s + U) ->
    exists l s' log, gwd fuel ys xs gys s = Ok (l, s', log).
  Proof.
    intros Hne Hg Hs [Hf1 Hf2] Hnx Hacc Hlive Hsz Hot. unfold grad_with_default, compute_gradients.
    assert (Hno : no_outputs ys = false) by (destruct ys; [congruence|reflexivity]). rewrite Hno.
    destruct (init_path_map_spec g ys xs Hrk Hys fuel Hf1) as (pm & Hpm & Hok). rewrite Hpm.
    pose proof Hok as (P1 & P2 & P3 & P4).
    assert (Hstart : forall s1 l1, good s1 -> size s1 <= size s + U -> seeded zero valid den ys seeds s1 l1 ->
      exists m, push_seeds ys l1 (gm_init pm) = Some m /\ exists st l s',
        back_loop g opgrad addn pop debug fuel (GState m ys s1 []) = Ok st /\
        extract_all addn zeros_like xs (gs_map st) (gs_s st) = Some (l, s')).
    { intros s1 l1 Hg1 Hsz1 Hsd.
      destruct (init_inv g zero add vjp good valid den passes ys seeds pm Hys Hnd P2 s1 l1 Hg1 Hsd) as (m & Hp & HI).
      exists m. split; auto.
      destruct (room_loop seeds pm Hok (size s + U + (A + B) * length g) ltac:(nia) fuel _ _ HI) as (st & Hb & Hst).
      { cbn [gs_s gs_log length]. rewrite Nat.sub_0_r. lia. }
      { cbn [gs_log length]. lia. }
      destruct (loop_inv g zero add vjp good valid den ext passes opgrad addn pop debug ys xs seeds pm
                  Hrk Hpop Hden P1 P3 _ _ _ _ HI Hb) as (G' & HI' & Hemp).
      destruct (room_extract seeds pm Hok st G' HI' Hemp Hlive xs (gs_map st) (gs_s st)) as (l & s' & He); auto.
      { apply (ext_refl _ _ _ _ _ _ _ _ _ _ _ Hden). }
      { apply (b_good _ _ _ _ _ _ _ _ _ _ _ _ _ HI'). }
      { lia. }
      eauto. }
    destruct gys as [l|]; cbn [seed_values] in Hs.
    - destruct Hs as (Hv & Hsd). pose proof (Forall2_lengths _ _ _ Hv) as Hl. rewrite Hl, Nat.eqb_refl.
      destruct (Hstart s l) as (m & Hp & st & l2 & s2 & Hb & He); auto; [lia| |].
      { split; auto. split; [subst; rewrite map_length; auto|]. intros k y t Hy Hk. split.
        + exact (Forall2_both _ _ _ _ _ _ Hv Hy Hk).
        + subst seeds. symmetry. apply nth_error_nth. rewrite nth_error_map, Hk. reflexivity. }
      rewrite Hp, Hb, He. eauto.
    - destruct (Hot eq_refl) as (t & s1 & Ho & Hs1). rewrite Ho.
      destruct (Hone _ _ _ Hg Ho) as (Hg1 & _ & Hv & Hd).
      destruct (Hstart s1 (map (fun _ => t) ys)) as (m & Hp & st & l2 & s2 & Hb & He); auto.
      { split; [apply map_length|]. split; [subst; apply map_length|]. intros k y t' Hy Hk.
        rewrite nth_error_map, Hy in Hk. simpl in Hk. inv Hk.
        split; [apply Hv; eapply nth_error_In; eauto|]. symmetry. apply nth_error_nth. rewrite nth_error_map, Hy. reflexivity. }
      rewrite Hp, Hb, He. eauto.
  Qed.
End Room.
