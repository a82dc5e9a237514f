(** Gradients extracted after accumulation: the statements behind the gradient
    properties. *)
From Coq Require Import String List Arith ZArith Bool Permutation Lia.
Import ListNotations.
From Verif Require Import Graph_Model Eval_Model Eval_Proofs Grad_Model Grad_Spec Grad_Path_Proofs Grad_Proofs.

Lemma Forall2_both {A B} (P : A -> B -> Prop) l k i a b :
  Forall2 P l k -> nth_error l i = Some a -> nth_error k i = Some b -> P a b.
Proof.
  intros H. revert i. induction H as [|x y l k Hxy H IH]; intros [|i] Ha Hb; simpl in *; try discriminate; eauto.
  inv Ha. inv Hb. auto.
Qed.

Lemma Forall2_lengths {A B} (P : A -> B -> Prop) l k : Forall2 P l k -> length l = length k.
Proof. intros H. induction H; simpl; auto. Qed.

Section Final.
  Context {O S T M : Type}.
  Variable g : graph O.
  Variables (zero one_val : M) (add : M -> M -> M) (vjp : nat -> nat -> M -> M).
  Variables (good : S -> Prop) (valid : nat -> S -> T -> Prop) (den : S -> T -> M) (ext : S -> S -> Prop).
  Variable passes : nat -> nat -> Prop.
  Variable opgrad : nat -> T -> S -> option (list (option T) * S).
  Variable addn : list T -> S -> option (T * S).
  Variable one : S -> option (T * S).
  Variable zeros_like : nat -> S -> option (T * S).
  Variable pop : list nat -> option (nat * list nat).
  Variable debug : bool.
  Variables ys xs : list nat.

  Hypothesis Hrk : ranked g.
  Hypothesis Hys : forall y, In y ys -> differentiable g y.
  Hypothesis Hnd : NoDup ys.
  Hypothesis Hpop : heap_pop g pop.
  Hypothesis Hden : denotes g zero add vjp good valid den ext passes opgrad addn.
  Hypothesis Hone : builds good valid den ext (fun y => In y ys) one one_val.
  Hypothesis Hzeros : forall x, builds good valid den ext (eq x) (zeros_like x) zero.

  Notation path_sum := (is_path_sum g zero add vjp passes ys).
  Notation compute := (compute_gradients g opgrad addn one pop debug).
  Notation gwd := (grad_with_default g opgrad addn one zeros_like pop debug).
  Notation binv := (BInv g zero add vjp good valid den passes ys).

  (** Everything known about the path map. *)
  Definition pm_ok (pm : pathmap) : Prop :=
    (forall z b, pm z = Some b -> (b = true <-> onpath g xs z)) /\
    (forall y, In y ys -> known pm y) /\
    (forall z p c, known pm z -> differentiable g z -> edge g z p c -> known pm c) /\
    (forall z, known pm z -> differentiable g z -> exists y, In y ys /\ reaches g y z).

  Lemma init_ok fuel pm : init_path_map g fuel ys xs = Ok pm -> pm_ok pm.
  Proof.
    intros H. set (fuel' := Nat.max fuel (2 * (length ys + backprop_edges g) + 1)).
    destruct (init_path_map_spec g ys xs Hrk Hys fuel') as (pm' & H' & Hok); [unfold fuel'; lia|].
    unfold init_path_map in *. rewrite (path_loop_mono _ _ _ fuel' _ _ _ H) in H' by (unfold fuel'; lia). inv H'.
    exact Hok.
  Qed.

  (** What the accumulation amounts to. *)
  Lemma compute_inv fuel gys s seeds st : good s -> seed_values valid den one_val ys gys s seeds ->
    compute fuel ys xs gys s = Ok st ->
    exists pm G, pm_ok pm /\ binv seeds pm st G /\ gs_heap st = [].
  Proof.
    intros Hg Hseed. unfold compute_gradients.
    destruct (init_path_map g fuel ys xs) as [pm| |] eqn:Hinit; try discriminate.
    pose proof (init_ok _ _ Hinit) as Hpm. destruct Hpm as (P1 & P2 & P3 & P4).
    destruct gys as [l|]; cbn [seed_values] in Hseed.
    - destruct Hseed as (Hv & Hs). pose proof (Forall2_lengths _ _ _ Hv) as Hl. rewrite Hl, Nat.eqb_refl.
      destruct (init_inv g zero add vjp good valid den passes ys seeds pm Hys Hnd P2 s l Hg) as (m & Hp & HI).
      { split; auto. split; [subst; rewrite map_length; auto|]. intros k y t Hy Hk. split.
        - exact (Forall2_both _ _ _ _ _ _ Hv Hy Hk).
        - subst seeds. symmetry. apply nth_error_nth. rewrite nth_error_map, Hk. reflexivity. }
      rewrite Hp. intros H.
      destruct (loop_inv g zero add vjp good valid den ext passes opgrad addn pop debug ys xs seeds pm
                  Hrk Hpop Hden P1 P3 _ _ _ _ HI H) as (G' & HI' & He).
      exists pm, G'. split; [split; auto|]. auto.
    - destruct (one s) as [[t s1]|] eqn:Ho; [|discriminate].
      destruct (Hone _ _ _ Hg Ho) as (Hg1 & _ & Hv & Hd).
      destruct (init_inv g zero add vjp good valid den passes ys seeds pm Hys Hnd P2 s1 (map (fun _ => t) ys) Hg1) as (m & Hp & HI).
      { split; [apply map_length|]. split; [subst; apply map_length|]. intros k y t' Hy Hk.
        rewrite nth_error_map, Hy in Hk. simpl in Hk. inv Hk.
        split; [apply Hv; eapply nth_error_In; eauto|]. symmetry. apply nth_error_nth. rewrite nth_error_map, Hy. reflexivity. }
      rewrite Hp. intros H.
      destruct (loop_inv g zero add vjp good valid den ext passes opgrad addn pop debug ys xs seeds pm
                  Hrk Hpop Hden P1 P3 _ _ _ _ HI H) as (G' & HI' & He).
      exists pm, G'. split; [split; auto|]. auto.
  Qed.

  Lemma accounts_ext seeds log s s' G z inf E : ext s s' ->
    accounts g zero add vjp valid den passes ys seeds log s G z inf E ->
    accounts g zero add vjp valid den passes ys seeds log s' G z inf E.
  Proof.
    intros He (A & B & C). split; auto. split.
    - intros H. eapply Forall2_impl'; [|exact (B H)]. intros a b _ Hr.
      eapply (rep_ext g zero add vjp good valid den ext passes opgrad addn seeds Hden); eauto.
    - intros H. destruct (C H) as (C1 & C2 & t & ts & C3 & C4 & C5 & C6). split; auto. split; auto.
      destruct (ext_valid _ _ _ _ _ _ _ _ _ _ _ Hden _ _ _ t He C4) as [V D].
      exists t, ts. split; auto. split; auto. split; [congruence|].
      eapply Forall2_impl'; [|exact C6]. intros a b _ Hr.
      eapply (rep_ext g zero add vjp good valid den ext passes opgrad addn seeds Hden); eauto.
  Qed.

  (** The accumulation for [x] is read off correctly. *)
  Notation accum_once := (accum_once g ys).

  Lemma single_contrib log flag x E : single_use g ys x -> contribs g passes ys log flag x E -> length E <= 1.
  Proof.
    intros [H1 H2] (N & A & B).
    assert (Heq : forall e e', In e E -> In e' E -> e = e').
    { intros [k|[y p]] [k'|[y' p']] He He'.
      - f_equal. apply A in He. apply A in He'. apply (proj1 (NoDup_nth_error ys) Hnd); [apply nth_error_Some; congruence | congruence].
      - exfalso. apply A in He. apply B in He'. destruct He' as (_ & He' & _). apply (H2 (nth_error_In _ _ He) y' p' He').
      - exfalso. apply A in He'. apply B in He. destruct He as (_ & He & _). apply (H2 (nth_error_In _ _ He') y p He).
      - apply B in He. apply B in He'. destruct He as (_ & He & _), He' as (_ & He' & _).
        destruct (H1 _ _ _ _ He He') as [-> ->]. auto. }
    destruct E as [|e [|e' E]]; simpl; try lia. exfalso. inv N. apply H3. left.
    apply Heq; [right; left; auto | left; auto].
  Qed.

  Lemma extract_correct seeds pm st G x m s t m' s' :
    pm_ok pm -> binv seeds pm st G -> gs_heap st = [] ->
    accum_once x -> ext (gs_s st) s -> good s -> m x = gs_map st x -> onpath g xs x ->
    extract_grad addn m x s = Some (Some t, m', s') ->
    good s' /\ ext s s' /\ valid x s' t /\ path_sum seeds x (den s' t) /\ (forall z, z <> x -> m' z = m z).
  Proof.
    intros (P1 & P2 & P3 & P4) HI Hemp Hacc He Hg Hm Ho. unfold extract_grad. rewrite Hm.
    destruct (gs_map st x) as [inf|] eqn:Hinf; [|discriminate].
    destruct (on_path inf) eqn:Hop; [|discriminate].
    destruct (gradient addn (grads inf) s) as [[[t' l'] s2]|] eqn:Hgr; [|discriminate].
    intros H; inv H.
    destruct (final_sum g zero add vjp good valid den ext passes opgrad addn ys xs seeds pm Hrk Hys Hden P1 P2 P3
                st G HI Hemp x inf Ho Hinf) as (E & HE & Hsum).
    apply (accounts_ext _ _ _ s) in HE; auto. destruct HE as (HE & Hun & Hpr).
    assert (Hother : forall z, z <> x -> gm_set m x (Info true l') z = m z).
    { intros z Hz. unfold gm_set. apply Nat.eqb_neq in Hz. rewrite Hz. auto. }
    destruct (in_dec Nat.eq_dec x (gs_log st)) as [Hx|Hx].
    - destruct (Hpr Hx) as (HEne & HG & t0 & ts & Hgs & Hv & Hd & Hts).
      assert (Hlen : length E <= 1).
      { destruct Hacc as [[Hl Hny]|Hs]; [|eapply single_contrib; eauto].
        exfalso. destruct (b_log_kind _ _ _ _ _ _ _ _ _ _ _ _ _ HI x (or_intror Hx)) as [H|[H _]]; contradiction. }
      assert (Htl : tl E = []) by (destruct E as [|? [|? ?]]; simpl in *; auto; lia).
      rewrite Htl in Hts. inversion Hts; subst ts. rewrite Hgs in Hgr. simpl in Hgr. inv Hgr.
      split; auto. split; [apply (ext_refl _ _ _ _ _ _ _ _ _ _ _ Hden)|]. split; auto. split; auto.
      rewrite Hd, HG. exact Hsum.
    - destruct (gradient_spec g zero add vjp good valid den ext passes opgrad addn seeds Hden _ _ _ _ _ _ _ _ Hg (Hun Hx) Hgr)
        as (_ & Hg' & He' & Hv & Hd & _).
      split; auto. split; auto. split; auto. split; auto. rewrite Hd. exact Hsum.
  Qed.

  Lemma no_path_sum seeds pm x : pm_ok pm -> In x xs -> pm x <> Some true -> path_sum seeds x zero.
  Proof.
    intros (P1 & P2 & P3 & P4) Hx Hpx. exists []. split; [constructor|]. split; [|reflexivity].
    intros k es. split; [intros []|]. intros (y & Hy & Hp).
    assert (Hyin : In y ys) by (eapply nth_error_In; eauto).
    assert (Hk : known pm x) by (eapply (ys_known g ys pm); eauto; eapply path_weaken; eauto).
    assert (Hd : differentiable g x).
    { destruct es as [|e es]; [inv Hp; auto|].
      destruct (path_last g _ _ _ _ Hp ltac:(discriminate)) as (? & ? & ? & _ & _ & _ & _ & Hd). exact Hd. }
    unfold known in Hk. destruct (pm x) as [b|] eqn:Hb; [|congruence].
    apply Hpx. f_equal. apply (P1 x b Hb). split; auto. exists x. split; auto. exists []. constructor.
  Qed.

  Lemma pm_true pm x : pm_ok pm -> In x xs ->
    (pm x = Some true <-> differentiable g x /\ exists y, In y ys /\ reaches g y x).
  Proof.
    intros (P1 & P2 & P3 & P4) Hx. split.
    - intros H. assert (Hd : differentiable g x) by (apply (P1 x true H); auto).
      split; auto. apply P4; auto. unfold known; congruence.
    - intros (Hd & y & Hy & Hr). assert (Hk : known pm x) by (eapply known_reachable; eauto).
      unfold known in Hk. destruct (pm x) as [b|] eqn:Hb; [|congruence]. f_equal. apply (P1 x b Hb).
      split; auto. exists x. split; auto. exists []. constructor.
  Qed.

  Definition correct_for (seeds : list M) (s : S) (x : nat) (r : T * bool) : Prop :=
    valid x s (fst r) /\ path_sum seeds x (den s (fst r)) /\
    (snd r = true <-> differentiable g x /\ exists y, In y ys /\ reaches g y x).

  Lemma correct_ext seeds s s' x r : ext s s' -> correct_for seeds s x r -> correct_for seeds s' x r.
  Proof.
    intros He (A & B & C). destruct (ext_valid _ _ _ _ _ _ _ _ _ _ _ Hden _ _ _ _ He A) as [V D].
    split; auto. split; auto. rewrite D. auto.
  Qed.

  Lemma extract_all_correct seeds pm st G : pm_ok pm -> binv seeds pm st G -> gs_heap st = [] ->
    forall xs' m s l s', NoDup xs' -> (forall x, In x xs' -> In x xs /\ accum_once x /\ m x = gs_map st x) ->
      ext (gs_s st) s -> good s ->
      extract_all addn zeros_like xs' m s = Some (l, s') ->
      good s' /\ ext s s' /\ Forall2 (correct_for seeds s') xs' l.
  Proof.
    intros Hpm HI Hemp. induction xs' as [|x xs' IH]; intros m s l s' Hn Hx He Hg H; simpl in H.
    - inv H. split; auto. split; [apply (ext_refl _ _ _ _ _ _ _ _ _ _ _ Hden) | constructor].
    - inv Hn. destruct (Hx x (or_introl eq_refl)) as (Hin & Hacc & Hmx).
      pose proof (b_flag _ _ _ _ _ _ _ _ _ _ _ _ _ HI x) as Hflag.
      destruct (extract_grad addn m x s) as [[[[t|] m'] s1]|] eqn:Hex; [| |discriminate].
      + assert (Hpx : pm x = Some true).
        { unfold extract_grad in Hex. rewrite Hmx in Hex. destruct (gs_map st x) as [inf|]; [|discriminate].
          simpl in Hflag. destruct (on_path inf); [auto | discriminate]. }
        assert (Ho : onpath g xs x) by (destruct Hpm as (P1 & _); apply (P1 x true Hpx); auto).
        destruct (extract_correct _ _ _ _ _ _ _ _ _ _ Hpm HI Hemp Hacc He Hg Hmx Ho Hex) as (Hg1 & He1 & Hv & Hs & Hoth).
        destruct (extract_all addn zeros_like xs' m' s1) as [[l2 s2]|] eqn:Hall; [|discriminate]. inv H.
        assert (He2 : ext (gs_s st) s1) by (eapply (ext_trans _ _ _ _ _ _ _ _ _ _ _ Hden); eauto).
        destruct (IH m' s1 l2 s' H3) as (Hg2 & He3 & HF); auto.
        { intros z Hz. destruct (Hx z (or_intror Hz)) as (A & B & C). split; auto. split; auto.
          rewrite Hoth; auto. intros ->. contradiction. }
        split; auto. split; [eapply (ext_trans _ _ _ _ _ _ _ _ _ _ _ Hden); eauto|].
        constructor; auto. apply (correct_ext _ s1); auto. split; auto. split; auto.
        cbn [snd]. split; [intros _; apply (pm_true pm); auto | auto].
      + assert (Hpx : pm x <> Some true /\ m' = m /\ s1 = s).
        { unfold extract_grad in Hex. rewrite Hmx in Hex. destruct (gs_map st x) as [inf|]; simpl in Hflag.
          - destruct (on_path inf); [destruct (gradient addn (grads inf) s) as [[[? ?] ?]|]; discriminate|].
            inv Hex. split; [congruence | auto].
          - inv Hex. split; [congruence | auto]. }
        destruct Hpx as (Hpx & -> & ->).
        destruct (zeros_like x s) as [[t s2]|] eqn:Hz; [|discriminate].
        destruct (Hzeros x _ _ _ Hg Hz) as (Hg1 & He1 & Hv & Hd).
        destruct (extract_all addn zeros_like xs' m s2) as [[l2 s3]|] eqn:Hall; [|discriminate]. inv H.
        assert (He2 : ext (gs_s st) s2) by (eapply (ext_trans _ _ _ _ _ _ _ _ _ _ _ Hden); eauto).
        destruct (IH m s2 l2 s' H3) as (Hg2 & He3 & HF); auto.
        { intros z Hz'. apply Hx. right; auto. }
        split; auto. split; [eapply (ext_trans _ _ _ _ _ _ _ _ _ _ _ Hden); eauto|].
        constructor; auto. apply (correct_ext _ s2); auto. split; auto. split.
        * cbn [fst]. rewrite Hd. eapply no_path_sum; eauto.
        * cbn [snd]. split; [discriminate|]. intros H. exfalso. apply Hpx. apply (pm_true pm); auto.
  Qed.

  (** The returned tensors denote the sums over paths. *)
  Theorem grad_path_sum fuel gys s seeds l s' log :
    good s -> seed_values valid den one_val ys gys s seeds ->
    NoDup xs -> (forall x, In x xs -> accum_once x) ->
    gwd fuel ys xs gys s = Ok (l, s', log) ->
    Forall2 (correct_for seeds s') xs l.
  Proof.
    intros Hg Hs Hn Hacc. unfold grad_with_default. destruct (no_outputs ys) eqn:Hno; [discriminate|].
    destruct (compute fuel ys xs gys s) as [st| |] eqn:Hc; try discriminate.
    destruct (extract_all addn zeros_like xs (gs_map st) (gs_s st)) as [[l' s2]|] eqn:He; [|discriminate].
    intros H; inv H. destruct (compute_inv _ _ _ _ _ Hg Hs Hc) as (pm & G & Hpm & HI & Hemp).
    apply (extract_all_correct seeds pm st G Hpm HI Hemp xs (gs_map st) (gs_s st) l s'); auto.
    - apply (ext_refl _ _ _ _ _ _ _ _ _ _ _ Hden).
    - apply (b_good _ _ _ _ _ _ _ _ _ _ _ _ _ HI).
  Qed.

  Lemma grad_good fuel gys s seeds l s' log :
    good s -> seed_values valid den one_val ys gys s seeds ->
    NoDup xs -> (forall x, In x xs -> accum_once x) ->
    gwd fuel ys xs gys s = Ok (l, s', log) -> good s'.
  Proof.
    intros Hg Hs Hn Hacc. unfold grad_with_default. destruct (no_outputs ys) eqn:Hno; [discriminate|].
    destruct (compute fuel ys xs gys s) as [st| |] eqn:Hc; try discriminate.
    destruct (extract_all addn zeros_like xs (gs_map st) (gs_s st)) as [[l' s2]|] eqn:He; [|discriminate].
    intros H; inv H. destruct (compute_inv _ _ _ _ _ Hg Hs Hc) as (pm & G & Hpm & HI & Hemp).
    apply (extract_all_correct seeds pm st G Hpm HI Hemp xs (gs_map st) (gs_s st) l s'); auto.
    - apply (ext_refl _ _ _ _ _ _ _ _ _ _ _ Hden).
    - apply (b_good _ _ _ _ _ _ _ _ _ _ _ _ _ HI).
  Qed.

  (** A path along which every rule propagates something, from some output. *)
  Notation live := (live g passes ys).

  (** ** Which rules are called, and in which order *)
  Lemma contrib_live seeds pm st G : pm_ok pm -> binv seeds pm st G -> gs_heap st = [] ->
    forall d z, list_max (map n_rank g) - rank_of g z <= d -> In z (gs_log st) -> live z.
  Proof.
    intros Hpm HI Hemp. induction d as [|d IH]; intros z Hd Hz;
      (destruct (b_log_kind _ _ _ _ _ _ _ _ _ _ _ _ _ HI z (or_intror Hz)) as [H|[_ Hpz]];
        [exists z, []; split; [auto | constructor]|];
       destruct (gs_map st z) as [inf|] eqn:Hinf;
        [|pose proof (b_flag _ _ _ _ _ _ _ _ _ _ _ _ _ HI z) as Hf; rewrite Hinf in Hf; simpl in Hf; congruence];
       destruct (b_acc _ _ _ _ _ _ _ _ _ _ _ _ _ HI z inf Hinf) as (E & (_ & HE1 & HE2) & _ & Hpr);
       destruct (Hpr Hz) as (HEne & _); destruct E as [|e E]; [congruence|];
       destruct e as [k|[y p]];
        [exists z, []; split; [apply (nth_error_In ys k); apply HE1; left; auto | constructor]|];
       destruct (proj1 (HE2 y p) (or_introl eq_refl)) as (Hy & He & Hps & _);
       destruct (rk_edge _ Hrk _ _ _ He) as [_ Hr]; pose proof (rank_bound g y)).
    - lia.
    - destruct (IH y ltac:(lia) Hy) as (y0 & es & Hy0 & Hp). exists y0, (es ++ [(y, p)]). split; auto.
      apply path_snoc; auto. destruct Hpm as (P1 & _). apply (P1 z true Hpz). auto.
  Qed.

  Theorem rules_called fuel gys s seeds l s' log :
    good s -> seed_values valid den one_val ys gys s seeds ->
    gwd fuel ys xs gys s = Ok (l, s', log) ->
    NoDup log /\
    (forall z, In z log <-> In z ys \/ (~ leaf g z /\ onpath g xs z /\ live z)) /\
    (forall y p z, In y log -> In z log -> edge g y p z ->
       exists l1 l2 l3, log = l1 ++ z :: l2 ++ y :: l3) /\
    length log <= length g.
  Proof.
    intros Hg Hs. unfold grad_with_default. destruct (no_outputs ys) eqn:Hno; [discriminate|].
    destruct (compute fuel ys xs gys s) as [st| |] eqn:Hc; try discriminate.
    destruct (extract_all addn zeros_like xs (gs_map st) (gs_s st)) as [[l' s2]|] eqn:He; [|discriminate].
    intros H; inv H. destruct (compute_inv _ _ _ _ _ Hg Hs Hc) as (pm & G & Hpm & HI & Hemp).
    split; [apply (b_log_nd _ _ _ _ _ _ _ _ _ _ _ _ _ HI)|]. split; [|split].
    - intros z. split.
      + intros Hz. destruct (b_log_kind _ _ _ _ _ _ _ _ _ _ _ _ _ HI z (or_intror Hz)) as [H|[Hnl Hpz]]; auto.
        right. split; auto. split; [destruct Hpm as (P1 & _); apply (P1 z true Hpz); auto|].
        eapply contrib_live; eauto.
      + intros [Hz|(Hnl & Ho & y0 & es & Hy0 & Hp)].
        * destruct (b_ys _ _ _ _ _ _ _ _ _ _ _ _ _ HI z Hz) as [H|H]; auto. rewrite Hemp in H. destruct H.
        * destruct es as [|e es].
          { inv Hp. destruct (b_ys _ _ _ _ _ _ _ _ _ _ _ _ _ HI z Hy0) as [H|H]; auto. rewrite Hemp in H. destruct H. }
          destruct (path_last g _ _ _ _ Hp ltac:(discriminate)) as (es0 & w & p & _ & Hp0 & Hedge & Hps & Hd).
          destruct Hpm as (P1 & P2 & P3 & P4).
          assert (Hw : In w (gs_log st)).
          { apply (consumers_done g zero add vjp good valid den passes ys xs seeds pm Hrk Hys P1 P2 P3 st G HI Hemp z Ho w p); eauto. }
          assert (Hk : known pm z) by (eapply (ys_known g ys pm); eauto; eapply path_weaken; eauto).
          destruct (map_of g zero add vjp good valid den passes ys seeds pm st G HI z Hk) as (inf & Hinf).
          pose proof (flag_of g zero add vjp good valid den passes ys xs seeds pm P1 st G HI z inf Hinf Ho) as Hop.
          destruct (b_acc _ _ _ _ _ _ _ _ _ _ _ _ _ HI z inf Hinf) as (E & (_ & _ & HE2) & Hun & _).
          assert (HinE : In (inr (w, p)) E) by (apply HE2; auto).
          destruct (in_dec Nat.eq_dec z (gs_log st)) as [Hl|Hl]; auto.
          destruct (b_pending _ _ _ _ _ _ _ _ _ _ _ _ _ HI z inf Hinf) as [H|H]; auto.
          -- intros Hgr. specialize (Hun Hl). apply (Forall2_nil_iff _ _ _ Hun) in Hgr. subst. destruct HinE.
          -- rewrite Hemp in H. destruct H.
    - intros y p z Hy Hz Hedge. destruct (in_split _ _ Hz) as (l1 & l2 & Hsp).
      rewrite Hsp in Hy. apply in_app_iff in Hy. destruct (rk_edge _ Hrk _ _ _ Hedge) as [_ Hr].
      destruct Hy as [Hy|[Hy|Hy]].
      + exfalso. destruct (in_split _ _ Hy) as (k1 & k2 & Hsp2). subst l1. rewrite <- app_assoc in Hsp. simpl in Hsp.
        assert (rank_of g y <= rank_of g z).
        { apply (b_log_rank _ _ _ _ _ _ _ _ _ _ _ _ _ HI k1 y (k2 ++ z :: l2) z Hsp). apply in_or_app. right; left; auto. }
        lia.
      + subst. lia.
      + destruct (in_split _ _ Hy) as (k1 & k2 & ->). exists l1, k1, k2. exact Hsp.
    - eapply log_bound; eauto.
  Qed.

  (** ** On the path but without a gradient *)
  Lemma extract_all_some x : forall xs' m s l s', In x xs' ->
    extract_all addn zeros_like xs' m s = Some (l, s') ->
    (exists inf, m x = Some inf /\ on_path inf = true /\ grads inf = []) -> False.
  Proof.
    induction xs' as [|x' xs' IH]; intros m s l s' Hin H (inf & Hm & Hop & Hgr); [destruct Hin|].
    simpl in H. destruct (Nat.eq_dec x' x) as [->|Hne].
    - unfold extract_grad in H. rewrite Hm, Hop, Hgr in H. discriminate.
    - destruct Hin as [Hin|Hin]; [congruence|].
      destruct (extract_grad addn m x' s) as [[[o m'] s1]|] eqn:Hex; [|discriminate].
      assert (Hm' : m' x = Some inf).
      { unfold extract_grad in Hex. destruct (m x') as [i|]; [|inv Hex; auto].
        destruct (on_path i); [|inv Hex; auto].
        destruct (gradient addn (grads i) s) as [[[? ?] ?]|]; [|discriminate]. inv Hex.
        unfold gm_set. destruct (x =? x') eqn:E; auto. apply Nat.eqb_eq in E. congruence. }
      destruct o as [t|].
      + destruct (extract_all addn zeros_like xs' m' s1) as [[? ?]|] eqn:Ha; [|discriminate].
        eapply IH; eauto.
      + destruct (zeros_like x' s1) as [[? s2]|]; [|discriminate].
        destruct (extract_all addn zeros_like xs' m' s2) as [[? ?]|] eqn:Ha; [|discriminate].
        eapply IH; eauto.
  Qed.

  Theorem blocked_panics fuel gys s seeds l s' log x :
    good s -> seed_values valid den one_val ys gys s seeds ->
    gwd fuel ys xs gys s = Ok (l, s', log) ->
    In x xs -> differentiable g x -> (exists y, In y ys /\ reaches g y x) -> live x.
  Proof.
    intros Hg Hs. unfold grad_with_default. destruct (no_outputs ys) eqn:Hno; [discriminate|].
    destruct (compute fuel ys xs gys s) as [st| |] eqn:Hc; try discriminate.
    destruct (extract_all addn zeros_like xs (gs_map st) (gs_s st)) as [[l' s2]|] eqn:He; [|discriminate].
    intros H Hx Hd Hr; inv H. destruct (compute_inv _ _ _ _ _ Hg Hs Hc) as (pm & G & Hpm & HI & Hemp).
    assert (Hpx : pm x = Some true) by (apply (pm_true pm); auto).
    destruct (gs_map st x) as [inf|] eqn:Hinf;
      [|pose proof (b_flag _ _ _ _ _ _ _ _ _ _ _ _ _ HI x) as Hf; rewrite Hinf in Hf; simpl in Hf; congruence].
    assert (Hop : on_path inf = true).
    { pose proof (b_flag _ _ _ _ _ _ _ _ _ _ _ _ _ HI x) as Hf; rewrite Hinf in Hf; simpl in Hf; congruence. }
    destruct (b_acc _ _ _ _ _ _ _ _ _ _ _ _ _ HI x inf Hinf) as (E & (_ & HE1 & HE2) & Hun & _).
    destruct (in_dec Nat.eq_dec x (gs_log st)) as [Hl|Hl]; [eapply contrib_live; eauto|].
    specialize (Hun Hl). destruct E as [|[k|[y p]] E].
    - exfalso. eapply extract_all_some; eauto. exists inf. split; auto. split; auto.
      apply (Forall2_nil_iff _ _ _ Hun); auto.
    - exists x, []. split; [apply (nth_error_In ys k); apply HE1; left; auto | constructor].
    - destruct (proj1 (HE2 y p) (or_introl eq_refl)) as (Hy & Hedge & Hps & _).
      assert (Hly : live y) by (eapply contrib_live; eauto).
      destruct Hly as (y0 & es & Hy0 & Hp). exists y0, (es ++ [(y, p)]). split; auto. apply path_snoc; auto.
  Qed.

  (** ** Termination and success *)
  Definition enough_fuel (fuel : nat) : Prop := 2 * (length ys + backprop_edges g) < fuel /\ length g < fuel.

  Theorem grad_terminates fuel gys s seeds :
    good s -> seed_values valid den one_val ys gys s seeds -> enough_fuel fuel ->
    gwd fuel ys xs gys s <> OutOfFuel.
  Proof.
    intros Hg Hs [Hf1 Hf2]. unfold grad_with_default, compute_gradients. destruct (no_outputs ys) eqn:Hno; [discriminate|].
    destruct (init_path_map_spec g ys xs Hrk Hys fuel Hf1) as (pm & Hpm & P1 & P2 & P3 & P4). rewrite Hpm.
    assert (Hstart : forall s1 l1 m, good s1 -> seeded zero valid den ys seeds s1 l1 ->
      push_seeds ys l1 (gm_init pm) = Some m ->
      match back_loop g opgrad addn pop debug fuel (GState m ys s1 []) with
      | Ok st => match extract_all addn zeros_like xs (gs_map st) (gs_s st) with
                 | Some (l, s') => Ok (l, s', gs_log st) | None => Panic end
      | Panic => Panic | OutOfFuel => OutOfFuel end <> OutOfFuel).
    { intros s1 l1 m Hg1 Hsd Hp.
      destruct (init_inv g zero add vjp good valid den passes ys seeds pm Hys Hnd P2 s1 l1 Hg1 Hsd) as (m' & Hp' & HI).
      rewrite Hp in Hp'. inv Hp'.
      pose proof (loop_fuel g zero add vjp good valid den ext passes opgrad addn pop debug ys xs seeds pm
                  Hrk Hpop Hden P1 P3 fuel _ _ HI) as Hlf. simpl in Hlf.
      destruct (back_loop _ _ _ _ _ _ _) as [st| |]; [|discriminate|exfalso; apply Hlf; [lia|reflexivity]].
      destruct (extract_all _ _ _ _ _) as [[? ?]|]; discriminate. }
    destruct gys as [l|]; cbn [seed_values] in Hs.
    - destruct Hs as (Hv & Hsd). pose proof (Forall2_lengths _ _ _ Hv) as Hl. rewrite Hl, Nat.eqb_refl.
      destruct (push_seeds ys l (gm_init pm)) as [m|] eqn:Hp; [|discriminate].
      apply (Hstart s l m); auto.
      split; auto. split; [subst; rewrite map_length; auto|]. intros k y t Hy Hk. split.
      + exact (Forall2_both _ _ _ _ _ _ Hv Hy Hk).
      + subst seeds. symmetry. apply nth_error_nth. rewrite nth_error_map, Hk. reflexivity.
    - destruct (one s) as [[t s1]|] eqn:Ho; [|discriminate].
      destruct (Hone _ _ _ Hg Ho) as (Hg1 & _ & Hv & Hd).
      destruct (push_seeds ys (map (fun _ => t) ys) (gm_init pm)) as [m|] eqn:Hp; [|discriminate].
      apply (Hstart s1 (map (fun _ => t) ys) m); auto.
      split; [apply map_length|]. split; [subst; apply map_length|]. intros k y t' Hy Hk.
      rewrite nth_error_map, Hy in Hk. simpl in Hk. inv Hk.
      split; [apply Hv; eapply nth_error_In; eauto|]. symmetry. apply nth_error_nth. rewrite nth_error_map, Hy. reflexivity.
  Qed.

  Lemma extract_all_total seeds pm st G : pm_ok pm -> binv seeds pm st G -> gs_heap st = [] ->
    (forall x l s, good s -> Forall (valid x s) l -> 2 <= length l -> addn l s <> None) ->
    (forall x s, In x xs -> good s -> zeros_like x s <> None) ->
    (forall x, In x xs -> onpath g xs x -> (exists y, In y ys /\ reaches g y x) -> live x) ->
    forall xs' m s, NoDup xs' -> (forall x, In x xs' -> In x xs /\ accum_once x /\ m x = gs_map st x) ->
      ext (gs_s st) s -> good s ->
      exists l s', extract_all addn zeros_like xs' m s = Some (l, s').
  Proof.
    intros Hpm HI Hemp Hadd Hzt Hlive. induction xs' as [|x xs' IH]; intros m s Hn Hx He Hg; [simpl; eauto|].
    inv Hn. destruct (Hx x (or_introl eq_refl)) as (Hin & Hacc & Hmx).
    pose proof (b_flag _ _ _ _ _ _ _ _ _ _ _ _ _ HI x) as Hflag. cbn [extract_all].
    destruct (extract_grad addn m x s) as [[[[t|] m'] s1]|] eqn:Hex.
    - assert (Hpx : pm x = Some true).
      { unfold extract_grad in Hex. rewrite Hmx in Hex. destruct (gs_map st x) as [inf|]; [|discriminate].
        simpl in Hflag. destruct (on_path inf); [auto | discriminate]. }
      assert (Ho : onpath g xs x) by (destruct Hpm as (P1 & _); apply (P1 x true Hpx); auto).
      destruct (extract_correct _ _ _ _ _ _ _ _ _ _ Hpm HI Hemp Hacc He Hg Hmx Ho Hex) as (Hg1 & He1 & Hv & Hs & Hoth).
      destruct (IH m' s1) as (l & s' & Hl); auto.
      { intros z Hz. destruct (Hx z (or_intror Hz)) as (A & B & C). split; auto. split; auto.
        rewrite Hoth; auto. intros ->. contradiction. }
      { eapply (ext_trans _ _ _ _ _ _ _ _ _ _ _ Hden); eauto. }
      rewrite Hl. eauto.
    - assert (Hpx : m' = m /\ s1 = s).
      { unfold extract_grad in Hex. destruct (m x) as [inf|]; [|inv Hex; auto].
        destruct (on_path inf); [destruct (gradient addn (grads inf) s) as [[[? ?] ?]|]; discriminate|]. inv Hex; auto. }
      destruct Hpx as (-> & ->).
      destruct (zeros_like x s) as [[t s2]|] eqn:Hz; [|exfalso; exact (Hzt x s Hin Hg Hz)].
      destruct (Hzeros x _ _ _ Hg Hz) as (Hg1 & He1 & _).
      destruct (IH m s2) as (l & s' & Hl); auto.
      { intros z Hz'. apply Hx. right; auto. }
      { eapply (ext_trans _ _ _ _ _ _ _ _ _ _ _ Hden); eauto. }
      rewrite Hl. eauto.
    - exfalso. unfold extract_grad in Hex. rewrite Hmx in Hex.
      destruct (gs_map st x) as [inf|] eqn:Hinf; [|discriminate]. simpl in Hflag.
      destruct (on_path inf) eqn:Hop; [|discriminate].
      assert (Ho : onpath g xs x) by (destruct Hpm as (P1 & _); apply (P1 x true); auto).
      assert (Hl : live x) by (apply Hlive; auto; apply (pm_true pm); auto).
      destruct (b_acc _ _ _ _ _ _ _ _ _ _ _ _ _ HI x inf Hinf) as (E & HE).
      apply (accounts_ext _ _ _ s) in HE; auto. destruct HE as ((HEn & HE1 & HE2) & Hun & Hpr).
      assert (HEne : E <> []).
      { intros ->. destruct Hl as (y0 & es & Hy0 & Hp). destruct es as [|e es].
        - inv Hp. destruct (In_nth_error _ _ Hy0) as (k & Hk). apply (proj2 (HE1 k)) in Hk. destruct Hk.
        - destruct (path_last g _ _ _ _ Hp ltac:(discriminate)) as (es0 & w & p & _ & Hp0 & Hedge & Hps & Hd).
          destruct Hpm as (P1 & P2 & P3 & P4).
          assert (Hw : In w (gs_log st)).
          { apply (consumers_done g zero add vjp good valid den passes ys xs seeds pm Hrk Hys P1 P2 P3 st G HI Hemp x Ho w p); eauto. }
          apply (proj2 (HE2 w p)). auto. }
      assert (Hgr : gradient addn (grads inf) s <> None).
      { assert (Hok : grads inf <> [] /\ Forall (valid x s) (grads inf)).
        { destruct (in_dec Nat.eq_dec x (gs_log st)) as [Hxl|Hxl].
          - destruct (Hpr Hxl) as (_ & _ & t & ts & -> & Hv & _ & Hts). split; [discriminate|].
            constructor; auto. apply (Forall2_rep_den zero vjp valid den seeds _ _ _ _ _ Hts).
          - specialize (Hun Hxl). split; [intros H; apply (Forall2_nil_iff _ _ _ Hun) in H; contradiction|].
            apply (Forall2_rep_den zero vjp valid den seeds _ _ _ _ _ Hun). }
        destruct Hok as [Hok1 Hok2]. unfold gradient. destruct (grads inf) as [|t0 [|t1 l]]; [congruence | discriminate|].
        pose proof (Hadd x (t0 :: t1 :: l) s Hg Hok2 ltac:(simpl; lia)) as Ha.
        destruct (addn (t0 :: t1 :: l) s) as [[? ?]|]; [discriminate | congruence]. }
      destruct (gradient addn (grads inf) s) as [[[? ?] ?]|]; [discriminate | congruence].
  Qed.

  (** If no rule panics and no target is starved, the request succeeds. *)
  Theorem grad_succeeds fuel gys s seeds :
    ys <> [] -> good s -> seed_values valid den one_val ys gys s seeds -> enough_fuel fuel ->
    NoDup xs -> (forall x, In x xs -> accum_once x) ->
    (forall s, good s -> one s <> None) ->
    (forall x s, In x xs -> good s -> zeros_like x s <> None) ->
    (forall x l s, good s -> Forall (valid x s) l -> 2 <= length l -> addn l s <> None) ->
    (forall y gy s, good s -> valid y s gy -> differentiable g y -> (In y ys \/ ~ leaf g y) ->
       exists gxs s', opgrad y gy s = Some (gxs, s') /\
         (debug = true -> gxs <> [] /\ forall n, nth_error g y = Some n -> length (get_backprop_inputs n) = length gxs)) ->
    (forall x, In x xs -> onpath g xs x -> (exists y, In y ys /\ reaches g y x) -> live x) ->
    exists l s' log, gwd fuel ys xs gys s = Ok (l, s', log).
  Proof.
    intros Hne Hg Hs [Hf1 Hf2] Hnx Hacc Hot Hzt Hat Hrt Hlive. unfold grad_with_default, compute_gradients.
    assert (Hno : no_outputs ys = false) by (destruct ys; [congruence|reflexivity]). rewrite Hno.
    destruct (init_path_map_spec g ys xs Hrk Hys fuel Hf1) as (pm & Hpm & Hok). rewrite Hpm.
    pose proof Hok as (P1 & P2 & P3 & P4).
    assert (Hstart : forall s1 l1, good s1 -> seeded zero valid den ys seeds s1 l1 ->
      exists m, push_seeds ys l1 (gm_init pm) = Some m /\ exists st l s',
        back_loop g opgrad addn pop debug fuel (GState m ys s1 []) = Ok st /\
        extract_all addn zeros_like xs (gs_map st) (gs_s st) = Some (l, s')).
    { intros s1 l1 Hg1 Hsd.
      destruct (init_inv g zero add vjp good valid den passes ys seeds pm Hys Hnd P2 s1 l1 Hg1 Hsd) as (m & Hp & HI).
      exists m. split; auto.
      pose proof (loop_fuel g zero add vjp good valid den ext passes opgrad addn pop debug ys xs seeds pm
                  Hrk Hpop Hden P1 P3 fuel _ _ HI) as Hlf. simpl in Hlf.
      assert (Hlp : back_loop g opgrad addn pop debug fuel (GState m ys s1 []) <> Panic).
      { apply (loop_progress g zero add vjp good valid den ext passes opgrad addn pop debug ys xs seeds pm
                  Hrk Hpop Hden P1 P3 fuel _ _ HI); auto.
        intros y gy s0 Hg0 Hv0 Hkind. apply Hrt; auto; [|tauto].
        destruct Hkind as [Hk|[_ Hk]]; [auto | apply (P1 y true Hk); auto]. }
      destruct (back_loop g opgrad addn pop debug fuel (GState m ys s1 [])) as [st| |] eqn:Hb;
        [|congruence|exfalso; apply Hlf; [lia | reflexivity]].
      destruct (loop_inv g zero add vjp good valid den ext passes opgrad addn pop debug ys xs seeds pm
                  Hrk Hpop Hden P1 P3 _ _ _ _ HI Hb) as (G' & HI' & Hemp).
      destruct (extract_all_total seeds pm st G' Hok HI' Hemp Hat Hzt Hlive xs (gs_map st) (gs_s st)) as (l & s' & He); auto.
      { apply (ext_refl _ _ _ _ _ _ _ _ _ _ _ Hden). }
      { apply (b_good _ _ _ _ _ _ _ _ _ _ _ _ _ HI'). }
      eauto. }
    destruct gys as [l|]; cbn [seed_values] in Hs.
    - destruct Hs as (Hv & Hsd). pose proof (Forall2_lengths _ _ _ Hv) as Hl. rewrite Hl, Nat.eqb_refl.
      destruct (Hstart s l) as (m & Hp & st & l2 & s2 & Hb & He); auto.
      { split; auto. split; [subst; rewrite map_length; auto|]. intros k y t Hy Hk. split.
        + exact (Forall2_both _ _ _ _ _ _ Hv Hy Hk).
        + subst seeds. symmetry. apply nth_error_nth. rewrite nth_error_map, Hk. reflexivity. }
      rewrite Hp, Hb, He. eauto.
    - pose proof (Hot s Hg) as Ho'. destruct (one s) as [[t s1]|] eqn:Ho; [|congruence].
      destruct (Hone _ _ _ Hg Ho) as (Hg1 & _ & Hv & Hd).
      destruct (Hstart s1 (map (fun _ => t) ys)) as (m & Hp & st & l2 & s2 & Hb & He); auto.
      { split; [apply map_length|]. split; [subst; apply map_length|]. intros k y t' Hy Hk.
        rewrite nth_error_map, Hy in Hk. simpl in Hk. inv Hk.
        split; [apply Hv; eapply nth_error_In; eauto|]. symmetry. apply nth_error_nth. rewrite nth_error_map, Hy. reflexivity. }
      rewrite Hp, Hb, He. eauto.
  Qed.
End Final.
