(** The map of tensors lying between ys and xs. *)
From Coq Require Import String List Arith ZArith Bool Permutation Lia.
Import ListNotations.
From Verif Require Import Graph_Model Eval_Model Eval_Proofs Grad_Model Grad_Spec.

Section PathProofs.
  Context {O : Type}.
  Variable g : graph O.
  Variables ys xs : list nat.
  Hypothesis Hrk : ranked g.
  Hypothesis Hys : forall y, In y ys -> differentiable g y.

  Notation all := (fun _ _ : nat => True).
  Definition onpath (z : nat) : Prop := differentiable g z /\ exists x, In x xs /\ reaches g z x.

  Lemma path_snoc ok y es z p x : path g ok y es z -> edge g z p x -> ok z p -> differentiable g x ->
    path g ok y (es ++ [(z, p)]) x.
  Proof.
    intros H He Ho Hd. induction H as [y|y q w es z He' Ho' Hd' Hp IH]; simpl.
    - econstructor; eauto. constructor.
    - econstructor; eauto.
  Qed.

  Lemma reaches_step y z p x : reaches g y z -> edge g z p x -> differentiable g x -> reaches g y x.
  Proof. intros (es & H) He Hd. exists (es ++ [(z, p)]). apply path_snoc; auto. Qed.

  Lemma onpath_step z : onpath z <->
    differentiable g z /\ (In z xs \/ exists p c, edge g z p c /\ onpath c).
  Proof.
    split.
    - intros (Hd & x & Hx & es & Hp). split; auto. destruct Hp as [z|z p c es x He _ Hc Hp].
      + left; auto.
      + right. exists p, c. split; auto. split; auto. exists x. split; auto. exists es. auto.
    - intros (Hd & [Hz|(p & c & He & Hc & x & Hx & es & Hp)]).
      + split; auto. exists z. split; auto. exists []. constructor.
      + split; auto. exists x. split; auto. exists ((z, p) :: es). econstructor; eauto.
  Qed.

  Lemma is_given_xs_spec i : is_given_xs i xs = true <-> In i xs.
  Proof.
    unfold is_given_xs. rewrite existsb_exists. split.
    - intros (x & Hx & He). apply Nat.eqb_eq in He. subst; auto.
    - intros H. exists i. split; auto. apply Nat.eqb_refl.
  Qed.

  Definition known (m : pathmap) (z : nat) : Prop := m z <> None.

  Record PInv (stack : list (nat * bool)) (m : pathmap) : Prop := {
    p_diff : forall i b, In (i, b) stack -> differentiable g i;
    p_node : forall z, known m z -> exists n, nth_error g z = Some n;
    p_val : forall z b, m z = Some b -> (b = true <-> onpath z);
    p_closed : forall z p c, known m z -> differentiable g z -> edge g z p c -> known m c;
    p_pend : forall above i below p c, stack = above ++ (i, true) :: below ->
      edge g i p c -> known m c \/ exists b, In (c, b) above;
    p_reach : forall i b, In (i, b) stack -> exists y, In y ys /\ reaches g y i;
    p_reach' : forall z, known m z -> differentiable g z -> exists y, In y ys /\ reaches g y z;
    p_ys : forall y, In y ys -> known m y \/ exists b, In (y, b) stack;
    p_above : forall above i below j b, stack = above ++ (i, true) :: below ->
      In (j, b) above -> rank_of g j < rank_of g i
  }.

  Definition init_stack : list (nat * bool) := rev (map (fun y => (y, false)) ys).
  Lemma in_init_stack i b : In (i, b) init_stack -> In i ys /\ b = false.
  Proof. unfold init_stack. rewrite <- in_rev, in_map_iff. intros (y & Hy & Hin). inv Hy. auto. Qed.

  Lemma no_true_stack above i below (new : list (nat * bool)) :
    (forall j b, In (j, b) new -> b = false) -> new = above ++ (i, true) :: below -> False.
  Proof.
    intros H ->. assert (Heq : true = false).
    { apply (H i). apply in_or_app. right; left; auto. } discriminate.
  Qed.

  Lemma pinv_init : PInv init_stack (fun _ => None).
  Proof.
    assert (Hf : forall j b, In (j, b) init_stack -> b = false) by (intros j b H; apply in_init_stack in H; tauto).
    constructor; unfold known.
    - intros i b H. apply in_init_stack in H. apply Hys; tauto.
    - intros z H; congruence.
    - discriminate.
    - intros z p c H; congruence.
    - intros above i below p c H. exfalso. eapply no_true_stack; eauto.
    - intros i b H. apply in_init_stack in H. exists i. split; [tauto|]. exists []. constructor.
    - intros z H; congruence.
    - intros y Hy. right. exists false. unfold init_stack. rewrite <- in_rev. apply in_map_iff. eauto.
    - intros above i below j b H. exfalso. eapply no_true_stack; eauto.
  Qed.

  (** What pushing the children does. *)
  Lemma push_known curr children stack m : known m curr ->
    forall r, push_path_children g xs curr children stack m = Ok r -> r = (stack, m).
  Proof.
    intros Hk. induction children as [|c rest IH]; intros r; simpl.
    - intros H; inv H; auto.
    - destruct (nth_error g (in_id c)); [|discriminate]. destruct (m curr) eqn:Hm; [auto|].
      exfalso. apply Hk. exact Hm.
  Qed.

  Lemma push_spec curr children : forall stack m stack' m',
    ~ known m curr -> (forall c, In c children -> in_id c <> curr) ->
    push_path_children g xs curr children stack m = Ok (stack', m') ->
    exists new, stack' = new ++ stack /\ length new <= length children /\
      (forall j b, In (j, b) new -> b = false /\ differentiable g j /\ exists c, In c children /\ in_id c = j) /\
      (forall c, In c children -> known m' (in_id c) \/ In (in_id c, false) new) /\
      (forall z, known m z -> known m' z) /\
      (forall z, m' z = m z \/
         exists c n b, In c children /\ in_id c = z /\ nth_error g z = Some n /\
           (n_inputs n = [] \/ n_diff n = false) /\ m' z = Some b /\
           (b = true <-> n_diff n = true /\ In z xs)).
  Proof.
    induction children as [|c rest IH]; intros stack m stack' m' Hk Hne; simpl.
    - intros H; inv H. exists []. simpl. repeat split; auto; intros; tauto.
    - destruct (nth_error g (in_id c)) as [n|] eqn:Hn; [|discriminate].
      destruct (m curr) eqn:Hm; [exfalso; apply Hk; unfold known; congruence|].
      destruct (is_source n || negb (n_diff n)) eqn:Hc.
      + set (b0 := n_diff n && is_given_xs (in_id c) xs). intros H.
        assert (Hcc : (in_id c <> curr)) by (apply Hne; left; auto).
        assert (Hk2 : ~ known (pm_insert m (in_id c) b0) curr).
        { unfold known, pm_insert. destruct (curr =? in_id c) eqn:E; [apply Nat.eqb_eq in E; congruence | congruence]. }
        assert (Hne2 : forall c', In c' rest -> in_id c' <> curr) by (intros c' Hc'; apply Hne; right; auto).
        destruct (IH _ _ _ _ Hk2 Hne2 H) as (new & -> & Hl & H1 & H2 & H3 & H4).
        { exists new. split; auto. split; [lia|]. split; [|split; [|split]].
          -- intros j b Hj. destruct (H1 j b Hj) as (A & B & c' & C & D). split; auto. split; auto. exists c'. split; auto.
          -- intros c' [<-|Hc']; [left | destruct (H2 _ Hc'); auto].
             apply H3. unfold known, pm_insert. rewrite Nat.eqb_refl. discriminate.
          -- intros z Hz. apply H3. unfold known, pm_insert. destruct (z =? in_id c); [discriminate | exact Hz].
          -- intros z. destruct (H4 z) as [Heq|(c' & n' & b & A & B & C & D & E & F)].
             ++ rewrite Heq. unfold pm_insert. destruct (z =? in_id c) eqn:E; [|left; auto].
                apply Nat.eqb_eq in E. subst z. right. exists c, n, b0. split; [left; auto|].
                split; auto. split; auto. split; [|split; auto].
                ** apply orb_true_iff in Hc. unfold is_source in Hc. destruct Hc as [Hc|Hc].
                   --- left. destruct (n_inputs n); congruence.
                   --- right. apply negb_true_iff. exact Hc.
                ** unfold b0. rewrite andb_true_iff, is_given_xs_spec. tauto.
             ++ right. exists c', n', b. split; [right; auto|]. auto. }
      + intros H.
        assert (Hne2 : forall c', In c' rest -> in_id c' <> curr) by (intros c' Hc'; apply Hne; right; auto).
        destruct (IH _ _ _ _ Hk Hne2 H) as (new & -> & Hl & H1 & H2 & H3 & H4).
        exists (new ++ [(in_id c, false)]). rewrite <- app_assoc. split; auto.
        rewrite app_length. simpl. split; [lia|]. split; [|split; [|split; [auto|]]].
        * intros j b Hj. apply in_app_iff in Hj. destruct Hj as [Hj|[Hj|[]]].
          -- destruct (H1 j b Hj) as (A & B & c' & C & D). split; auto. split; auto. exists c'. split; auto.
          -- inv Hj. split; auto. apply orb_false_iff in Hc. destruct Hc as [_ Hc].
             apply negb_false_iff in Hc. split; [exists n; auto|]. exists c. split; auto.
        * intros c' [<-|Hc'].
          -- right. apply in_or_app. right; left; auto.
          -- destruct (H2 _ Hc'); auto. right. apply in_or_app. auto.
        * intros z. destruct (H4 z) as [Heq|(c' & n' & b & A & B)]; auto.
          right. exists c', n', b. split; [right; auto | auto].
  Qed.

  Lemma edge_in n y c p : nth_error g y = Some n -> edge g y p c -> exists inc, In inc (get_backprop_inputs n) /\ in_id inc = c.
  Proof. intros Hn (n' & inc & Hn' & Hp & Hid). rewrite Hn in Hn'; inv Hn'. exists inc. split; auto. eapply nth_error_In; eauto. Qed.
  Lemma in_edge n y inc : nth_error g y = Some n -> In inc (get_backprop_inputs n) -> exists p, edge g y p (in_id inc).
  Proof. intros Hn Hin. apply In_nth_error in Hin. destruct Hin as (p & Hp). exists p. exists n, inc. auto. Qed.

  Lemma marked_split (new : list (nat * bool)) (i : nat) rest above k below :
    (forall j b, In (j, b) new -> b = false) ->
    new ++ (i, true) :: rest = above ++ (k, true) :: below ->
    (above = new /\ k = i /\ below = rest) \/
    exists above', above = new ++ (i, true) :: above' /\ rest = above' ++ (k, true) :: below.
  Proof. intros Hnew Heq. exact (app_marked new i rest above below k Hnew Heq). Qed.

  Lemma pinv_push i rest m n stack' m' :
    PInv ((i, false) :: rest) m -> nth_error g i = Some n ->
    push_path_children g xs i (get_backprop_inputs n) ((i, true) :: rest) m = Ok (stack', m') ->
    PInv stack' m'.
  Proof.
    intros HI Hn Hp.
    assert (Hdi : differentiable g i) by (apply (p_diff _ _ HI i false); left; auto).
    assert (Hdec : known m i \/ ~ known m i) by (unfold known; destruct (m i); [left|right]; congruence).
    destruct Hdec as [Hk|Hk].
    - (* already in the map *)
      pose proof (push_known _ _ _ _ Hk _ Hp) as Heq. inv Heq.
      destruct HI as [P1 P2 P3 P4 P5 P6 P7 P8 P9]. constructor; auto.
      + intros j b [Hj|Hj]; [inv Hj; auto | apply (P1 j b); right; auto].
      + intros above k below p c Heq He.
        destruct (marked_split [] i rest above k below) as [(-> & -> & ->)|(above' & -> & ->)]; auto.
        * intros j b [].
        * left. eapply P4; eauto.
        * simpl. destruct (P5 ((i, false) :: above') k below p c eq_refl He) as [H|(b & [H|H])]; auto.
          -- inv H. right. exists true. left; auto.
          -- right. exists b. right; auto.
      + intros j b [Hj|Hj]; [inv Hj; apply (P6 j false); left; auto | apply (P6 j b); right; auto].
      + intros y Hy. destruct (P8 y Hy) as [H|(b & [H|H])]; auto.
        * inv H. right. exists true. left; auto.
        * right. exists b. right; auto.
      + intros above k below j b Heq Hj.
        destruct (marked_split [] i rest above k below) as [(-> & -> & ->)|(above' & -> & ->)]; auto.
        * intros j' b' [].
        * destruct Hj.
        * simpl in Hj. destruct Hj as [Hj|Hj].
          -- inv Hj. apply (P9 ((j, false) :: above') k below j false); auto. left; auto.
          -- apply (P9 ((i, false) :: above') k below j b); auto. right; auto.
    - assert (Hlt : forall c, In c (get_backprop_inputs n) -> rank_of g (in_id c) < rank_of g i).
      { intros c Hc. destruct (in_edge _ _ _ Hn Hc) as (p & He). apply (rk_edge _ Hrk _ _ _ He). }
      assert (Hne : forall c, In c (get_backprop_inputs n) -> in_id c <> i).
      { intros c Hc Heq. specialize (Hlt c Hc). rewrite Heq in Hlt. lia. }
      destruct (push_spec i _ _ _ _ _ Hk Hne Hp) as (new & -> & _ & H1 & H2 & H3 & H4).
      assert (Hnew : forall j b, In (j, b) new -> b = false) by (intros j b Hj; apply (H1 j b Hj)).
      assert (Hri : exists y, In y ys /\ reaches g y i) by (apply (p_reach _ _ HI i false); left; auto).
      destruct HI as [P1 P2 P3 P4 P5 P6 P7 P8 P9]. constructor.
      + intros j b Hj. apply in_app_iff in Hj. destruct Hj as [Hj|[Hj|Hj]].
        * apply (H1 j b Hj).
        * inv Hj; auto.
        * apply (P1 j b). right; auto.
      + intros z Hz. destruct (H4 z) as [Heq|(c & nz & b & _ & _ & Hnz & _)]; [|eauto].
        apply P2. unfold known in *. congruence.
      + intros z b Hz. destruct (H4 z) as [Heq|(c & nz & b' & Hc & Hcz & Hnz & Hleaf & Hb & Hb')].
        * apply P3. congruence.
        * rewrite Hz in Hb. inv Hb. rewrite Hb', onpath_step. split.
          -- intros [Hd Hx]. split; [exists nz; auto | auto].
          -- intros ((nz' & Hnz' & Hd) & Hor). rewrite Hnz in Hnz'. inv Hnz'. split; auto.
             destruct Hor as [Hx|(p & c' & He & _)]; auto. exfalso.
             destruct Hleaf as [Hl|Hl]; [|congruence].
             apply (rk_leaf _ Hrk (in_id c) p c'); auto. exists nz'. auto.
      + intros z p c Hz Hd He. destruct (H4 z) as [Heq|(c0 & nz & b' & Hc & Hcz & Hnz & Hleaf & Hb & Hb')].
        * apply H3. apply (P4 z p c); auto. unfold known in *; congruence.
        * exfalso. destruct Hleaf as [Hl|Hl].
          -- apply (rk_leaf _ Hrk z p c); auto. exists nz; auto.
          -- destruct Hd as (nz' & Hnz' & Hd). congruence.
      + intros above k below p c Heq He.
        destruct (marked_split new i rest above k below Hnew Heq) as [(-> & -> & ->)|(above' & -> & ->)].
        * destruct (edge_in _ _ _ _ Hn He) as (inc & Hin & <-).
          destruct (H2 inc Hin) as [H|H]; [left; auto | right; eauto].
        * destruct (P5 ((i, false) :: above') k below p c eq_refl He) as [H|(b & [H|H])].
          -- left. auto.
          -- inv H. right. exists true. apply in_or_app. right; left; auto.
          -- right. exists b. apply in_or_app. right; right; auto.
      + intros j b Hj. apply in_app_iff in Hj. destruct Hj as [Hj|[Hj|Hj]].
        * destruct (H1 j b Hj) as (_ & Hd & c & Hc & <-). destruct (in_edge _ _ _ Hn Hc) as (p & He).
          destruct Hri as (y & Hy & Hr). exists y. split; auto. eapply reaches_step; eauto.
        * inv Hj; auto.
        * apply (P6 j b). right; auto.
      + intros z Hz Hd. destruct (H4 z) as [Heq|(c0 & nz & b' & Hc & <- & Hnz & _)].
        * apply P7; auto. unfold known in *; congruence.
        * destruct (in_edge _ _ _ Hn Hc) as (p & He).
          destruct Hri as (y & Hy & Hr). exists y. split; auto. eapply reaches_step; eauto.
      + intros y Hy. destruct (P8 y Hy) as [H|(b & [H|H])]; auto.
        * inv H. right. exists true. apply in_or_app. right; left; auto.
        * right. exists b. apply in_or_app. right; right; auto.
      + intros above k below j b Heq Hj.
        destruct (marked_split new i rest above k below Hnew Heq) as [(-> & -> & ->)|(above' & -> & ->)].
        * destruct (H1 j b Hj) as (_ & _ & c & Hc & <-). auto.
        * assert (Hki : rank_of g i < rank_of g k).
          { apply (P9 ((i, false) :: above') k below i false); auto. left; auto. }
          apply in_app_iff in Hj. destruct Hj as [Hj|[Hj|Hj]].
          -- destruct (H1 j b Hj) as (_ & _ & c & Hc & <-). specialize (Hlt c Hc). lia.
          -- inv Hj. auto.
          -- apply (P9 ((i, false) :: above') k below j b); auto. right; auto.
  Qed.

  Lemma has_child_spec children (m : pathmap) :
    (forall c, In c children -> known m (in_id c)) ->
    (forall z b, m z = Some b -> (b = true <-> onpath z)) ->
    exists b, has_child_on_path children m = Some b /\
      (b = true <-> exists c, In c children /\ onpath (in_id c)).
  Proof.
    intros Hk Hv. induction children as [|c rest IH]; simpl.
    - exists false. split; auto. split; [discriminate | intros (c & [] & _)].
    - assert (Hc : known m (in_id c)) by (apply Hk; left; auto). unfold known in Hc.
      destruct (m (in_id c)) as [b|] eqn:Hm; [|congruence].
      destruct b.
      + exists true. split; auto. split; auto. intros _. exists c. split; auto. apply (Hv _ _ Hm); auto.
      + destruct IH as (b & Hb & Hb'). { intros c' Hc'. apply Hk. right; auto. }
        exists b. split; auto. rewrite Hb'. split.
        * intros (c' & A & B). exists c'. auto.
        * intros (c' & [<-|A] & B); [|eauto]. apply (Hv _ _ Hm) in B. discriminate.
  Qed.

  Lemma pinv_visit i rest m n :
    PInv ((i, true) :: rest) m -> nth_error g i = Some n ->
    exists b, (if n_diff n then if is_given_xs i xs then Some true
               else has_child_on_path (get_backprop_inputs n) m else Some false) = Some b /\
      PInv rest (pm_insert m i b).
  Proof.
    intros HI Hn.
    assert (Hdi : differentiable g i) by (apply (p_diff _ _ HI i true); left; auto).
    assert (Hd : n_diff n = true) by (destruct Hdi as (n' & Hn' & Hd); congruence).
    assert (Hch : forall c, In c (get_backprop_inputs n) -> known m (in_id c)).
    { intros c Hc. destruct (in_edge _ _ _ Hn Hc) as (p & He).
      destruct (p_pend _ _ HI [] i rest p (in_id c) eq_refl He) as [H|(b & [])]; auto. }
    destruct (has_child_spec _ m Hch (p_val _ _ HI)) as (b0 & Hb0 & Hb0').
    assert (Hex : exists b, (if n_diff n then if is_given_xs i xs then Some true
               else has_child_on_path (get_backprop_inputs n) m else Some false) = Some b /\
               (b = true <-> onpath i)).
    { rewrite Hd. destruct (is_given_xs i xs) eqn:Hx.
      - exists true. split; auto. split; auto. intros _. apply onpath_step. split; auto.
        left. apply is_given_xs_spec; auto.
      - exists b0. split; auto. rewrite Hb0', onpath_step. split.
        + intros (c & Hc & Ho). split; auto. right. destruct (in_edge _ _ _ Hn Hc) as (p & He). eauto.
        + intros (_ & [Hin|(p & c & He & Ho)]).
          * apply is_given_xs_spec in Hin. congruence.
          * destruct (edge_in _ _ _ _ Hn He) as (inc & Hin & <-). eauto. }
    destruct Hex as (b & Hb & Hb'). exists b. split; auto.
    assert (Hkn : forall z, known (pm_insert m i b) z <-> z = i \/ known m z).
    { intros z. unfold known, pm_insert. destruct (z =? i) eqn:E.
      - apply Nat.eqb_eq in E. split; [auto | discriminate].
      - apply Nat.eqb_neq in E. tauto. }
    assert (Hri : exists y, In y ys /\ reaches g y i) by (apply (p_reach _ _ HI i true); left; auto).
    destruct HI as [P1 P2 P3 P4 P5 P6 P7 P8 P9]. constructor.
    - intros j bj Hj. apply (P1 j bj). right; auto.
    - intros z Hz. apply Hkn in Hz. destruct Hz as [->|Hz]; eauto.
    - intros z bz. unfold pm_insert. destruct (z =? i) eqn:E; [|apply P3].
      apply Nat.eqb_eq in E. subst z. intros H; inv H. auto.
    - intros z p c Hz Hdz He. apply Hkn. right. apply Hkn in Hz. destruct Hz as [->|Hz]; [|eapply P4; eauto].
      destruct (edge_in _ _ _ _ Hn He) as (inc & Hin & <-). auto.
    - intros above k below p c -> He.
      destruct (P5 ((i, true) :: above) k below p c eq_refl He) as [H|(bb & [H|H])].
      + left. apply Hkn. auto.
      + inv H. left. apply Hkn. auto.
      + right. eauto.
    - intros j bj Hj. apply (P6 j bj). right; auto.
    - intros z Hz Hdz. apply Hkn in Hz. destruct Hz as [->|Hz]; auto.
    - intros y Hy. destruct (P8 y Hy) as [H|(bb & [H|H])].
      + left. apply Hkn. auto.
      + inv H. left. apply Hkn. auto.
      + right. eauto.
    - intros above k below j bj -> Hj. apply (P9 ((i, true) :: above) k below j bj); auto. right; auto.
  Qed.

  Lemma push_total i n stack m : nth_error g i = Some n ->
    exists r, push_path_children g xs i (get_backprop_inputs n) stack m = Ok r.
  Proof.
    intros Hn.
    assert (H : forall l, (forall c, In c l -> exists nc, nth_error g (in_id c) = Some nc) ->
      forall stack m, exists r, push_path_children g xs i l stack m = Ok r).
    { induction l as [|c l IH]; intros Hl st mm; simpl; [eauto|].
      destruct (Hl c (or_introl eq_refl)) as (nc & ->).
      assert (Hl' : forall c', In c' l -> exists nc, nth_error g (in_id c') = Some nc) by (intros c' H'; apply Hl; right; auto).
      destruct (mm i); [apply IH; auto|]. destruct (is_source nc || negb (n_diff nc)); apply IH; auto. }
    apply H. intros c Hc. destruct (in_edge _ _ _ Hn Hc) as (p & He).
    destruct (rk_edge _ Hrk _ _ _ He) as [Hlt _].
    destruct (nth_error g (in_id c)) eqn:E; [eauto|]. apply nth_error_None in E. lia.
  Qed.

  (** ** Termination *)
  Definition bdeg (i : nat) : nat :=
    match nth_error g i with Some n => length (get_backprop_inputs n) | None => 0 end.
  Definition bknown (m : pathmap) (i : nat) : bool := match m i with Some _ => true | None => false end.
  Definition bpending (stack : list (nat * bool)) (i : nat) : bool :=
    existsb (fun p => (fst p =? i)%nat && snd p) stack.
  Definition bfresh stack m (i : nat) : nat := if bknown m i || bpending stack i then 0 else 2 * bdeg i.
  Definition bpotential stack m : nat :=
    stack_weight stack + list_sum (map (bfresh stack m) (seq 0 (length g))).

  Lemma bpending_spec stack i : bpending stack i = true <-> In (i, true) stack.
  Proof.
    unfold bpending. rewrite existsb_exists. split.
    - intros ([j b] & Hin & H). simpl in H. apply andb_true_iff in H. destruct H as [H ->].
      apply Nat.eqb_eq in H. subst. auto.
    - intros H. exists (i, true). split; auto. simpl. rewrite Nat.eqb_refl. reflexivity.
  Qed.

  Lemma bpotential_visit i rest m b :
    bpotential rest (pm_insert m i b) < bpotential ((i, true) :: rest) m.
  Proof.
    unfold bpotential. change (stack_weight ((i, true) :: rest)) with (1 + stack_weight rest).
    enough (list_sum (map (bfresh rest (pm_insert m i b)) (seq 0 (length g)))
            <= list_sum (map (bfresh ((i, true) :: rest) m) (seq 0 (length g)))) by lia.
    apply list_sum_le. intros j _. unfold bfresh, bknown, pm_insert.
    destruct (j =? i) eqn:E; [simpl; lia|].
    destruct (m j); simpl; auto.
    destruct (i =? j) eqn:E'; [apply Nat.eqb_eq in E'; apply Nat.eqb_neq in E; congruence|]. simpl. auto.
  Qed.

  Lemma bpotential_push i rest m n stack' m' :
    PInv ((i, false) :: rest) m -> nth_error g i = Some n ->
    push_path_children g xs i (get_backprop_inputs n) ((i, true) :: rest) m = Ok (stack', m') ->
    bpotential stack' m' < bpotential ((i, false) :: rest) m.
  Proof.
    intros HI Hn Hp. unfold bpotential.
    change (stack_weight ((i, false) :: rest)) with (2 + stack_weight rest).
    assert (Hdec : known m i \/ ~ known m i) by (unfold known; destruct (m i); [left|right]; congruence).
    destruct Hdec as [Hk|Hk].
    - pose proof (push_known _ _ _ _ Hk _ Hp) as Heq. inv Heq.
      change (stack_weight ((i, true) :: rest)) with (1 + stack_weight rest).
      enough (list_sum (map (bfresh ((i, true) :: rest) m) (seq 0 (length g)))
            <= list_sum (map (bfresh ((i, false) :: rest) m) (seq 0 (length g)))) by lia.
      apply list_sum_le. intros j _. unfold bfresh. simpl. rewrite andb_false_r. simpl.
      destruct (bknown m j); simpl; auto. destruct (bpending rest j); [rewrite orb_true_r; lia|].
      destruct ((i =? j) && true); simpl; lia.
    - assert (Hlt : forall c, In c (get_backprop_inputs n) -> in_id c <> i).
      { intros c Hc. destruct (in_edge _ _ _ Hn Hc) as (p & He). apply (rk_edge _ Hrk) in He. intros Heq. rewrite Heq in He. lia. }
      destruct (push_spec i _ _ _ _ _ Hk Hlt Hp) as (new & -> & Hl & H1 & _ & H3 & _).
      assert (Hnew : forall j b, In (j, b) new -> b = false) by (intros j b Hj; apply (H1 j b Hj)).
      rewrite stack_weight_app, stack_weight_new by exact Hnew.
      change (stack_weight ((i, true) :: rest)) with (1 + stack_weight rest).
      assert (Hi : i < length g) by (apply nth_error_Some; congruence).
      assert (Hfresh : forall j, bfresh (new ++ (i, true) :: rest) m' j <= bfresh ((i, false) :: rest) m j).
      { intros j. unfold bfresh, bknown. destruct (m j) eqn:Hm; simpl.
        - assert (Hk' : known m' j) by (apply H3; unfold known; congruence).
          unfold known in Hk'. destruct (m' j); [simpl; lia | congruence].
        - rewrite andb_false_r. simpl. destruct (bpending rest j) eqn:Hb.
          + assert (Hq : bpending (new ++ (i, true) :: rest) j = true).
            { apply bpending_spec. apply bpending_spec in Hb. apply in_or_app. right; right; auto. }
            rewrite Hq, orb_true_r. lia.
          + match goal with |- (if ?c then _ else _) <= _ => destruct c end; lia. }
      enough (list_sum (map (bfresh (new ++ (i, true) :: rest) m') (seq 0 (length g))) + 2 * length (get_backprop_inputs n)
              <= list_sum (map (bfresh ((i, false) :: rest) m) (seq 0 (length g)))) by lia.
      apply list_sum_split with (k := i).
      + apply seq_NoDup.
      + apply in_seq. lia.
      + intros; apply Hfresh.
      + assert (Hq : bpending (new ++ (i, true) :: rest) i = true).
        { apply bpending_spec. apply in_or_app. right; left; auto. }
        assert (Hnp : bpending ((i, false) :: rest) i = false).
        { destruct (bpending ((i, false) :: rest) i) eqn:Hb; auto. exfalso.
          apply bpending_spec in Hb. destruct Hb as [Hb|Hb]; [discriminate|].
          apply in_split in Hb. destruct Hb as (l1 & l2 & ->).
          pose proof (p_above _ _ HI ((i, false) :: l1) i l2 i false eq_refl (or_introl eq_refl)). lia. }
        unfold bfresh. rewrite Hq, Hnp, orb_true_r, orb_false_r.
        unfold bknown. destruct (m i) eqn:Hm; [exfalso; apply Hk; unfold known; congruence|].
        unfold bdeg. rewrite Hn. lia.
  Qed.

  Lemma path_loop_ok fuel : forall stack m, PInv stack m -> bpotential stack m < fuel ->
    exists m', path_loop g xs fuel stack m = Ok m' /\ PInv [] m'.
  Proof.
    induction fuel as [|fuel IH]; intros stack m HI Hp; [lia|].
    cbn [path_loop]. unfold path_step. destruct stack as [|[i v] rest]; [eauto|].
    assert (Hd : differentiable g i) by (apply (p_diff _ _ HI i v); left; auto).
    destruct Hd as (n & Hn & Hd). rewrite Hn. destruct v.
    - destruct (pinv_visit _ _ _ _ HI Hn) as (b & Hb & HI'). rewrite Hb.
      apply IH; auto. pose proof (bpotential_visit i rest m b). lia.
    - destruct (push_total i n ((i, true) :: rest) m Hn) as ((stack', m') & Hr). rewrite Hr.
      apply IH; [eapply pinv_push; eauto|]. pose proof (bpotential_push _ _ _ _ _ _ HI Hn Hr). lia.
  Qed.

  Definition backprop_edges : nat := list_sum (map (fun n => length (get_backprop_inputs n)) g).

  Lemma bdeg_sum : list_sum (map bdeg (seq 0 (length g))) = backprop_edges.
  Proof.
    unfold backprop_edges. f_equal.
    assert (H : forall pre l, map (fun i => match nth_error (pre ++ l) i with
                 | Some n => length (get_backprop_inputs n) | None => 0 end) (seq (length pre) (length l))
               = map (fun n : node O => length (get_backprop_inputs n)) l).
    { intros pre l; revert pre; induction l as [|a l IH]; intros pre; simpl; auto.
      f_equal.
      - rewrite nth_error_app2, Nat.sub_diag by lia. reflexivity.
      - specialize (IH (pre ++ [a])). rewrite <- app_assoc in IH. simpl in IH.
        rewrite app_length in IH. simpl in IH. rewrite Nat.add_1_r in IH. exact IH. }
    exact (H [] g).
  Qed.

  Lemma bpotential_init : bpotential init_stack (fun _ => None) = 2 * (length ys + backprop_edges).
  Proof.
    unfold bpotential. rewrite <- bdeg_sum. rewrite stack_weight_new.
    - unfold init_stack at 1. rewrite rev_length, map_length.
      assert (H : forall l, list_sum (map (bfresh init_stack (fun _ => None)) l) = 2 * list_sum (map bdeg l)).
      { induction l as [|a l IH]; simpl; auto. rewrite IH.
        assert (Hf : bfresh init_stack (fun _ => None) a = 2 * bdeg a).
        { unfold bfresh. simpl. destruct (bpending init_stack a) eqn:Hb; auto.
          apply bpending_spec in Hb. apply in_init_stack in Hb. destruct Hb; discriminate. }
        rewrite Hf. simpl. lia. }
      rewrite H. lia.
    - intros j b H. apply in_init_stack in H. tauto.
  Qed.

  (** The path map is computed in linear time and is exact. *)
  Lemma init_path_map_spec fuel : 2 * (length ys + backprop_edges) < fuel ->
    exists pm, init_path_map g fuel ys xs = Ok pm /\
      (forall z b, pm z = Some b -> (b = true <-> onpath z)) /\
      (forall y, In y ys -> known pm y) /\
      (forall z p c, known pm z -> differentiable g z -> edge g z p c -> known pm c) /\
      (forall z, known pm z -> differentiable g z -> exists y, In y ys /\ reaches g y z).
  Proof.
    intros Hf. destruct (path_loop_ok fuel init_stack (fun _ => None) pinv_init) as (pm & Hpm & HI).
    { rewrite bpotential_init. exact Hf. }
    exists pm. split; [exact Hpm|]. split; [apply (p_val _ _ HI)|]. split; [|split].
    - intros y Hy. destruct (p_ys _ _ HI y Hy) as [H|(b & [])]; auto.
    - apply (p_closed _ _ HI).
    - apply (p_reach' _ _ HI).
  Qed.

  Lemma path_loop_mono fuel fuel' stack m r :
    path_loop g xs fuel stack m = Ok r -> fuel <= fuel' -> path_loop g xs fuel' stack m = Ok r.
  Proof.
    revert fuel' stack m; induction fuel as [|fuel IH]; intros fuel' stack m H Hle; [discriminate|].
    destruct fuel' as [|fuel']; [lia|]. cbn [path_loop] in *.
    destruct (path_step g xs stack m) as [[[stack' m']|]| |]; try discriminate; auto. apply IH; auto. lia.
  Qed.

  Lemma known_reachable pm y z :
    (forall y, In y ys -> known pm y) ->
    (forall z p c, known pm z -> differentiable g z -> edge g z p c -> known pm c) ->
    In y ys -> reaches g y z -> known pm z.
  Proof.
    intros H1 H2 Hy (es & Hp). specialize (H1 y Hy). pose proof (Hys y Hy) as Hd. clear Hy.
    induction Hp as [y|y p z es x He _ Hd' Hp IH]; auto.
    apply IH; auto. eapply H2; eauto.
  Qed.
End PathProofs.
