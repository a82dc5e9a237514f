(** The state arrays an optimizer registers when it is created. *)
From Coq Require Import String Ascii List Arith ZArith Bool Reals Lia DecimalString DecimalNat.
Import ListNotations.
From Verif Require Import Graph_Model Var_Model Var_Proofs Array_Model Arith_Model Opt_Model Opt_Proofs.

Lemma decimal_inj a b : decimal a = decimal b -> a = b.
Proof.
  unfold decimal. intros H. apply Unsigned.to_uint_inj.
  assert (Hs : NilEmpty.uint_of_string (NilEmpty.string_of_uint (Nat.to_uint a)) =
               NilEmpty.uint_of_string (NilEmpty.string_of_uint (Nat.to_uint b))) by (rewrite H; reflexivity).
  rewrite !NilEmpty.usu in Hs. congruence.
Qed.
Lemma snoc_inj a b c d : (a ++ String c "" = b ++ String d "")%string -> a = b /\ c = d.
Proof.
  revert b. induction a as [|x a IH]; intros [|y b]; simpl; intros H.
  - injection H as ->. auto.
  - injection H as -> H. destruct b; discriminate.
  - injection H as -> H. destruct a; discriminate.
  - injection H as -> H. destruct (IH b H) as [-> ->]. auto.
Qed.

Lemma state_names_nodup opt vid : NoDup (state_names opt vid).
Proof.
  destruct opt; simpl; repeat apply NoDup_cons; try apply NoDup_nil; simpl; auto;
    intros H; repeat destruct H as [H|H]; auto; apply snoc_inj in H; destruct H; discriminate.
Qed.
Lemma state_names_apart opt v w name : In name (state_names opt v) -> In name (state_names opt w) -> v = w.
Proof.
  destruct opt; simpl; intros H1 H2.
  - destruct H1.
  - apply decimal_inj. intuition congruence.
  - apply decimal_inj. intuition congruence.
  - repeat match goal with H : _ \/ _ |- _ => destruct H | H : False |- _ => destruct H end; subst name;
      match goal with H : (_ ++ _ = _ ++ _)%string |- _ => apply snoc_inj in H; destruct H as [H H']; try discriminate; apply decimal_inj; auto end.
Qed.
Lemma states_length opt v sh : length (initial_states opt sh) = length (state_names opt v).
Proof. destruct opt; reflexivity. Qed.

Section Register.
  Context {A : Type}.
  Variable ns : string.
  Notation lookup e k := (map_get full_name_eqb (name_to_id e) k).
  Definition register_all (l : list (string * A)) (e : env A) : env A :=
    fold_left (fun e na => fst (register_variable (snd na) ns (fst na) e)) l e.

  Lemma register_all_spec l : forall e, NoDup (map fst l) ->
    array_list (register_all l e) = array_list e ++ map snd l /\
    (forall j name, nth_error (map fst l) j = Some name -> lookup (register_all l e) (ns, name) = Some (length (array_list e) + j)) /\
    (forall k, (forall name, k = (ns, name) -> ~ In name (map fst l)) -> lookup (register_all l e) k = lookup e k).
  Proof.
    induction l as [|[name a] l IH]; intros e Hn.
    - simpl. rewrite app_nil_r. repeat split; auto. intros [|j]; discriminate.
    - inversion Hn as [|? ? Hn1 Hn2]; subst. cbn [register_all fold_left fst snd map].
      set (e1 := fst (register_variable a ns name e)). destruct (IH e1 Hn2) as (H1 & H2 & H3).
      fold (register_all l e1).
      assert (L : length (array_list e1) = S (length (array_list e))) by (subst e1; simpl; rewrite app_length; simpl; lia).
      assert (G : forall k, lookup e1 k = if full_name_eqb (ns, name) k then Some (length (array_list e)) else lookup e k).
      { intros k. subst e1. unfold register_variable. cbn [fst name_to_id]. apply get_insert. apply full_name_eqb_ok. }
      split; [|split].
      + rewrite H1. subst e1. simpl. rewrite <- app_assoc. reflexivity.
      + intros [|j] nm Hj; simpl in Hj.
        * injection Hj as <-. rewrite H3 by (intros nm Heq; injection Heq as <-; exact Hn1). rewrite G.
          replace (full_name_eqb (ns, name) (ns, name)) with true by (symmetry; apply full_name_eqb_ok; reflexivity).
          f_equal. lia.
        * rewrite (H2 j nm Hj), L. f_equal. lia.
      + intros k Hk. rewrite H3 by (intros nm -> Hin; apply (Hk nm eq_refl); right; exact Hin). rewrite G.
        destruct (full_name_eqb (ns, name) k) eqn:E; auto. apply full_name_eqb_ok in E. subst k.
        exfalso. apply (Hk name eq_refl). left; reflexivity.
  Qed.
End Register.

Notation lookup e k := (map_get full_name_eqb (name_to_id e) k).

Lemma map_fst_combine {X Y} (l : list X) (l' : list Y) : length l = length l' -> map fst (combine l l') = l.
Proof. revert l'; induction l as [|x l IH]; intros [|y l']; simpl; intros H; try discriminate; auto. f_equal. apply IH. lia. Qed.
Lemma map_snd_combine {X Y} (l : list X) (l' : list Y) : length l = length l' -> map snd (combine l l') = l'.
Proof. revert l'; induction l as [|x l IH]; intros [|y l']; simpl; intros H; try discriminate; auto. f_equal. apply IH. lia. Qed.

Lemma register_states_spec opt e vid a : nth_error (array_list e) vid = Some a ->
  exists e', register_states opt e vid = Some e' /\
    array_list e' = array_list e ++ initial_states opt (a_shape a) /\
    state_ids opt e' vid (seq (length (array_list e)) (length (state_names opt vid))) /\
    (forall k, (forall name, k = (opt_namespace opt, name) -> ~ In name (state_names opt vid)) -> lookup e' k = lookup e k).
Proof.
  intros Ha. unfold register_states, get_array_by_id. rewrite Ha. eexists. split; [reflexivity|].
  set (l := combine (state_names opt vid) (initial_states opt (a_shape a))).
  assert (Hl : length (state_names opt vid) = length (initial_states opt (a_shape a))) by (symmetry; apply states_length).
  assert (Hf : map fst l = state_names opt vid) by (apply map_fst_combine; exact Hl).
  assert (Hs : map snd l = initial_states opt (a_shape a)) by (apply map_snd_combine; exact Hl).
  destruct (register_all_spec (opt_namespace opt) l e) as (H1 & H2 & H3); [rewrite Hf; apply state_names_nodup|].
  unfold register_all in H1, H2, H3. rewrite Hs in H1. rewrite Hf in H2, H3. split; [exact H1|]. split; [|exact H3].
  unfold state_ids.
  assert (G : forall m names s, (forall j name, nth_error names j = Some name -> map_get full_name_eqb m (opt_namespace opt, name) = Some (s + j)) ->
     Forall2 (fun name sid => map_get full_name_eqb m (opt_namespace opt, name) = Some sid) names (seq s (length names))).
  { intros m names. induction names as [|nm names IH]; intros s H; cbn [seq length]; constructor.
    - rewrite (H 0 nm eq_refl). f_equal. lia.
    - apply IH. intros j name Hj. rewrite (H (S j) name Hj). f_equal. lia. }
  apply G. exact H2.
Qed.

(** The states of parameter [vid] (an array [a]) are found, freshly initialised, in [e'];
    their identifiers are new ones. *)
Definition fresh_states (opt : optimizer) (e e' : env (arr R)) (vid : nat) (a : arr R) (sids : list nat) : Prop :=
  state_ids opt e' vid sids /\ NoDup sids /\
  (forall s, In s sids -> length (array_list e) <= s) /\
  Forall2 (fun sid b => nth_error (array_list e') sid = Some b) sids (initial_states opt (a_shape a)).

Lemma seq_states {X} (pre post mid : list X) : Forall2 (fun sid b => nth_error (pre ++ mid ++ post) sid = Some b) (seq (length pre) (length mid)) mid.
Proof.
  revert pre. induction mid as [|x mid IH]; intros pre; simpl; constructor.
  - rewrite nth_error_app2, Nat.sub_diag by lia. reflexivity.
  - specialize (IH (pre ++ [x])). rewrite app_length in IH. simpl in IH. rewrite Nat.add_1_r in IH.
    rewrite <- app_assoc in IH. exact IH.
Qed.

Lemma opt_new_cons opt vid vids e : opt_new opt (vid :: vids) e =
  match opt with
  | SGD _ => Some e
  | _ => match register_states opt e vid with None => None | Some e' => opt_new opt vids e' end
  end.
Proof. destruct opt; reflexivity. Qed.

Lemma names_len opt v w : length (state_names opt v) = length (state_names opt w).
Proof. destruct opt; reflexivity. Qed.
Lemma ids_fun opt e v s1 s2 : state_ids opt e v s1 -> state_ids opt e v s2 -> s1 = s2.
Proof.
  unfold state_ids. intros H; revert s2. induction H as [|n s l l' Hns Hl IH]; intros s2 H2; inversion H2; subst; auto.
  f_equal; [congruence | auto].
Qed.
Lemma ids_kept opt e e' v sids : (forall name, In name (state_names opt v) -> lookup e' (opt_namespace opt, name) = lookup e (opt_namespace opt, name)) ->
  state_ids opt e v sids -> state_ids opt e' v sids.
Proof.
  unfold state_ids. intros Hk H. induction H as [|n s l l' Hns Hl IH]; constructor.
  - rewrite Hk; [exact Hns | left; reflexivity].
  - apply IH. intros name Hin. apply Hk. right; exact Hin.
Qed.

(** What creating an optimizer for the parameters [vids] does. *)
Record created (opt : optimizer) (vids : list nat) (e e' : env (arr R)) : Prop := {
  cr_arrays : exists new, array_list e' = array_list e ++ new /\ length new = length vids * length (state_names opt 0);
  cr_states : forall vid a, In vid vids -> nth_error (array_list e) vid = Some a -> exists sids, fresh_states opt e e' vid a sids;
  cr_apart : forall v w sv sw s, In v vids -> In w vids -> state_ids opt e' v sv -> state_ids opt e' w sw -> In s sv -> In s sw -> v = w;
  cr_names : forall k, (forall name vid, k = (opt_namespace opt, name) -> In vid vids -> ~ In name (state_names opt vid)) -> lookup e' k = lookup e k
}.

Lemma created_nil opt e : created opt [] e e.
Proof.
  split.
  - exists []. rewrite app_nil_r. auto.
  - intros vid a [].
  - intros v w sv sw s [].
  - auto.
Qed.
Lemma created_sgd alpha vids e : created (SGD alpha) vids e e.
Proof.
  split.
  - exists []. rewrite app_nil_r. simpl. split; auto; lia.
  - intros vid a _ _. exists []. split; [constructor|]. split; [constructor|]. split; [intros s []|]. constructor.
  - intros v w sv sw s _ _ H _ Hin. inversion H; subst. destruct Hin.
  - auto.
Qed.
Lemma created_cons opt vid vids e e1 e' a : nth_error (array_list e) vid = Some a ->
  (forall w, In w vids -> w < length (array_list e)) ->
  array_list e1 = array_list e ++ initial_states opt (a_shape a) ->
  state_ids opt e1 vid (seq (length (array_list e)) (length (state_names opt vid))) ->
  (forall k, (forall name, k = (opt_namespace opt, name) -> ~ In name (state_names opt vid)) -> lookup e1 k = lookup e k) ->
  created opt vids e1 e' -> created opt (vid :: vids) e e'.
Proof.
  intros Ha Hv Ha1 Hs1 Hk1 [(new & Hnew & Hlnew) Hst Hap Hk].
  assert (Hlen1 : length (array_list e1) = length (array_list e) + length (state_names opt vid)).
  { rewrite Ha1, app_length, (states_length opt vid). reflexivity. }
  assert (Hold : forall w b, nth_error (array_list e) w = Some b -> nth_error (array_list e1) w = Some b).
  { intros w b Hw. rewrite Ha1. rewrite nth_error_app1; auto. apply nth_error_Some. congruence. }
  assert (Hin : forall w b, In w vids -> nth_error (array_list e) w = Some b -> exists sids, fresh_states opt e1 e' w b sids) by eauto.
  (* the head's states survive when it does not occur again *)
  assert (Hhead : ~ In vid vids -> state_ids opt e' vid (seq (length (array_list e)) (length (state_names opt vid)))).
  { intros Hni. apply (ids_kept opt e1 e'); auto. intros name Hn. apply Hk. intros nm w Heq Hw Hnm.
    injection Heq as <-. assert (vid = w) by (eapply state_names_apart; eauto). subst. contradiction. }
  split.
  - exists (initial_states opt (a_shape a) ++ new). split; [rewrite Hnew, Ha1, app_assoc; reflexivity|].
    rewrite app_length, Hlnew, (states_length opt 0). simpl. reflexivity.
  - intros w b [<-|Hw] Hb.
    + assert (b = a) by congruence. subst b. destruct (in_dec Nat.eq_dec vid vids) as [Hi|Hi].
      * destruct (Hin vid a Hi Ha) as (sids & F1 & F2 & F3 & F4). exists sids. split; auto. split; auto. split; auto.
        intros s Hs. specialize (F3 s Hs). lia.
      * exists (seq (length (array_list e)) (length (state_names opt vid))). split; [apply Hhead; exact Hi|].
        split; [apply seq_NoDup|]. split; [intros s Hs; apply in_seq in Hs; lia|].
        rewrite Hnew, Ha1, <- app_assoc, <- (states_length opt vid (a_shape a)). apply seq_states.
    + destruct (Hin w b Hw Hb) as (sids & F1 & F2 & F3 & F4). exists sids. split; auto. split; auto. split; auto.
      intros s Hs. specialize (F3 s Hs). lia.
  - assert (Hlow : forall w sw s, In w vids -> ~ In vid vids -> state_ids opt e' w sw -> In s sw ->
              In s (seq (length (array_list e)) (length (state_names opt vid))) -> False).
    { intros w sw s Hw Hni Hsw Hs1' Hs2'. destruct (nth_error (array_list e) w) as [b|] eqn:Hb.
      - destruct (Hin w b Hw Hb) as (sids & F1 & _ & F3 & _). assert (sids = sw) by (eapply ids_fun; eauto). subst sids.
        specialize (F3 s Hs1'). apply in_seq in Hs2'. lia.
      - apply nth_error_None in Hb. specialize (Hv w Hw). lia. }
    intros v w sv sw s Hv' Hw' Hsv Hsw Hs Hs'.
    destruct (in_dec Nat.eq_dec vid vids) as [Hi|Hi].
    + apply (Hap v w sv sw s); auto; [destruct Hv' as [<-|]|destruct Hw' as [<-|]]; auto.
    + destruct Hv' as [<-|Hv'], Hw' as [<-|Hw']; auto.
      * assert (sv = seq (length (array_list e)) (length (state_names opt vid))) by (eapply ids_fun; eauto). subst sv.
        exfalso. eapply (Hlow w); eauto.
      * assert (sw = seq (length (array_list e)) (length (state_names opt vid))) by (eapply ids_fun; eauto). subst sw.
        exfalso. eapply (Hlow v); eauto.
      * eapply Hap; eauto.
  - intros k Hk'. rewrite Hk by (intros name w Heq Hw; apply (Hk' name w Heq); right; exact Hw).
    apply Hk1. intros name Heq. apply (Hk' name vid Heq). left; reflexivity.
Qed.

Theorem opt_new_spec opt : forall vids e,
  (forall vid, In vid vids -> vid < length (array_list e)) ->
  exists e', opt_new opt vids e = Some e' /\ created opt vids e e'.
Proof.
  intros vids. induction vids as [|vid vids IH]; intros e Hv.
  - exists e. split; [destruct opt; reflexivity | apply created_nil].
  - destruct (nth_error (array_list e) vid) as [a|] eqn:Ha.
    2: { apply nth_error_None in Ha. specialize (Hv vid (or_introl eq_refl)). lia. }
    destruct (register_states_spec opt e vid a Ha) as (e1 & Hr & Ha1 & Hs1 & Hk1).
    assert (Hlen : length (array_list e) <= length (array_list e1)) by (rewrite Ha1, app_length; lia).
    destruct (IH e1) as (e' & Hn & Hc).
    { intros w Hw. specialize (Hv w (or_intror Hw)). lia. }
    destruct opt as [alpha|alpha mu nsp|lr nsp|alpha eps b1 b2 nsp].
    + exists e. split; [reflexivity | apply created_sgd].
    + exists e'. split; [rewrite opt_new_cons, Hr; exact Hn | eapply created_cons; eauto; intros w Hw; apply Hv; right; auto].
    + exists e'. split; [rewrite opt_new_cons, Hr; exact Hn | eapply created_cons; eauto; intros w Hw; apply Hv; right; auto].
    + exists e'. split; [rewrite opt_new_cons, Hr; exact Hn | eapply created_cons; eauto; intros w Hw; apply Hv; right; auto].
Qed.

(** An identifier the environment does not know panics. *)
Theorem opt_new_unknown opt vid vids e : length (array_list e) <= vid ->
  opt_new opt (vid :: vids) e = match opt with SGD _ => Some e | _ => None end.
Proof.
  intros H. rewrite opt_new_cons. unfold register_states, get_array_by_id.
  replace (nth_error (array_list e) vid) with (@None (arr R)) by (symmetry; apply nth_error_None; exact H).
  destruct opt; reflexivity.
Qed.
