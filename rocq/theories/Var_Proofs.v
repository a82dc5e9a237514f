(** Proofs about variable environments. *)
From Coq Require Import String Ascii List Arith Bool Permutation Lia.
Import ListNotations.
From Verif Require Import Graph_Model Eval_Proofs Graph_Proofs Var_Model Var_Spec.

Section MapFacts.
  Context {K V : Type} (eqb : K -> K -> bool).
  Hypothesis eqb_ok : forall a b, eqb a b = true <-> a = b.

  Lemma eqb_refl_ k : eqb k k = true.
  Proof. apply eqb_ok. reflexivity. Qed.
  Lemma eqb_false a b : eqb a b = false <-> a <> b.
  Proof. rewrite <- eqb_ok. destruct (eqb a b); split; congruence. Qed.

  Lemma get_remove (m : list (K * V)) k k' : eqb k k' = false ->
    map_get eqb (filter (fun e => negb (eqb (fst e) k)) m) k' = map_get eqb m k'.
  Proof.
    intros H. unfold map_get. induction m as [|[a v] m IH]; [reflexivity|]. simpl.
    destruct (eqb a k) eqn:E; simpl.
    - apply eqb_ok in E. subst a. rewrite H. exact IH.
    - destruct (eqb a k'); [reflexivity|exact IH].
  Qed.
  Lemma get_insert (m : list (K * V)) k v k' :
    map_get eqb (map_insert eqb m k v) k' = if eqb k k' then Some v else map_get eqb m k'.
  Proof.
    unfold map_insert. unfold map_get at 1. simpl. destruct (eqb k k') eqn:E; [reflexivity|].
    apply (get_remove m k k' E).
  Qed.
  Lemma keys_filter (m : list (K * V)) f : NoDup (map fst m) -> NoDup (map fst (filter f m)).
  Proof.
    induction m as [|a m IH]; intros H; [constructor|]. simpl in *. inv H.
    destruct (f a); auto. simpl. constructor; auto. intros Hin. apply in_map_iff in Hin.
    destruct Hin as (b & E & Hb). apply filter_In in Hb. apply H2. rewrite <- E. apply in_map. tauto.
  Qed.
  Lemma insert_once (m : list (K * V)) k v : one_entry_per_key m -> one_entry_per_key (map_insert eqb m k v).
  Proof.
    intros H. unfold one_entry_per_key, map_insert. simpl. constructor.
    - intros Hin. apply in_map_iff in Hin. destruct Hin as ([a b] & E & Hb). apply filter_In in Hb. simpl in *.
      destruct Hb as [_ Hb]. subst a. rewrite eqb_refl_ in Hb. discriminate.
    - apply keys_filter. exact H.
  Qed.
  Lemma get_In (m : list (K * V)) k v : map_get eqb m k = Some v -> In (k, v) m.
  Proof.
    unfold map_get. intros H. destruct (find _ m) as [[a b]|] eqn:E; [|discriminate]. inv H.
    apply find_some in E. simpl in E. destruct E as [A B]. apply eqb_ok in B. subst a. exact A.
  Qed.
  Lemma get_iff (m : list (K * V)) k v : one_entry_per_key m -> (map_get eqb m k = Some v <-> In (k, v) m).
  Proof.
    intros N. split; [apply get_In|]. induction m as [|[a b] m IH]; [intros []|]. intros [E|Hin].
    - inv E. unfold map_get. simpl. rewrite eqb_refl_. reflexivity.
    - unfold map_get. simpl. unfold one_entry_per_key in N. simpl in N. inv N.
      destruct (eqb a k) eqn:E.
      + apply eqb_ok in E. subst a. exfalso. apply H1. change k with (fst (k, v)). apply in_map. exact Hin.
      + apply IH; auto.
  Qed.
  Lemma get_none (m : list (K * V)) k : map_get eqb m k = None <-> ~ In k (map fst m).
  Proof.
    unfold map_get. induction m as [|[a b] m IH]; simpl; [split; auto|]. destruct (eqb a k) eqn:E; simpl.
    - apply eqb_ok in E. split; [discriminate|]. intros H. exfalso. apply H. auto.
    - apply eqb_false in E. rewrite IH. tauto.
  Qed.
  Lemma get_perm (m m' : list (K * V)) k : one_entry_per_key m -> Permutation m m' -> map_get eqb m k = map_get eqb m' k.
  Proof.
    intros N P. assert (N' : one_entry_per_key m').
    { unfold one_entry_per_key. eapply Permutation_NoDup; [|exact N]. apply Permutation_map. exact P. }
    destruct (map_get eqb m k) as [v|] eqn:E.
    - symmetry. apply (get_iff m' k v N'). apply (get_iff m k v N) in E. eapply Permutation_in; eauto.
    - symmetry. apply get_none. apply get_none in E. intros H. apply E. eapply Permutation_in; [|exact H].
      apply Permutation_sym. apply Permutation_map. exact P.
  Qed.

  (** Collecting. *)
  Lemma collect_app (l : list (K * V)) : forall m, one_entry_per_key m ->
    one_entry_per_key (fold_left (fun m e => map_insert eqb m (fst e) (snd e)) l m).
  Proof. induction l as [|e l IH]; intros m N; simpl; auto. apply IH. apply insert_once. exact N. Qed.
  Lemma collect_once (l : list (K * V)) : one_entry_per_key (map_collect eqb l).
  Proof. apply collect_app. constructor. Qed.
  Lemma collect_in_ (l : list (K * V)) e : forall m,
    In e (fold_left (fun m e => map_insert eqb m (fst e) (snd e)) l m) -> In e l \/ In e m.
  Proof.
    induction l as [|x l IH]; intros m H; simpl in *; auto. apply IH in H. destruct H as [H|H]; auto.
    unfold map_insert in H. destruct H as [H|H].
    - left. left. rewrite <- H. destruct x; auto.
    - apply filter_In in H. tauto.
  Qed.
  Lemma collect_in (l : list (K * V)) e : In e (map_collect eqb l) -> In e l.
  Proof. intros H. apply collect_in_ in H. destruct H as [H|[]]. exact H. Qed.
  Lemma filter_all {X} (f : X -> bool) l : (forall x, In x l -> f x = true) -> filter f l = l.
  Proof.
    induction l as [|x l IH]; intros H; [reflexivity|]. simpl. rewrite H by (left; auto). f_equal. apply IH.
    intros y Hy. apply H. right. exact Hy.
  Qed.
  Lemma collect_perm_ (l : list (K * V)) : forall m, NoDup (map fst (l ++ m)) ->
    Permutation (l ++ m) (fold_left (fun m e => map_insert eqb m (fst e) (snd e)) l m).
  Proof.
    induction l as [|[k v] l IH]; intros m N; simpl in *; auto. inv N.
    assert (Ef : map_insert eqb m k v = (k, v) :: m).
    { unfold map_insert. f_equal. apply filter_all. intros [a b] Hin. simpl. apply negb_true_iff. apply eqb_false.
      intros ->. apply H1. rewrite map_app. apply in_or_app. right. change k with (fst (k, b)). apply in_map. exact Hin. }
    rewrite Ef. eapply perm_trans; [|apply IH].
    - apply Permutation_middle.
    - eapply Permutation_NoDup; [apply Permutation_map; apply Permutation_middle|]. simpl. constructor; auto.
  Qed.
  Lemma collect_perm (l : list (K * V)) : one_entry_per_key l -> Permutation l (map_collect eqb l).
  Proof.
    intros N. pose proof (collect_perm_ l []) as H. rewrite app_nil_r in H. apply H. exact N.
  Qed.
End MapFacts.

Lemma full_name_eqb_ok a b : full_name_eqb a b = true <-> a = b.
Proof.
  destruct a as [a1 a2], b as [b1 b2]. unfold full_name_eqb. simpl. rewrite andb_true_iff, !String.eqb_eq.
  split; [intros [-> ->]; reflexivity|intros H; inv H; auto].
Qed.

(** ** Histories *)
Lemma snoc_inv {X} (h h1 h2 : list X) e x : h ++ [e] = h1 ++ x :: h2 ->
  (h2 = [] /\ h1 = h /\ x = e) \/ (exists h2', h2 = h2' ++ [e] /\ h = h1 ++ x :: h2').
Proof.
  destruct h2 as [|y h2 _] using rev_ind; intros H.
  - left. apply app_inj_tail in H. destruct H. auto.
  - right. exists h2. rewrite app_comm_cons, app_assoc in H. apply app_inj_tail in H. destruct H as [-> ->]. auto.
Qed.

Section Hist.
  Context {A : Type}.
  Implicit Types (h : list (event A)).

  Lemma run_snoc h ev : run_events (h ++ [ev]) = run_event (run_events h) ev.
  Proof. unfold run_events. rewrite fold_left_app. reflexivity. Qed.
  Lemma regs_snoc h ev : regs (h ++ [ev]) = match ev with Reg _ _ _ => S (regs h) | Upd _ _ => regs h end.
  Proof. induction h as [|[ns nm a|i a] h IH]; destruct ev; simpl in *; congruence. Qed.
  Lemma regs_app h h' : regs (h ++ h') = regs h + regs h'.
  Proof. induction h as [|[ns nm a|i a] h IH]; simpl; auto. Qed.

  Lemma run_length h : length (array_list (run_events h)) = regs h.
  Proof.
    induction h as [|ev h IH] using rev_ind; [reflexivity|]. rewrite run_snoc, regs_snoc.
    destruct ev; simpl.
    - rewrite app_length. simpl. lia.
    - rewrite <- IH. clear. generalize (array_list (run_events h)). intros l. revert vid.
      induction l as [|x l IH]; intros [|i]; simpl; auto.
  Qed.
  Lemma run_once h : one_entry_per_key (name_to_id (run_events h)).
  Proof.
    induction h as [|ev h IH] using rev_ind; [constructor|]. rewrite run_snoc. destruct ev; simpl; auto.
    apply insert_once; auto. apply full_name_eqb_ok.
  Qed.

  Lemma latest_snoc h ev ns nm i : latest (h ++ [ev]) ns nm i <->
    match ev with
    | Reg ns' nm' _ => if full_name_eqb (ns', nm') (ns, nm) then i = regs h else latest h ns nm i
    | Upd _ _ => latest h ns nm i
    end.
  Proof.
    assert (Keep : (forall b, ev <> Reg ns nm b) -> (latest (h ++ [ev]) ns nm i <-> latest h ns nm i)).
    { intros Hne. split.
      - intros (h1 & a & h2 & E & R & N). apply snoc_inv in E. destruct E as [(-> & -> & E)|(h2' & -> & ->)].
        + exfalso. apply (Hne a). auto.
        + exists h1, a, h2'. split; auto. split; auto. intros b Hb. apply (N b). apply in_or_app. auto.
      - intros (h1 & a & h2 & -> & R & N). exists h1, a, (h2 ++ [ev]). split; [rewrite <- app_assoc; reflexivity|].
        split; auto. intros b Hb. apply in_app_or in Hb. destruct Hb as [Hb|[Hb|[]]]; [apply (N b Hb)|apply (Hne b Hb)]. }
    destruct ev as [ns' nm' a'|j a']; [|apply Keep; discriminate].
    destruct (full_name_eqb (ns', nm') (ns, nm)) eqn:E.
    - apply full_name_eqb_ok in E. inv E. split.
      + intros (h1 & a & h2 & E & R & N). apply snoc_inv in E. destruct E as [(-> & -> & E)|(h2' & -> & ->)]; auto.
        exfalso. apply (N a'). apply in_or_app. right. left. reflexivity.
      + intros ->. exists h, a', []. auto.
    - apply Keep. intros b Hb. inv Hb. rewrite (proj2 (full_name_eqb_ok (ns, nm) (ns, nm)) eq_refl) in E. discriminate.
  Qed.
  Lemma run_names h ns nm i : map_get full_name_eqb (name_to_id (run_events h)) (ns, nm) = Some i <-> latest h ns nm i.
  Proof.
    induction h as [|ev h IH] using rev_ind.
    - split; [discriminate|]. intros (h1 & a & h2 & E & _). destruct h1; discriminate.
    - rewrite run_snoc, latest_snoc. destruct ev as [ns' nm' a|j a]; simpl; [|exact IH].
      rewrite get_insert by apply full_name_eqb_ok. destruct (full_name_eqb (ns', nm') (ns, nm)); auto.
      rewrite run_length. split; congruence.
  Qed.

  Lemma holds_lt h i a : holds h i a -> i < regs h.
  Proof. intros (h1 & ns & nm & a0 & h2 & -> & R & _). rewrite regs_app. simpl. lia. Qed.
  Lemma holds_snoc h ev i a : holds (h ++ [ev]) i a <->
    match ev with
    | Reg _ _ b => if i =? regs h then a = b else holds h i a
    | Upd j b => if (j =? i) && (i <? regs h) then a = b else holds h i a
    end.
  Proof.
    destruct ev as [ns' nm' b|j b].
    - destruct (Nat.eqb_spec i (regs h)) as [->|Hne].
      + split.
        * intros (h1 & ns & nm & a0 & h2 & E & R & V). apply snoc_inv in E. destruct E as [(-> & -> & E)|(h2' & -> & ->)].
          -- inv E. destruct V as [[-> _]|(h3 & h4 & E & _)]; auto. destruct h3; discriminate.
          -- exfalso. rewrite regs_app in R. simpl in R. lia.
        * intros ->. exists h, ns', nm', b, []. split; [reflexivity|]. split; [reflexivity|]. left. split; [reflexivity|intros c []].
      + split.
        * intros (h1 & ns & nm & a0 & h2 & E & R & V). apply snoc_inv in E. destruct E as [(-> & -> & E)|(h2' & -> & ->)]; [lia|].
          exists h1, ns, nm, a0, h2'. split; auto. split; auto. destruct V as [[-> V]|(h3 & h4 & E & V)].
          -- left. split; auto. intros c Hc. apply (V c). apply in_or_app. auto.
          -- apply snoc_inv in E. destruct E as [(_ & _ & E)|(h4' & -> & ->)]; [discriminate|]. right. exists h3, h4'.
             split; auto. intros c Hc. apply (V c). apply in_or_app. auto.
        * intros (h1 & ns & nm & a0 & h2 & -> & R & V). exists h1, ns, nm, a0, (h2 ++ [Reg ns' nm' b]).
          split; [rewrite <- app_assoc; reflexivity|]. split; auto. destruct V as [[-> V]|(h3 & h4 & -> & V)].
          -- left. split; auto. intros c Hc. apply in_app_or in Hc. destruct Hc as [Hc|[Hc|[]]]; [apply (V c Hc)|discriminate].
          -- right. exists h3, (h4 ++ [Reg ns' nm' b]). split; [rewrite <- app_assoc; reflexivity|].
             intros c Hc. apply in_app_or in Hc. destruct Hc as [Hc|[Hc|[]]]; [apply (V c Hc)|discriminate].
    - destruct ((j =? i) && (i <? regs h)) eqn:E.
      + apply andb_prop in E. destruct E as [E1 E2]. apply Nat.eqb_eq in E1. apply Nat.ltb_lt in E2. subst j. split.
        * intros (h1 & ns & nm & a0 & h2 & E & R & V). apply snoc_inv in E. destruct E as [(-> & -> & E)|(h2' & -> & ->)]; [discriminate|].
          destruct V as [[-> V]|(h3 & h4 & E & V)].
          -- exfalso. apply (V b). apply in_or_app. right. left. reflexivity.
          -- apply snoc_inv in E. destruct E as [(-> & _ & E)|(h4' & -> & ->)]; [inv E; auto|].
             exfalso. apply (V b). apply in_or_app. right. left. reflexivity.
        * intros ->. assert (Hr : exists h1 ns nm a0 h2, h = h1 ++ Reg ns nm a0 :: h2 /\ regs h1 = i).
          { clear - E2. induction h as [|ev h IH] using rev_ind; [simpl in E2; lia|]. rewrite regs_snoc in E2.
            destruct ev as [ns nm c|k c].
            - destruct (Nat.eq_dec i (regs h)) as [->|Hne].
              + exists h, ns, nm, c, []. auto.
              + destruct IH as (h1 & ns' & nm' & a0 & h2 & -> & R); [lia|]. exists h1, ns', nm', a0, (h2 ++ [Reg ns nm c]).
                split; auto. rewrite <- app_assoc. reflexivity.
            - destruct (IH E2) as (h1 & ns' & nm' & a0 & h2 & -> & R). exists h1, ns', nm', a0, (h2 ++ [Upd k c]).
              split; auto. rewrite <- app_assoc. reflexivity. }
          destruct Hr as (h1 & ns & nm & a0 & h2 & -> & R). exists h1, ns, nm, a0, (h2 ++ [Upd i b]).
          split; [rewrite <- app_assoc; reflexivity|]. split; auto. right. exists h2, []. split; auto.
      + assert (Hne : j <> i \/ regs h <= i).
        { apply andb_false_iff in E. destruct E as [E|E]; [left; apply Nat.eqb_neq; exact E|right; apply Nat.ltb_ge; exact E]. }
        split.
        * intros (h1 & ns & nm & a0 & h2 & E' & R & V). apply snoc_inv in E'. destruct E' as [(-> & -> & E')|(h2' & -> & ->)]; [discriminate|].
          assert (Hji : j <> i) by (rewrite regs_app in Hne; simpl in Hne; lia).
          exists h1, ns, nm, a0, h2'. split; auto. split; auto. destruct V as [[-> V]|(h3 & h4 & E' & V)].
          -- left. split; auto. intros c Hc. apply (V c). apply in_or_app. auto.
          -- apply snoc_inv in E'. destruct E' as [(_ & _ & E')|(h4' & -> & ->)]; [congruence|]. right. exists h3, h4'.
             split; auto. intros c Hc. apply (V c). apply in_or_app. auto.
        * intros Hh. pose proof (holds_lt _ _ _ Hh) as Hlt. assert (Hji : j <> i) by lia.
          destruct Hh as (h1 & ns & nm & a0 & h2 & -> & R & V). exists h1, ns, nm, a0, (h2 ++ [Upd j b]).
          split; [rewrite <- app_assoc; reflexivity|]. split; auto. destruct V as [[-> V]|(h3 & h4 & -> & V)].
          -- left. split; auto. intros c Hc. apply in_app_or in Hc. destruct Hc as [Hc|[Hc|[]]]; [apply (V c Hc)|congruence].
          -- right. exists h3, (h4 ++ [Upd j b]). split; [rewrite <- app_assoc; reflexivity|].
             intros c Hc. apply in_app_or in Hc. destruct Hc as [Hc|[Hc|[]]]; [apply (V c Hc)|congruence].
  Qed.

  Lemma nth_update_nth {X} (f : X -> X) : forall l i j, nth_error (update_nth l i f) j =
    if i =? j then option_map f (nth_error l j) else nth_error l j.
  Proof.
    induction l as [|x l IH]; intros i j.
    - destruct i, j; simpl; try reflexivity. destruct (i =? j); reflexivity.
    - destruct i, j; simpl; try reflexivity. apply IH.
  Qed.
  Lemma run_ids h i a : get_array_by_id (run_events h) i = Some a <-> holds h i a.
  Proof.
    unfold get_array_by_id. induction h as [|ev h IH] using rev_ind.
    - split; [destruct i; discriminate|]. intros (h1 & ns & nm & a0 & h2 & E & _). destruct h1; discriminate.
    - rewrite run_snoc, holds_snoc. destruct ev as [ns nm b|j b]; simpl.
      + destruct (Nat.eqb_spec i (regs h)) as [->|Hne].
        * rewrite <- run_length. rewrite nth_error_app2, Nat.sub_diag by lia. simpl. split; congruence.
        * destruct (Nat.lt_ge_cases i (regs h)) as [Hlt|Hge].
          -- rewrite nth_error_app1 by (rewrite run_length; lia). exact IH.
          -- split.
             ++ intros E. exfalso. assert (i < length (array_list (run_events h) ++ [b])) by (apply nth_error_Some; congruence).
                rewrite app_length, run_length in H. simpl in H. lia.
             ++ intros Hh. apply holds_lt in Hh. lia.
      + rewrite nth_update_nth. destruct (Nat.eqb_spec j i) as [->|Hne]; simpl; [|exact IH].
        destruct (Nat.ltb_spec i (regs h)) as [Hlt|Hge].
        * destruct (nth_error (array_list (run_events h)) i) eqn:E; simpl; [split; congruence|].
          exfalso. apply nth_error_None in E. rewrite run_length in E. lia.
        * rewrite (proj2 (nth_error_None (array_list (run_events h)) i)) by (rewrite run_length; lia). simpl. rewrite <- IH.
          rewrite (proj2 (nth_error_None (array_list (run_events h)) i)) by (rewrite run_length; lia). reflexivity.
  Qed.

  Lemma latest_registered h ns nm i : latest h ns nm i -> exists a, holds h i a.
  Proof.
    intros (h1 & a & h2 & -> & R & N).
    assert (Hl : i < length (array_list (run_events (h1 ++ Reg ns nm a :: h2)))).
    { rewrite run_length, regs_app. simpl. lia. }
    apply nth_error_Some in Hl. destruct (nth_error _ i) as [b|] eqn:E; [|congruence]. exists b. apply run_ids. exact E.
  Qed.
  Lemma run_by_name h ns nm o : get_array_by_name (run_events h) ns nm = Some o <->
    exists i a, latest h ns nm i /\ holds h i a /\ o = Some a.
  Proof.
    unfold get_array_by_name. split.
    - destruct (map_get _ _ _) as [i|] eqn:E; [|discriminate]. simpl. intros Eo. inv Eo. apply run_names in E.
      destruct (latest_registered _ _ _ _ E) as (a & Ha). exists i, a. split; auto. split; auto. apply run_ids in Ha. exact Ha.
    - intros (i & a & Hl & Ha & ->). apply run_names in Hl. rewrite Hl. simpl. apply run_ids in Ha. unfold get_array_by_id in Ha.
      rewrite Ha. reflexivity.
  Qed.

  Lemma run_entries h ns nm i : In ((ns, nm), i) (name_to_id (run_events h)) <-> latest h ns nm i.
  Proof. rewrite <- run_names. symmetry. apply get_iff; [apply full_name_eqb_ok|apply run_once]. Qed.
  Lemma run_current_ids h ns i : In i (current_var_ids (run_events h) ns) <-> exists nm, latest h ns nm i.
  Proof.
    unfold current_var_ids, in_namespace. rewrite in_map_iff. split.
    - intros ([[ns' nm] j] & E & Hin). simpl in E. subst j. apply filter_In in Hin. destruct Hin as [Hin E]. simpl in E.
      apply String.eqb_eq in E. subst ns'. exists nm. apply run_entries. exact Hin.
    - intros (nm & H). exists ((ns, nm), i). split; auto. apply filter_In. split; [apply run_entries; auto|]. simpl. apply String.eqb_refl.
  Qed.
  Lemma run_current_names h ns nm : In nm (current_var_names (run_events h) ns) <-> exists i, registered_as h i ns nm.
  Proof.
    assert (L : (exists i, registered_as h i ns nm) <-> exists i, latest h ns nm i).
    { split.
      - intros (i & h1 & a & h2 & -> & _). clear. revert h1 a. induction h2 as [|ev h2 IH] using rev_ind; intros h1 a.
        + exists (regs h1), h1, a, []. auto.
        + rewrite app_comm_cons, app_assoc. destruct (IH h1 a) as (i & Hi).
          assert (D : (exists b, ev = Reg ns nm b) \/ forall b, ev <> Reg ns nm b).
          { destruct ev as [ns' nm' b|j b]; [|right; discriminate].
            destruct (string_dec ns' ns), (string_dec nm' nm); subst; eauto; right; congruence. }
          destruct D as [(b & ->)|Hne].
          * eexists. apply latest_snoc. rewrite (proj2 (full_name_eqb_ok (ns, nm) (ns, nm)) eq_refl). reflexivity.
          * exists i. apply latest_snoc. destruct ev as [ns' nm' b|j b]; auto.
            destruct (full_name_eqb (ns', nm') (ns, nm)) eqn:E; auto. apply full_name_eqb_ok in E. inv E. exfalso. eapply Hne; eauto.
      - intros (i & h1 & a & h2 & -> & R & _). exists i, h1, a, h2. auto. }
    rewrite L. unfold current_var_names, in_namespace. rewrite in_map_iff. split.
    - intros ([[ns' nm'] j] & E & Hin). simpl in E. subst nm'. apply filter_In in Hin. destruct Hin as [Hin E]. simpl in E.
      apply String.eqb_eq in E. subst ns'. exists j. apply run_entries. exact Hin.
    - intros (i & H). exists ((ns, nm), i). split; auto. apply filter_In. split; [apply run_entries; auto|]. simpl. apply String.eqb_refl.
  Qed.
  Lemma latest_fun h ns nm i j : latest h ns nm i -> latest h ns nm j -> i = j.
  Proof. intros H1 H2. apply run_names in H1. apply run_names in H2. congruence. Qed.
  Lemma run_ids_once h ns : NoDup (current_var_ids (run_events h) ns) /\ NoDup (current_var_names (run_events h) ns).
  Proof.
    assert (Inj : forall ns nm ns' nm' i, latest h ns nm i -> latest h ns' nm' i -> ns = ns' /\ nm = nm').
    { intros n1 m1 n2 m2 i (h1 & a & h2 & E & R & _) (h1' & a' & h2' & E' & R' & _). rewrite E in E'. clear E h.
      revert h1' i R R' E'. induction h1 as [|[ns1 nm1 b1|j1 b1] h1 IH]; intros [|[ns2 nm2 b2|j2 b2] h1'] i R R' E; simpl in *;
        inv E; try lia; auto.
      - eapply (IH h1' (regs h1')); eauto; lia.
      - eapply (IH h1' (regs h1')); eauto. }
    pose proof (run_once h) as N. unfold one_entry_per_key in N.
    assert (Hall : forall e, In e (name_to_id (run_events h)) -> latest h (fst (fst e)) (snd (fst e)) (snd e)).
    { intros [[a b] c] H. apply run_entries. exact H. }
    unfold current_var_ids, current_var_names, in_namespace. revert N Hall. generalize (name_to_id (run_events h)) as m.
    induction m as [|[[a b] c] m IH]; intros N Hall; simpl; [split; constructor|]. simpl in N. inv N.
    destruct IH as [I1 I2]; auto. { intros e He. apply Hall. right. exact He. }
    destruct (String.eqb_spec a ns) as [->|]; auto. simpl. split; constructor; auto.
    - intros Hin. apply in_map_iff in Hin. destruct Hin as ([[a' b'] c'] & E & Hin). simpl in E. subst c'. apply filter_In in Hin.
      destruct Hin as [Hin _]. destruct (Inj ns b a' b' c) as [-> ->].
      + apply (Hall ((ns, b), c)). left. reflexivity.
      + apply (Hall ((a', b'), c)). right. exact Hin.
      + apply H1. change (a', b') with (fst ((a', b'), c)). apply in_map. exact Hin.
    - intros Hin. apply in_map_iff in Hin. destruct Hin as ([[a' b'] c'] & E & Hin). simpl in E. subst b'. apply filter_In in Hin.
      destruct Hin as [Hin E]. simpl in E. apply String.eqb_eq in E. subst a'.
      apply H1. change (ns, b) with (fst ((ns, b), c')). apply in_map. exact Hin.
  Qed.
  Lemma run_iter h ns nm o : In (nm, o) (ns_iter (run_events h) ns) <->
    exists i a, latest h ns nm i /\ holds h i a /\ o = Some a.
  Proof.
    unfold ns_iter, in_namespace. rewrite in_map_iff. split.
    - intros ([[ns' nm'] j] & E & Hin). simpl in E. inv E. apply filter_In in Hin. destruct Hin as [Hin E]. simpl in E.
      apply String.eqb_eq in E. subst ns'. apply run_entries in Hin.
      destruct (latest_registered _ _ _ _ Hin) as (a & Ha). exists j, a. split; auto. split; auto.
      rewrite (proj2 (run_by_name h ns nm (Some a))); auto. exists j, a. auto.
    - intros (i & a & Hl & Ha & ->). exists ((ns, nm), i). split.
      + simpl. rewrite (proj2 (run_by_name h ns nm (Some a))); auto. exists i, a. auto.
      + apply filter_In. split; [apply run_entries; auto|]. simpl. apply String.eqb_refl.
  Qed.
End Hist.

(** ** The separator encoding *)
Local Open Scope string_scope.
Lemma split_no_sep s : no_sep s -> split_sep s = [s].
Proof.
  induction s as [|c s IH]; intros H; [reflexivity|]. destruct H as [Hc Hs]. simpl.
  destruct (Ascii.eqb_spec c SEP); [congruence|]. rewrite (IH Hs). reflexivity.
Qed.
Lemma split_app a b : no_sep a -> split_sep (a ++ String SEP b) = a :: split_sep b.
Proof.
  induction a as [|c a IH]; intros H; simpl; [reflexivity|]. destruct H as [Hc Ha].
  destruct (Ascii.eqb_spec c SEP); [congruence|]. rewrite (IH Ha). reflexivity.
Qed.
Lemma split_ne s : exists p ps, split_sep s = p :: ps.
Proof.
  destruct s as [|c s]; simpl; eauto. destruct (Ascii.eqb c SEP); eauto.
  destruct (split_sep s); eauto.
Qed.
Lemma split_two a b : exists p q ps, split_sep (a ++ String SEP b) = p :: q :: ps.
Proof.
  induction a as [|c a IH]; simpl.
  - destruct (split_ne b) as (q & qs & ->). eauto.
  - destruct (Ascii.eqb c SEP).
    + destruct IH as (p & q & ps & ->). eauto.
    + destruct IH as (p & q & ps & ->). eauto.
Qed.
Lemma load_entry_ok fn i : no_sep (fst fn) -> no_sep (snd fn) -> load_entry (fn_to_string fn, i) = Some (fn, i).
Proof.
  intros H1 H2. unfold load_entry, fn_to_string. simpl. rewrite split_app by auto. rewrite split_no_sep by auto. destruct fn; reflexivity.
Qed.
Lemma load_entry_total fn i : exists fn', load_entry (fn_to_string fn, i) = Some (fn', i).
Proof. unfold load_entry, fn_to_string. simpl. destruct (split_two (fst fn) (snd fn)) as (p & q & ps & ->). eauto. Qed.
Lemma fn_to_string_inj a b : no_sep (fst a) -> no_sep (snd a) -> no_sep (fst b) -> no_sep (snd b) ->
  fn_to_string a = fn_to_string b -> a = b.
Proof.
  intros A1 A2 B1 B2 E. pose proof (load_entry_ok a 0 A1 A2) as H1. pose proof (load_entry_ok b 0 B1 B2) as H2.
  rewrite E in H1. congruence.
Qed.
Lemma load_entries_map (l : list (full_name * nat)) :
  (forall e, In e l -> no_sep (fst (fst e)) /\ no_sep (snd (fst e))) ->
  load_entries (map (fun e => (fn_to_string (fst e), snd e)) l) = Some l.
Proof.
  induction l as [|e l IH]; intros H; [reflexivity|]. simpl. destruct (H e (or_introl eq_refl)).
  rewrite load_entry_ok by auto. rewrite IH by (intros; apply H; right; auto). destruct e; reflexivity.
Qed.
Lemma load_entries_perm l l' r : Permutation l l' -> load_entries l = Some r ->
  exists r', load_entries l' = Some r' /\ Permutation r r'.
Proof.
  intros P. revert r. induction P; intros r H.
  - inv H. exists []. auto.
  - simpl in H. destruct (load_entry x) as [y|] eqn:E; [|discriminate]. destruct (load_entries l) as [ys|]; [|discriminate]. inv H.
    destruct (IHP ys eq_refl) as (r' & E' & P'). exists (y :: r'). simpl. rewrite E, E'. auto.
  - simpl in H. destruct (load_entry y) as [y'|] eqn:E; [|discriminate]. destruct (load_entry x) as [x'|] eqn:E'; [|discriminate].
    destruct (load_entries l) as [ys|] eqn:E2; [|discriminate]. inv H. exists (x' :: y' :: ys). simpl. rewrite E, E', E2.
    split; auto. constructor.
  - destruct (IHP1 r H) as (r1 & E1 & P1'). destruct (IHP2 r1 E1) as (r2 & E2 & P2'). exists r2. split; auto. eapply perm_trans; eauto.
Qed.
Lemma load_entries_total l : (forall e, In e l -> exists x, load_entry e = Some x) -> exists r, load_entries l = Some r.
Proof.
  induction l as [|e l IH]; intros H; [simpl; eauto|]. simpl. destruct (H e (or_introl eq_refl)) as (x & ->).
  destruct IH as (r & ->); [intros; apply H; right; auto|]. eauto.
Qed.
Lemma load_entries_in l r x : load_entries l = Some r -> In x r -> exists e, In e l /\ load_entry e = Some x.
Proof.
  revert r. induction l as [|e l IH]; intros r H Hin; simpl in H; [inv H; contradiction|].
  destruct (load_entry e) as [y|] eqn:E; [|discriminate]. destruct (load_entries l) as [ys|]; [|discriminate]. inv H.
  destruct Hin as [<-|Hin]; [exists e; split; auto; left; auto|]. destruct (IH ys eq_refl Hin) as (e' & A & B). exists e'. split; auto. right; auto.
Qed.

Section FileProofs.
  Context {A B : Type} (storable : A -> Prop) (ser : document A -> list B) (parse : list B -> option (document A)).
  Hypothesis C : codec storable ser parse.

  Lemma string_eqb_ok a b : String.eqb a b = true <-> a = b.
  Proof. apply String.eqb_eq. Qed.

  Lemma prepare_once (e : env A) : one_entry_per_key (d_names (prepare_for_serde e)).
  Proof. apply collect_once. apply string_eqb_ok. Qed.

  Lemma map_names_once (m : list (full_name * nat)) : one_entry_per_key m ->
    (forall e, In e m -> no_sep (fst (fst e)) /\ no_sep (snd (fst e))) ->
    one_entry_per_key (map (fun e => (fn_to_string (fst e), snd e)) m).
  Proof.
    unfold one_entry_per_key. induction m as [|e m IH]; intros N H; simpl; [constructor|]. simpl in N. inv N.
    constructor; [|apply IH; auto; intros; apply H; right; auto]. intros Hin. apply H2. rewrite map_map in Hin. apply in_map_iff in Hin.
    destruct Hin as (e' & E & Hin). simpl in E. destruct (H e (or_introl eq_refl)), (H e' (or_intror Hin)).
    apply fn_to_string_inj in E; auto. rewrite <- E. apply in_map. exact Hin.
  Qed.

  Lemma load_saved k (fs : files) path (e : env A) : length (ser (prepare_for_serde e)) <= k ->
    snd (save ser (Bytes k) fs path e) path = Some (ser (prepare_for_serde e)).
  Proof.
    intros H. simpl. unfold write_file. rewrite String.eqb_refl. rewrite firstn_all2 by lia. reflexivity.
  Qed.

  Lemma round_trip k fs path (e : env A) :
    Forall storable (array_list e) -> one_entry_per_key (name_to_id e) ->
    (forall ns nm i, In ((ns, nm), i) (name_to_id e) -> no_sep ns /\ no_sep nm) ->
    fst (save ser (Bytes k) fs path e) = true ->
    exists e', load parse (snd (save ser (Bytes k) fs path e)) path = Done e' /\ same_env e e' /\
      one_entry_per_key (name_to_id e').
  Proof.
    intros HS N HN Hk. assert (Hk' : length (ser (prepare_for_serde e)) <= k).
    { simpl in Hk. apply Nat.leb_le. exact Hk. }
    unfold load. rewrite load_saved by auto.
    destruct (codec_ok _ _ _ C (prepare_for_serde e) HS (prepare_once e)) as (d' & -> & Ha & Hp).
    assert (HN' : forall x, In x (name_to_id e) -> no_sep (fst (fst x)) /\ no_sep (snd (fst x))).
    { intros [[a b] i] Hin. apply (HN a b i Hin). }
    pose proof (collect_perm String.eqb string_eqb_ok _ (map_names_once (name_to_id e) N HN')) as P.
    assert (P2 : Permutation (map (fun e => (fn_to_string (fst e), snd e)) (name_to_id e)) (d_names d')).
    { eapply perm_trans; [exact P|]. exact Hp. }
    destruct (load_entries_perm _ _ _ P2 (load_entries_map _ HN')) as (r & Hr & Pr).
    unfold load_internal. rewrite Hr. simpl.
    assert (Nr : one_entry_per_key r).
    { unfold one_entry_per_key. eapply Permutation_NoDup; [apply Permutation_map; exact Pr|exact N]. }
    pose proof (collect_perm full_name_eqb full_name_eqb_ok r Nr) as P3.
    eexists. split; [reflexivity|]. split; [|apply collect_once; apply full_name_eqb_ok].
    split; [exact Ha|]. simpl. assert (PP : Permutation (name_to_id e) (map_collect full_name_eqb r)) by (eapply perm_trans; eauto).
    split; auto. intros ns nm. unfold get_array_by_name. simpl. rewrite Ha.
    rewrite <- (get_perm full_name_eqb full_name_eqb_ok _ _ (ns, nm) N PP). reflexivity.
  Qed.

  Lemma load_any k fs path (e : env A) :
    Forall storable (array_list e) -> fst (save ser (Bytes k) fs path e) = true ->
    exists e', load parse (snd (save ser (Bytes k) fs path e)) path = Done e' /\ array_list e' = array_list e /\
      forall ns nm i, In ((ns, nm), i) (name_to_id e') ->
        exists ns0 nm0 rest, In ((ns0, nm0), i) (name_to_id e) /\ split_sep (fn_to_string (ns0, nm0)) = ns :: nm :: rest.
  Proof.
    intros HS Hk. assert (Hk' : length (ser (prepare_for_serde e)) <= k).
    { simpl in Hk. apply Nat.leb_le. exact Hk. }
    unfold load. rewrite load_saved by auto.
    destruct (codec_ok _ _ _ C (prepare_for_serde e) HS (prepare_once e)) as (d' & -> & Ha & Hp).
    assert (Hin : forall x, In x (d_names d') -> exists fn, In (fn, snd x) (name_to_id e) /\ fst x = fn_to_string fn).
    { intros x Hx. apply (Permutation_in x (Permutation_sym Hp)) in Hx. apply collect_in in Hx. apply in_map_iff in Hx.
      destruct Hx as ([fn i] & <- & Hx). exists fn. auto. }
    destruct (load_entries_total (d_names d')) as (r & Hr).
    { intros x Hx. destruct (Hin x Hx) as (fn & _ & E). destruct x as [s i]. simpl in E. subst s.
      destruct (load_entry_total fn i) as (fn' & ->). eauto. }
    unfold load_internal. rewrite Hr. simpl. eexists. split; [reflexivity|]. split; auto. simpl.
    intros ns nm i Hi. apply collect_in in Hi. destruct (load_entries_in _ _ _ Hr Hi) as ([s j] & Hs & E).
    destruct (Hin _ Hs) as ([ns0 nm0] & H0 & E0). simpl in E0, H0. subst s. unfold load_entry in E. simpl in E.
    destruct (split_sep (fn_to_string (ns0, nm0))) as [|p [|q rest]] eqn:Es; try discriminate. inv E. exists ns0, nm0, rest. auto.
  Qed.

  Lemma save_unstorable k fs path (e : env A) a : In a (array_list e) -> ~ storable a ->
    load parse (snd (save ser (Bytes k) fs path e)) path = Failed.
  Proof.
    intros Hin Hs. unfold load. simpl. unfold write_file. rewrite String.eqb_refl.
    destruct (Nat.lt_ge_cases k (length (ser (prepare_for_serde e)))) as [H|H].
    - rewrite (codec_prefix _ _ _ C) by exact H. reflexivity.
    - rewrite firstn_all2 by lia. rewrite (codec_unstorable _ _ _ C _ a) by (simpl; auto). reflexivity.
  Qed.

  Lemma crash k fs path (e : env A) : k < length (ser (prepare_for_serde e)) ->
    fst (save ser (Bytes k) fs path e) = false /\
    load parse (snd (save ser (Bytes k) fs path e)) path = Failed /\
    (forall p, p <> path -> snd (save ser (Bytes k) fs path e) p = fs p).
  Proof.
    intros H. split; [|split].
    - simpl. apply Nat.leb_gt. exact H.
    - unfold load. simpl. unfold write_file. rewrite String.eqb_refl. rewrite (codec_prefix _ _ _ C) by exact H. reflexivity.
    - intros p Hp. simpl. unfold write_file. destruct (String.eqb_spec p path); congruence.
  Qed.
End FileProofs.

(** ** Variable tensors *)
Section VarTensors.
  Context {O : Type} (var_op : O).
  Lemma var_tensors_spec : forall ents (c c' : context O) l, ctx_ok c -> var_tensors var_op c ents = Some (c', l) ->
    ctx_ok c' /\ (exists new, c_graph c' = (c_graph c ++ new)%list) /\
    Forall2 (fun ent r => fst r = snd (fst ent) /\
       exists n, nth_error (c_graph c') (snd r) = Some n /\ n_var n = Some (snd ent) /\ n_inputs n = []) ents l.
  Proof.
    induction ents as [|ent ents IH]; intros c c' l Hok H; simpl in H.
    - inv H. split; auto. split; [exists []; rewrite app_nil_r; reflexivity|constructor].
    - destruct (variable_by_id var_op c (snd ent)) as [[c1 t]|] eqn:E; [|discriminate].
      destruct (var_tensors var_op c1 ents) as [[c2 l']|] eqn:E2; [|discriminate]. inv H.
      assert (Hok1 : ctx_ok c1).
      { apply (run_cmd_ok var_op var_op var_op (fun _ => var_op) c (CVariable (snd ent)) c1 (Some t)); auto. simpl. rewrite E. reflexivity. }
      destruct (IH _ _ _ Hok1 E2) as (Hok2 & (new & Enew) & F).
      assert (X : exists new1, c_graph c1 = (c_graph c ++ new1)%list).
      { apply (run_cmd_extends var_op var_op var_op (fun _ => var_op) c (CVariable (snd ent)) c1 (Some t)); simpl; auto. rewrite E. reflexivity. }
      destruct X as (new1 & E1). split; auto. split.
      + exists (new1 ++ new)%list. rewrite Enew, E1, app_assoc. reflexivity.
      + constructor; auto. simpl. split; auto.
        destruct (variable_tensor var_op var_op var_op (fun _ => var_op) c (snd ent) c1 t Hok E) as (n & Hn & Hv & Hi). exists n. split; auto.
        rewrite Enew. rewrite nth_error_app1; auto. apply nth_error_Some. congruence.
  Qed.
End VarTensors.
