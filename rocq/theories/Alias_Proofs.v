(** Proofs about borrowed and aliased variables. *)
From Coq Require Import String List Arith ZArith Bool Relations Lia Reals.
Import ListNotations.
From Verif Require Import Graph_Model Eval_Model Eval_Spec Array_Model Array_Proofs Arith_Model Opt_Model Alias_Model Alias_Spec.

Lemma set_at_same {A} (l : list A) : forall k x, nth_error l k = Some x -> set_at k x l = l.
Proof.
  induction l as [|y l IH]; intros [|k] x H; simpl in *; try discriminate.
  - injection H as ->; reflexivity.
  - f_equal; apply IH, H.
Qed.

(** Taking and dropping a guard leaves the flag as it was. *)
Lemma touch_spec w vid fs f : nth_error fs vid = Some f ->
  touch w vid fs = if conflict w f then None else Some fs.
Proof.
  intros H. unfold touch. rewrite H. destruct f as [|n|], w; simpl; try reflexivity;
    f_equal; apply set_at_same; rewrite H; destruct n || idtac; reflexivity.
Qed.

Section Sim.
  Context {O V E : Type}.
  Variable shape_of : V -> list nat.
  Variable compute : O -> list (opin V) -> cout V E.
  Variable debug : bool.
  Variable g : graph O.
  Variable feeds : list (ph_key * V).
  Variable fs : list flag.

  (** Reading the input is possible. *)
  Definition allowed (inc : incoming) : Prop :=
    forall vid, variable_operand g inc vid -> exists f, nth_error fs vid = Some f /\ conflict (in_mut inc) f = false.

  Lemma bfetch_cases s env inc :
    (bfetch shape_of g feeds s env fs inc = (@FPanic V E, fs) /\ ~ allowed inc) \/
    (bfetch shape_of g feeds s env fs inc = (fetch shape_of g feeds s env inc, fs) /\ allowed inc).
  Proof.
    unfold bfetch. destruct (nth_error g (in_id inc)) as [n|] eqn:En.
    - destruct (n_ph n) as [name|] eqn:Ep.
      + right. split; [reflexivity|]. intros vid (m & Hm & Hp & _). congruence.
      + destruct (n_var n) as [vid|] eqn:Ev.
        * destruct (nth_error fs vid) as [f|] eqn:Ef.
          -- rewrite (touch_spec _ _ _ _ Ef). destruct (conflict (in_mut inc) f) eqn:Ec.
             ++ left. split; [reflexivity|]. intros Ha.
                destruct (Ha vid) as (f' & Hf & Hc); [exists n; auto|]. congruence.
             ++ right. split; [reflexivity|]. intros vid' (m & Hm & Hp & Hv). exists f.
                assert (vid' = vid) by congruence. subst. auto.
          -- left. unfold touch. rewrite Ef. split; [reflexivity|]. intros Ha.
             destruct (Ha vid) as (f' & Hf & Hc); [exists n; auto|]. congruence.
        * right. split; [reflexivity|]. intros vid (m & Hm & Hp & Hv). congruence.
    - right. split; [unfold fetch; rewrite En; reflexivity|]. intros vid (m & Hm & _). congruence.
  Qed.

  Lemma bcollect_cases s env ins :
    (bcollect shape_of g feeds s env fs ins = (@XPanic V E, fs) /\ ~ Forall allowed ins) \/
    (bcollect shape_of g feeds s env fs ins = (collect shape_of g feeds s env ins, fs) /\
     (forall l, collect shape_of g feeds s env ins = XOk l -> Forall allowed ins)).
  Proof.
    induction ins as [|i ins IH]; simpl.
    - right. split; [reflexivity|]. constructor.
    - destruct (bfetch_cases s env i) as [[-> Hn] | [-> Ha]].
      + left. split; [reflexivity|]. intros HF. inversion HF; auto.
      + destruct (fetch shape_of g feeds s env i) as [|e|x].
        * right. split; [reflexivity|]. discriminate.
        * right. split; [reflexivity|]. discriminate.
        * destruct IH as [[-> Hn] | [-> HF]].
          -- left. split; [reflexivity|]. intros H. inversion H; auto.
          -- right. destruct (collect shape_of g feeds s env ins) as [|e|l]; (split; [reflexivity|]); try discriminate.
             intros _ _. constructor; [assumption|]. apply (HF l eq_refl).
  Qed.

  (** The executed operations had no conflicting operand. *)
  Definition fine (log : list (@event V)) : Prop :=
    forall id xs n, In (Ran id xs) log -> nth_error g id = Some n -> Forall allowed (n_inputs n).
  (** Some tensor the evaluation depends on has a conflicting operand. *)
  Definition blocked (targets : list nat) : Prop :=
    exists i n, needed g targets i /\ nth_error g i = Some n /\ ~ Forall allowed (n_inputs n).

  Definition reached (targets : list nat) (st : @state V E) : Prop :=
    forall id b, In (id, b) (st_stack st) -> exists t, In t targets /\ depends g t id.

  Lemma push_reached targets id n s : (exists t, In t targets /\ depends g t id) -> nth_error g id = Some n ->
    forall ins stack stack', incl ins (n_inputs n) ->
      (forall i b, In (i, b) stack -> exists t, In t targets /\ depends g t i) ->
      push_children (V := V) (E := E) g s ins stack = Ok stack' ->
      forall i b, In (i, b) stack' -> exists t, In t targets /\ depends g t i.
  Proof.
    intros (t & Ht & Hd) Hn. induction ins as [|i ins IH]; intros stack stack' Hi Hs Hp; simpl in Hp.
    - injection Hp as <-. exact Hs.
    - destruct (nth_error g (in_id i)) as [c|] eqn:Ec; [|discriminate].
      apply IH with (3 := Hp); [intros x Hx; apply Hi; right; exact Hx|].
      destruct (would_not_visit c (in_id i) s); [exact Hs|].
      intros j b [Heq | Hj]; [|eapply Hs; exact Hj]. injection Heq as <- <-.
      exists t. split; [exact Ht|]. eapply rt_trans; [exact Hd|]. apply rt_step.
      exists n, i. split; [exact Hn|]. split; [apply Hi; left; reflexivity | reflexivity].
  Qed.

  (** One iteration: a panic because of a conflict, or as without guards. *)
  Lemma bstep_cases targets st : reached targets st -> fine (st_log st) ->
    (bstep shape_of compute debug g feeds st fs = Panic /\ blocked targets) \/
    match step shape_of compute debug g feeds st with
    | Ok None => bstep shape_of compute debug g feeds st fs = Ok None
    | Ok (Some st') => bstep shape_of compute debug g feeds st fs = Ok (Some (st', fs)) /\
                       reached targets st' /\ fine (st_log st')
    | Panic => bstep shape_of compute debug g feeds st fs = Panic
    | OutOfFuel => bstep shape_of compute debug g feeds st fs = OutOfFuel
    end.
  Proof.
    intros Hr Hf. unfold bstep, step. destruct (st_stack st) as [|[id visit_] rest] eqn:Es; [right; reflexivity|].
    assert (Hrest : forall i b, In (i, b) rest -> exists t, In t targets /\ depends g t i).
    { intros i b Hi. apply (Hr i b). rewrite Es. right. exact Hi. }
    assert (Hid : exists t, In t targets /\ depends g t id).
    { apply (Hr id visit_). rewrite Es. left. reflexivity. }
    destruct (nth_error g id) as [n|] eqn:En; [|right; reflexivity].
    destruct visit_.
    - destruct (would_not_visit n id (st_store st)) eqn:Ew.
      + right. split; [reflexivity|]. split; [exact Hrest | exact Hf].
      + unfold bvisit, visit. destruct (bcollect_cases (st_store st) (st_env st) (n_inputs n)) as [[-> Hn] | [-> Ha]].
        * left. split; [reflexivity|]. exists id, n. repeat split; [|exact Hid|exact En|exact Hn].
          exists n. unfold would_not_visit, is_placeholder, is_variable in Ew.
          destruct (n_ph n) eqn:Ep; [discriminate|]. destruct (n_var n) eqn:Ev; [discriminate|].
          unfold op_node. auto.
        * right. destruct (collect shape_of g feeds (st_store st) (st_env st) (n_inputs n)) as [|e|xs] eqn:Ec.
          -- reflexivity.
          -- split; [reflexivity|]. split; [exact Hrest|]. intros i xs' m [H | H]; [discriminate|].
             apply (Hf i xs' m H).
          -- destruct (compute (n_op n) xs) as [|ws ys status]; [reflexivity|].
             destruct (debug && match ys with [] => true | _ => false end); [reflexivity|].
             split; [reflexivity|]. split; [exact Hrest|].
             intros i xs' m [H | H] Hm.
             ++ injection H as <- <-. assert (m = n) by congruence. subst m. apply (Ha xs eq_refl).
             ++ apply (Hf i xs' m H Hm).
    - right. destruct (push_children g (st_store st) (n_inputs n) ((id, true) :: rest)) as [stack'| |] eqn:Ep;
        [|reflexivity|reflexivity].
      split; [reflexivity|]. split; [|exact Hf].
      unfold reached. simpl. eapply push_reached with (5 := Ep); [exact Hid | exact En | apply incl_refl |].
      intros i b [H | H]; [injection H as <- <-; exact Hid | eapply Hrest; exact H].
  Qed.

  Lemma bloop_cases targets fuel : forall st, reached targets st -> fine (st_log st) ->
    (bloop shape_of compute debug g feeds fuel st fs = Panic /\ blocked targets) \/
    match loop shape_of compute debug g feeds fuel st with
    | Ok st' => bloop shape_of compute debug g feeds fuel st fs = Ok (st', fs) /\ fine (st_log st')
    | Panic => bloop shape_of compute debug g feeds fuel st fs = Panic
    | OutOfFuel => bloop shape_of compute debug g feeds fuel st fs = OutOfFuel
    end.
  Proof.
    induction fuel as [|fuel IH]; intros st Hr Hf; simpl; [right; reflexivity|].
    destruct (bstep_cases targets st Hr Hf) as [[-> Hb] | H].
    - left. split; [reflexivity | exact Hb].
    - destruct (step shape_of compute debug g feeds st) as [[st'|]| |].
      + destruct H as (-> & Hr' & Hf'). apply IH; assumption.
      + rewrite H. right. split; [reflexivity | exact Hf].
      + right. rewrite H. reflexivity.
      + right. rewrite H. reflexivity.
  Qed.

  (** A requested variable can be read. *)
  Definition readable (t : nat) : Prop :=
    forall n vid, nth_error g t = Some n -> n_var n = Some vid ->
      exists f, nth_error fs vid = Some f /\ conflict false f = false.

  Lemma baggregate_cases env : forall targets s,
    (baggregate shape_of g feeds targets s env fs = Panic /\ ~ Forall readable targets) \/
    match aggregate shape_of g feeds targets s env with
    | Ok l => baggregate shape_of g feeds targets s env fs = Ok (l : list (V + E), fs) /\ Forall readable targets
    | Panic => baggregate shape_of g feeds targets s env fs = Panic
    | OutOfFuel => baggregate shape_of g feeds targets s env fs = OutOfFuel
    end.
  Proof.
    induction targets as [|t targets IH]; intros s; simpl; [right; split; [reflexivity | constructor]|].
    destruct (nth_error g t) as [n|] eqn:En; [|right; reflexivity].
    assert (Hgo : forall s' x, readable t ->
      (match baggregate shape_of g feeds targets s' env fs with
        | Ok (l, fs) => Ok (x :: l, fs) | Panic => Panic | OutOfFuel => OutOfFuel end = Panic /\
        ~ Forall readable (t :: targets)) \/
      match match aggregate shape_of g feeds targets s' env with
            | Ok l => Ok ((x : V + E) :: l) | Panic => Panic | OutOfFuel => OutOfFuel end with
      | Ok l => match baggregate shape_of g feeds targets s' env fs with
                | Ok (l, fs) => Ok (x :: l, fs) | Panic => Panic | OutOfFuel => OutOfFuel end = Ok (l, fs) /\
                Forall readable (t :: targets)
      | Panic => match baggregate shape_of g feeds targets s' env fs with
                | Ok (l, fs) => Ok (x :: l, fs) | Panic => Panic | OutOfFuel => OutOfFuel end = Panic
      | OutOfFuel => match baggregate shape_of g feeds targets s' env fs with
                | Ok (l, fs) => Ok (x :: l, fs) | Panic => Panic | OutOfFuel => OutOfFuel end = OutOfFuel
      end).
    { intros s' x Ht. destruct (IH s') as [[-> Hn] | H].
      - left. split; [reflexivity|]. intros HF. inversion HF; auto.
      - right. destruct (aggregate shape_of g feeds targets s' env) as [l| |].
        + destruct H as [-> HF]. split; [reflexivity | constructor; assumption].
        + rewrite H. reflexivity.
        + rewrite H. reflexivity. }
    destruct (n_var n) as [vid|] eqn:Ev.
    - destruct (nth_error env vid) as [v|]; [|right; reflexivity].
      destruct (nth_error fs vid) as [f|] eqn:Ef.
      + rewrite (touch_spec _ _ _ _ Ef). destruct (conflict false f) eqn:Ec.
        * left. split; [reflexivity|]. intros HF. inversion HF as [|? ? Ht]; subst.
          destruct (Ht n vid En Ev) as (f' & Hf & Hc). congruence.
        * apply Hgo. intros n' vid' Hn Hv. exists f. assert (vid' = vid) by congruence. subst. auto.
      + left. unfold touch. rewrite Ef. split; [reflexivity|]. intros HF. inversion HF as [|? ? Ht]; subst.
        destruct (Ht n vid En Ev) as (f' & Hf & Hc). congruence.
    - assert (Ht : readable t). { intros n' vid' Hn Hv. congruence. }
      destruct (n_ph n) as [name|].
      + destruct (find_placeholder shape_of feeds t n name) as [v|]; [|right; reflexivity]. apply Hgo, Ht.
      + destruct (s t) as [[ys|e]|]; [|apply Hgo, Ht|right; reflexivity].
        destruct ys as [|y ys]; [right; reflexivity|]. apply Hgo, Ht.
  Qed.

  Definition lift (r : res (@outcome V E)) : res (@outcome V E * list flag) :=
    match r with Ok oc => Ok (oc, fs) | Panic => Panic | OutOfFuel => OutOfFuel end.

  Lemma beval_cases fuel targets env :
    (beval shape_of compute debug g feeds fuel targets env fs = Panic /\ (blocked targets \/ ~ Forall readable targets)) \/
    (beval shape_of compute debug g feeds fuel targets env fs =
       lift (eval shape_of compute debug g feeds fuel targets env) /\
     forall oc, eval shape_of compute debug g feeds fuel targets env = Ok oc ->
       fine (oc_log oc) /\ Forall readable targets).
  Proof.
    unfold beval, eval.
    destruct (bloop_cases targets fuel (init_state targets env)) as [[-> Hb] | H].
    - intros id b Hi. simpl in Hi. apply in_rev in Hi. apply in_map_iff in Hi as (t & Heq & Ht).
      injection Heq as -> _. exists id. split; [exact Ht | apply rt_refl].
    - intros id xs n [].
    - left. split; [reflexivity | left; exact Hb].
    - destruct (loop shape_of compute debug g feeds fuel (init_state targets env)) as [st| |].
      + destruct H as [-> Hf].
        destruct (baggregate_cases (st_env st) targets (st_store st)) as [[-> Hn] | H].
        * left. split; [reflexivity | right; exact Hn].
        * right. destruct (aggregate shape_of g feeds targets (st_store st) (st_env st)) as [l| |].
          -- destruct H as [-> HF]. split; [reflexivity|]. intros oc Hoc. injection Hoc as <-. simpl.
             split; [|exact HF]. intros id xs n Hi. apply in_rev in Hi. apply (Hf id xs n Hi).
          -- rewrite H. split; [reflexivity | discriminate].
          -- rewrite H. split; [reflexivity | discriminate].
      + rewrite H. right. split; [reflexivity | discriminate].
      + rewrite H. right. split; [reflexivity | discriminate].
  Qed.
End Sim.

(** ** Live views *)
Section Live.
  Local Open Scope R_scope.

  Lemma set_at_set_at {A} k (x y : A) : forall l, set_at k y (set_at k x l) = set_at k y l.
  Proof. induction k; intros [|z l]; simpl; try reflexivity. f_equal; apply IHk. Qed.
  Lemma nth_error_set_at {A} k (x : A) : forall l j,
    nth_error (set_at k x l) j = if (j =? k)%nat then option_map (fun _ => x) (nth_error l j) else nth_error l j.
  Proof.
    induction k; intros [|z l] [|j]; simpl; try reflexivity.
    - destruct (j =? k)%nat; reflexivity.
    - apply IHk.
  Qed.
  Lemma nth_set_at_eq {A} k (x y : A) l : nth_error l k = Some y -> nth_error (set_at k x l) k = Some x.
  Proof. intros H. rewrite nth_error_set_at, Nat.eqb_refl, H. reflexivity. Qed.
  Lemma nth_set_at_ne {A} k (x : A) l j : j <> k -> nth_error (set_at k x l) j = nth_error l j.
  Proof. intros H. rewrite nth_error_set_at. apply Nat.eqb_neq in H. rewrite H. reflexivity. Qed.

  Lemma set_at_map {A B} (f : A -> B) (eqd : forall x y : A, {x = y} + {x <> y}) x : forall l k i,
    NoDup l -> nth_error l k = Some i ->
    set_at k x (map f l) = map (fun j => if eqd j i then x else f j) l.
  Proof.
    induction l as [|a l IH]; intros [|k] i Hn H; simpl in *; try discriminate.
    - injection H as ->. inversion Hn as [|? ? Hni Hn']; subst. destruct (eqd i i) as [_|Hc]; [|congruence].
      f_equal. apply map_ext_in. intros b Hb. destruct (eqd b i); [subst; contradiction | reflexivity].
    - inversion Hn as [|? ? Hni Hn']; subst. destruct (eqd a i) as [->|_].
      + exfalso. apply Hni. eapply nth_error_In, H.
      + f_equal. apply IH; assumption.
  Qed.
  Definition idx_dec := list_eq_dec Nat.eq_dec.

  Lemma aget_set sh (f : list nat -> R) i x : in_bounds sh i ->
    Arr sh (set_at (ravel sh i) x (a_data (tab sh f))) = tab sh (fun j => if idx_dec j i then x else f j).
  Proof.
    intros Hi. unfold tab. simpl. f_equal. apply set_at_map.
    - apply indices_nodup.
    - apply nth_indices, Hi.
  Qed.

  Lemma see_set env dst d x src s : nth_error env dst = Some d -> see env src = Some s ->
    (src = LVar dst /\ s = d /\ see (set_at dst x env) src = Some x) \/ see (set_at dst x env) src = Some s.
  Proof.
    intros Hd Hs. destruct src as [a|vid]; [right; exact Hs|]. simpl in *.
    destruct (Nat.eq_dec vid dst) as [->|Hne].
    - left. repeat split; [congruence|]. apply (nth_set_at_eq _ _ _ _ Hd).
    - right. rewrite nth_set_at_ne by exact Hne. exact Hs.
  Qed.

  (** A loop over the elements of [dst] in which element [i] is computed from
      the elements at (the image of) [i]: reading the sources while writing makes
      no difference, even when a source is [dst] itself. *)
  Lemma live_fold_gen (elem : list (arr R) -> list nat -> list (arr R)) dst env d (new : list nat -> R) :
    nth_error env dst = Some d -> wf d ->
    (forall cur i, a_shape cur = a_shape d -> in_bounds (a_shape d) i -> aget 0 cur i = aget 0 d i ->
       elem (set_at dst cur env) i =
       set_at dst (Arr (a_shape d) (set_at (ravel (a_shape d) i) (new i) (a_data cur))) env) ->
    fold_left elem (indices (a_shape d)) env = set_at dst (tab (a_shape d) new) env.
  Proof.
    intros Hd Hw He. set (sh := a_shape d) in *.
    assert (Hgen : forall todo done, NoDup (done ++ todo) -> (forall i, In i todo -> in_bounds sh i) ->
      fold_left elem todo
        (set_at dst (tab sh (fun j => if in_dec idx_dec j done then new j else aget 0 d j)) env) =
      set_at dst (tab sh (fun j => if in_dec idx_dec j (done ++ todo) then new j else aget 0 d j)) env).
    { induction todo as [|i todo IH]; intros done Hnd Hb; simpl.
      - rewrite app_nil_r. reflexivity.
      - assert (Hi : in_bounds sh i) by (apply Hb; left; reflexivity).
        assert (Hni : ~ In i done).
        { intros Hin. apply NoDup_remove_2 in Hnd. apply Hnd, in_or_app. left. exact Hin. }
        rewrite He; [|reflexivity|exact Hi|].
        2: { rewrite aget_tab by exact Hi. destruct (in_dec idx_dec i done); [contradiction | reflexivity]. }
        replace (done ++ i :: todo) with ((done ++ [i]) ++ todo) by (rewrite <- app_assoc; reflexivity).
        rewrite <- IH.
        + f_equal. f_equal. rewrite aget_set by exact Hi. apply tab_ext. intros j Hj.
          destruct (idx_dec j i) as [->|Hne].
          * destruct (in_dec idx_dec i (done ++ [i])) as [_|H]; [reflexivity|].
            exfalso. apply H, in_or_app. right. left. reflexivity.
          * destruct (in_dec idx_dec j done) as [Hin|Hnin], (in_dec idx_dec j (done ++ [i])) as [Hin'|Hnin']; try reflexivity.
            -- exfalso. apply Hnin', in_or_app. left. exact Hin.
            -- exfalso. apply in_app_or in Hin' as [H | [H | []]]; [contradiction | congruence].
        + rewrite <- app_assoc. exact Hnd.
        + intros j Hj. apply Hb. right. exact Hj. }
    specialize (Hgen (indices sh) [] (indices_nodup sh) (fun i Hi => proj1 (indices_in sh i) Hi)).
    simpl in Hgen.
    assert (H0 : set_at dst (tab sh (fun j => aget 0 d j)) env = env).
    { apply set_at_same. rewrite Hd. f_equal. symmetry. apply (tab_aget 0), Hw. }
    rewrite <- H0 at 1.
    rewrite Hgen. f_equal. apply tab_ext. intros j Hj.
    destruct (in_dec idx_dec j (indices sh)) as [_|H]; [reflexivity|]. exfalso. apply H, indices_in, Hj.
  Qed.

  Lemma live_zip_spec f dst src env d s : nth_error env dst = Some d -> wf d -> see env src = Some s ->
    live_zip f dst src env = option_map (fun d' => set_at dst d' env) (zip_mut 0 0 f d s).
  Proof.
    intros Hd Hw Hs. unfold live_zip, zip_mut. rewrite Hd, Hs.
    destruct (can_broadcast (a_shape s) (a_shape d)) eqn:Hbc; [|reflexivity].
    simpl. f_equal. apply live_fold_gen; [exact Hd | exact Hw |].
    intros cur i Hsh Hi Hci. unfold live_elem. rewrite (nth_set_at_eq _ _ _ _ Hd).
    destruct (see_set env dst d cur src s Hd Hs) as [(-> & -> & ->) | ->].
    - rewrite set_at_set_at, Hsh, !bc_idx_self, Hci by exact Hi. reflexivity.
    - rewrite set_at_set_at, Hsh, Hci. reflexivity.
  Qed.

  Lemma live_zip3_spec f dst src st env d s h : nth_error env dst = Some d -> wf d -> see env src = Some s ->
    nth_error env st = Some h -> st <> dst ->
    live_zip3 f dst src st env =
    if shape_eqb (a_shape s) (a_shape d) && shape_eqb (a_shape h) (a_shape d)
    then Some (set_at dst (tab (a_shape d) (fun i => f (aget 0 d i) (aget 0 s i) (aget 0 h i))) env)
    else None.
  Proof.
    intros Hd Hw Hs Hh Hne. unfold live_zip3. rewrite Hd, Hs, Hh.
    destruct (shape_eqb (a_shape s) (a_shape d) && shape_eqb (a_shape h) (a_shape d)); [|reflexivity].
    f_equal. apply live_fold_gen; [exact Hd | exact Hw |].
    intros cur i Hsh Hi Hci. unfold live_elem3.
    rewrite (nth_set_at_eq _ _ _ _ Hd), (nth_set_at_ne dst cur env st Hne), Hh.
    destruct (see_set env dst d cur src s Hd Hs) as [(-> & -> & ->) | ->];
      rewrite set_at_set_at, Hsh, ?Hci; reflexivity.
  Qed.

  Lemma zip_wf f a b (c : arr R) : zip_mut 0 0 f a b = Some c -> wf c /\ a_shape c = a_shape a.
  Proof.
    unfold zip_mut. destruct (can_broadcast (a_shape b) (a_shape a)); [|discriminate].
    intros H. injection H as <-. split; [apply tab_wf | reflexivity].
  Qed.
  (** What a view shows after another array was replaced. *)
  Lemma see_other env dst x src s : src <> LVar dst -> see env src = Some s -> see (set_at dst x env) src = Some s.
  Proof.
    intros Hne Hs. destruct src as [a|vid]; [exact Hs|]. simpl in *. rewrite nth_set_at_ne; [exact Hs|].
    intros ->. apply Hne. reflexivity.
  Qed.
  Lemma live_dec (a : live) vid : {a = LVar vid} + {a <> LVar vid}.
  Proof.
    destruct a as [x|k]; [right; discriminate|]. destruct (Nat.eq_dec k vid) as [->|H]; [left; reflexivity|].
    right. intros Heq. injection Heq as ->. apply H. reflexivity.
  Qed.

  Lemma sgd_live alpha p gr env pa ga : nth_error env p = Some pa -> wf pa -> see env gr = Some ga ->
    live_sgd alpha p gr env = option_map (fun p' => set_at p p' env) (sgd_step alpha pa ga).
  Proof. intros. apply live_zip_spec; assumption. Qed.

  Lemma momentum_live lr mu p gr v env pa ga va : p <> v ->
    nth_error env p = Some pa -> wf pa -> see env gr = Some ga -> nth_error env v = Some va -> wf va ->
    live_momentum lr mu p gr v env =
    option_map (fun r => set_at p (fst r) (set_at v (snd r) env)) (momentum_step lr mu pa ga va).
  Proof.
    intros Hne Hp Hwp Hg Hv Hwv. unfold live_momentum, momentum_step, bind.
    rewrite (live_zip_spec _ _ _ _ _ _ Hv Hwv Hg).
    destruct (zip_mut 0 0 (fun v g => v * mu - lr * g) va ga) as [v'|] eqn:E1; [|reflexivity]. simpl.
    rewrite (live_zip_spec _ p (LVar v) _ pa v').
    - destruct (zip_mut 0 0 (fun p v => p + v) pa v'); reflexivity.
    - rewrite nth_set_at_ne by exact Hne. exact Hp.
    - exact Hwp.
    - apply (nth_set_at_eq _ _ _ _ Hv).
  Qed.

  Lemma adagrad_live lr p gr h env pa ga ha : p <> h -> gr <> LVar h ->
    nth_error env p = Some pa -> wf pa -> see env gr = Some ga -> nth_error env h = Some ha -> wf ha ->
    live_adagrad lr p gr h env =
    option_map (fun r => set_at p (fst r) (set_at h (snd r) env)) (adagrad_step lr pa ga ha).
  Proof.
    intros Hne Hgh Hp Hwp Hg Hv Hwv. unfold live_adagrad, adagrad_step, bind.
    rewrite (live_zip_spec _ _ _ _ _ _ Hv Hwv Hg).
    destruct (zip_mut 0 0 (fun h g => h + g * g) ha ga) as [h'|] eqn:E1; [|reflexivity]. simpl.
    rewrite (live_zip3_spec _ p gr h _ pa ga h').
    - destruct (shape_eqb (a_shape ga) (a_shape pa) && shape_eqb (a_shape h') (a_shape pa)); reflexivity.
    - rewrite nth_set_at_ne by exact Hne. exact Hp.
    - exact Hwp.
    - apply see_other; assumption.
    - apply (nth_set_at_eq _ _ _ _ Hv).
    - intros H. apply Hne. symmetry. exact H.
  Qed.

  Section Adam.
  Variable powf : R -> R -> R.
  Lemma adam_live alpha eps b1 b2 p gr m v t env pa ga ma va ta : NoDup [p; m; v; t] ->
    nth_error env p = Some pa -> wf pa -> see env gr = Some ga ->
    nth_error env m = Some ma -> wf ma -> nth_error env v = Some va -> wf va -> nth_error env t = Some ta ->
    live_adam powf alpha eps b1 b2 p gr m v t env =
    option_map (fun r => match r with (p', m', v', t') =>
                  set_at t t' (set_at p p' (set_at v v' (set_at m m' env))) end)
               (adam_step powf alpha eps b1 b2 pa ga ma va ta).
  Proof.
    intros Hnd Hp Hwp Hg Hm Hwm Hv Hwv Ht.
    assert (Hd : p <> m /\ p <> v /\ p <> t /\ m <> v /\ m <> t /\ v <> t).
    { inversion Hnd as [|? ? H1 H2]; subst. inversion H2 as [|? ? H3 H4]; subst. inversion H4 as [|? ? H5 H6]; subst.
      simpl in *. repeat split; intros ->; tauto. }
    destruct Hd as (Dpm & Dpv & Dpt & Dmv & Dmt & Dvt).
    unfold live_adam, adam_step, bind.
    rewrite (live_zip_spec _ _ _ _ _ _ Hm Hwm Hg).
    destruct (zip_mut 0 0 (fun x g => x * b1 + (1 - b1) * g) ma ga) as [m'|] eqn:E1; [|reflexivity]. simpl.
    assert (Hg' : see (set_at m m' env) gr = Some ga).
    { destruct (live_dec gr m) as [->|Hgm]; [|apply see_other; assumption].
      simpl in Hg. assert (ga = ma) by congruence. subst ga. simpl. rewrite (nth_set_at_eq _ _ _ _ Hm). f_equal.
      unfold zip_mut in E1. rewrite can_broadcast_refl in E1. injection E1 as <-.
      transitivity (tab (a_shape ma) (aget 0 ma)); [|apply tab_aget, Hwm].
      apply tab_ext. intros i Hi. rewrite bc_idx_self by exact Hi. ring. }
    assert (Hv' : nth_error (set_at m m' env) v = Some va) by (rewrite nth_set_at_ne; [exact Hv | congruence]).
    rewrite (live_zip_spec _ v gr _ va ga Hv' Hwv Hg').
    destruct (zip_mut 0 0 (fun x g => x * b2 + (1 - b2) * g * g) va ga) as [v'|] eqn:E2; [|reflexivity]. simpl.
    set (env2 := set_at v v' (set_at m m' env)).
    assert (Ht2 : nth_error env2 t = Some ta) by (unfold env2; rewrite !nth_set_at_ne; [exact Ht | congruence..]).
    assert (Hv2 : nth_error env2 v = Some v') by (unfold env2; rewrite (nth_set_at_eq _ _ _ _ Hv'); reflexivity).
    assert (Hm2 : nth_error env2 m = Some m').
    { unfold env2. rewrite nth_set_at_ne by congruence. apply (nth_set_at_eq _ _ _ _ Hm). }
    assert (Hp2 : nth_error env2 p = Some pa) by (unfold env2; rewrite !nth_set_at_ne; [exact Hp | congruence..]).
    rewrite Ht2. destruct (a_data ta) as [|t_val rest] eqn:Eta; [reflexivity|].
    rewrite Hv2, Hm2. simpl.
    destruct (zip_mut 0 0 (fun a b => a / (sqrt b + eps)) (amap (fun x => x * (1 / (1 - powf b1 t_val))) m')
                (amap (fun x => x * (1 / (1 - powf b2 t_val))) v')) as [mh|]; [|reflexivity].
    rewrite (live_zip_spec _ p (LOwn mh) env2 pa mh Hp2 Hwp eq_refl).
    destruct (zip_mut 0 0 (fun l r => l - alpha * r) pa mh) as [p'|]; [|reflexivity]. simpl.
    rewrite (nth_set_at_ne p p' env2 t) by congruence. rewrite Ht2, Eta. reflexivity.
  Qed.
  End Adam.
End Live.
