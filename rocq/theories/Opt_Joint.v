(** Evaluating several tensors together with the tensor that updates the parameters:
    what the other tensors see, and what the updates see. *)
From Coq Require Import String List Arith ZArith Bool Relations Reals Lia.
Import ListNotations.
From Verif Require Import Graph_Model Eval_Model Eval_Spec Eval_Proofs Eval_Proofs2 Eval_Order Eval_Update Eval_Split Graph_Proofs Grad_Frame Var_Model Array_Model Arith_Model Opt_Model Opt_Proofs Opt_Effect.

(** Tensor [j] runs before parameter [l] is updated: the gradient of [l], of a
    parameter listed after it, or a tensor requested after the update needs it. *)
Definition settled {O} (g : graph O) (gs post : list nat) (l j : nat) : Prop :=
  (exists m gr, l <= m /\ nth_error gs m = Some gr /\ depends g gr j) \/
  (exists t, In t post /\ depends g t j).
(** Whatever [t] uses that reads the arrays of parameters from number [a] on is settled. *)
Definition sees_old {O} (opt : optimizer) (e : env (arr R)) (g : graph O) (ps gs post : list nat) (a t : nat) : Prop :=
  forall l p v j x, a <= l -> nth_error ps l = Some p -> var_tensor g p v -> operand opt e v x ->
    depends g t j -> reads_var g j x -> settled g gs post l j.
(** Tensors requested together with the update: tensors of the graph that overwrite nothing. *)
Definition readers {O} (g : graph O) (ts : list nat) : Prop :=
  (forall t, In t ts -> t < length g) /\ (forall t i x, In t ts -> depends g t i -> ~ changes g i x).

Section Joint.
  Context {O E : Type}.
  Variable powf : R -> R -> R.
  Variable inj : opt_op -> O.
  Variable compute : O -> list (opin (arr R)) -> cout (arr R) E.
  Variable debug : bool.
  Hypothesis Hcompute : forall o xs, compute (inj o) xs = opt_compute powf o xs.
  Notation tensor_value := (tensor_value a_shape compute debug).
  Notation value := (value a_shape compute debug).
  Notation arg := (arg a_shape compute debug).
  Notation loop := (loop a_shape compute debug).

  Variables (opt : optimizer) (e : env (arr R)) (c c2 : context O) (ps gs us mid pre post : list nat).
  Notation g := (c_graph c).
  Notation G := (c_graph c2).
  Hypothesis Hgood : good c.
  Hypothesis Hgood2 : good c2.
  Hypothesis Hupd : updatable opt e g ps gs.
  Hypothesis Hshare : forall k gr, nth_error gs k = Some gr -> sees_old opt e g ps gs post (S k) gr.
  Hypothesis Hl1 : length ps = length gs.
  Hypothesis Hl2 : length us = length ps.
  Hypothesis HndU : NoDup us.
  Hypothesis Hext : exists new, G = g ++ new.
  Hypothesis Hge : forall u, In u us -> length g <= u.
  Hypothesis HallU : forall k p gr u vid, nth_error ps k = Some p -> nth_error gs k = Some gr -> nth_error us k = Some u ->
    var_tensor g p vid -> exists sids, state_ids opt e vid sids /\ update_tensor inj G opt p gr u sids.
  Hypothesis Hmid : forall m, In m mid -> computed G m /\ length g <= m /\ ~ In m us /\
    (forall j, reads_from G m j -> In j us) /\ (forall x, ~ changes G m x).
  Hypothesis Hpre : readers g pre.
  Hypothesis Hpost : readers g post.
  Notation ts := (pre ++ mid ++ us ++ post).

  Lemma wf_g : wf_graph g.
  Proof. destruct Hgood as [H _]. eapply ctx_ok_wf; eauto. Qed.
  Lemma wf_G : wf_graph G.
  Proof. destruct Hgood2 as [H _]. eapply ctx_ok_wf; eauto. Qed.
  Lemma plain_G : vars_plain G.
  Proof. destruct Hgood2 as [_ H]. exact H. Qed.

  Lemma old_nth i : i < length g -> nth_error G i = nth_error g i.
  Proof. intros Hi. destruct Hext as (new & ->). apply nth_error_app1. exact Hi. Qed.
  Lemma old_reads i j : i < length g -> (reads_from G i j <-> reads_from g i j).
  Proof. intros Hi. unfold reads_from. rewrite old_nth by auto. reflexivity. Qed.
  Lemma g_reads_lt i j : reads_from g i j -> j < length g.
  Proof. apply wf_g. Qed.
  Lemma old_depends i j : i < length g -> depends G i j -> depends g i j /\ j < length g.
  Proof.
    intros Hi H. apply clos_rt_rtn1 in H. induction H as [|a b Hab H IH].
    - split; auto. apply rt_refl.
    - destruct IH as [IH Ha]. apply old_reads in Hab; auto. split; [|apply (g_reads_lt _ _ Hab)].
      eapply rt_trans; [exact IH | apply rt_step; exact Hab].
  Qed.
  Lemma depends_lt i j : i < length g -> depends g i j -> j < length g.
  Proof.
    intros Hi H. apply clos_rt_rtn1 in H. induction H as [|a b Hab H IH]; auto. apply (g_reads_lt _ _ Hab).
  Qed.
  Lemma depends_new i j : i < length g -> depends g i j -> depends G i j.
  Proof.
    intros Hi H. apply clos_rt_rtn1 in H.
    assert (Hd : depends G i j /\ j < length g); [|apply Hd].
    induction H as [|a b Hab H [IH Ha]]; [split; [apply rt_refl | auto]|].
    split; [|apply (g_reads_lt _ _ Hab)].
    eapply rt_trans; [exact IH|]. apply rt_step. apply old_reads; auto.
  Qed.

  Lemma param k u : nth_error us k = Some u -> exists p gr vid sids,
    nth_error ps k = Some p /\ nth_error gs k = Some gr /\ var_tensor g p vid /\
    state_ids opt e vid sids /\ update_tensor inj G opt p gr u sids /\ gr < length g.
  Proof.
    intros Hu.
    assert (Hk : k < length us) by (apply nth_error_Some; congruence).
    destruct (nth_error ps k) as [p|] eqn:Hp; [|apply nth_error_None in Hp; lia].
    destruct (nth_error gs k) as [gr|] eqn:Hgr; [|apply nth_error_None in Hgr; lia].
    destruct (u_params _ _ _ _ _ Hupd p (nth_in _ _ _ Hp)) as (vid & Hv).
    destruct (HallU k p gr u vid Hp Hgr Hu Hv) as (sids & Hs & Ht). exists p, gr, vid, sids.
    repeat (split; auto). apply (u_grads _ _ _ _ _ Hupd). eapply nth_in; eauto.
  Qed.

  Lemma update_reads p gr u sids j : update_tensor inj G opt p gr u sids -> reads_from G u j ->
    j = p \/ j = gr \/ exists sid, In sid sids /\ var_tensor G j sid.
  Proof.
    intros (n & sts & (Hn & _) & _ & Hi & Hs) (m & inc & Hm & Hin & <-).
    assert (m = n) by congruence. subst m. rewrite Hi in Hin.
    destruct Hin as [<-|[<-|Hin]]; simpl; auto. right; right.
    apply in_map_iff in Hin. destruct Hin as (s & <- & Hin). simpl. eapply in_states; eauto.
  Qed.

  Lemma vt_new t v : var_tensor g t v -> var_tensor G t v.
  Proof. intros H. destruct Hext as (new & ->). apply vt_ext. exact H. Qed.
  Lemma vt_old t v : t < length g -> var_tensor G t v -> var_tensor g t v.
  Proof. intros Ht (n & Hn & H). rewrite old_nth in Hn by auto. exists n. auto. Qed.

  (** What an update tensor depends on. *)
  Lemma update_depends p gr u sids vid j : update_tensor inj G opt p gr u sids -> var_tensor g p vid ->
    gr < length g -> depends G u j ->
    j = u \/ depends g gr j \/ exists v, var_tensor G j v.
  Proof.
    intros Hu Hp Hgr H. apply clos_rt_rt1n in H. inversion H as [|a b Hab Hr]; subst; [auto|].
    right. destruct (update_reads _ _ _ _ _ Hu Hab) as [->|[->|(sid & _ & Hs)]].
    - right. inversion Hr as [|a' b' Hab' Hr']; subst.
      + exists vid. apply vt_new. exact Hp.
      + exfalso. apply (vt_noreads G p vid a' wf_G); [apply vt_new; exact Hp | exact Hab'].
    - left. apply (old_depends gr j Hgr). apply clos_rt1n_rt. exact Hr.
    - right. inversion Hr as [|a' b' Hab' Hr']; subst; [eauto|].
      exfalso. apply (vt_noreads G a sid a' wf_G Hs Hab').
  Qed.

  Lemma old_reads_var j x : j < length g -> reads_var G j x -> reads_var g j x.
  Proof.
    intros Hj (n & inc & m & Hn & Hin & Hm & H). rewrite old_nth in Hn by auto.
    exists n, inc, m. split; auto. split; auto. split; auto.
    rewrite <- old_nth; auto. apply (g_reads_lt j). exists n, inc. auto.
  Qed.
  Lemma old_changes i x : i < length g -> changes G i x -> changes g i x.
  Proof.
    intros Hi (n & q & (Hn & Hr) & inc & m & Hinc & Hmut & Hm & H).
    rewrite old_nth in Hn by auto. exists n, q. split; [split; auto|]. exists inc, m. split; auto. split; auto. split; auto.
    rewrite <- old_nth; auto. apply (g_reads_lt i). exists n, inc. split; auto. split; auto. eapply nth_in; eauto.
  Qed.

  Lemma update_changes p gr u sids vid x : update_tensor inj G opt p gr u sids -> var_tensor g p vid ->
    state_ids opt e vid sids -> changes G u x -> operand opt e vid x.
  Proof.
    intros (n & sts & Hn & _ & Hi & Hs) Hp Hids (m & q & Hm & inc & mm & Hinc & Hmut & Hmm & Hmp & Hmv).
    assert (m = n) by (eapply op_node_fun; eauto). subst m. rewrite Hi in Hinc.
    destruct q as [|[|q]]; simpl in Hinc.
    - injection Hinc as <-. simpl in Hmm. left.
      apply (vt_fun G p); [|apply vt_new; exact Hp]. exists mm. auto.
    - injection Hinc as <-. discriminate.
    - apply nth_error_In, in_map_iff in Hinc. destruct Hinc as (s & <- & Hin). simpl in Hmm.
      destruct (in_states _ _ _ _ Hs Hin) as (sid & Hsid & Hv).
      right. exists sids. split; auto. replace x with sid; auto. apply (vt_fun G s); auto. exists mm. auto.
  Qed.

  Lemma gr_step p gr u sids : update_tensor inj G opt p gr u sids -> reads_from G u gr.
  Proof.
    intros (n & sts & (Hn & _) & _ & Hi & _). exists n, (Incoming gr false 0). split; auto. split; auto.
    rewrite Hi. right; left; auto.
  Qed.

  Lemma us_computed u : In u us -> computed G u.
  Proof.
    intros Hu. apply In_nth_error in Hu. destruct Hu as (k & Hk).
    destruct (param k u Hk) as (p & gr & vid & sids & Hp & Hgr & Hv & Hs & (n & sts & Hn & _) & Hlt). exists n. exact Hn.
  Qed.

  Lemma needed_cases i : needed G ts i -> In i us \/ In i mid \/
    (i < length g /\ exists t, (In t gs \/ In t pre \/ In t post) /\ depends g t i).
  Proof.
    intros (Hc & t & Ht & Hd).
    assert (Hu : forall u, In u us -> depends G u i -> In i us \/ In i mid \/
      (i < length g /\ exists t, (In t gs \/ In t pre \/ In t post) /\ depends g t i)).
    { clear t Ht Hd. intros u Hu Hd. apply In_nth_error in Hu. destruct Hu as (k & Hu).
      destruct (param k u Hu) as (p & gr & vid & sids & Hp & Hgr & Hv & Hs & Ht & Hlt).
      destruct (update_depends _ _ _ _ _ _ Ht Hv Hlt Hd) as [->|[Hd'|(v & Hv')]].
      - left. eapply nth_in; eauto.
      - right. right. split; [eapply depends_lt; eauto|]. exists gr. split; auto. left. eapply nth_in; eauto.
      - exfalso. destruct Hc as (n & Hn & Hnp & Hnv). destruct Hv' as (m & Hm & _ & Hmv). congruence. }
    assert (Ho : In t pre \/ In t post -> In i us \/ In i mid \/
      (i < length g /\ exists t, (In t gs \/ In t pre \/ In t post) /\ depends g t i)).
    { intros Ho. assert (Htl : t < length g) by (destruct Ho; [apply Hpre | apply Hpost]; assumption).
      destruct (old_depends t i Htl Hd) as [Hd' Hi]. right. right. split; [exact Hi|]. exists t. split; [right; exact Ho|exact Hd']. }
    rewrite !in_app_iff in Ht. destruct Ht as [Ht|[Ht|[Ht|Ht]]]; [apply Ho; auto| |exact (Hu t Ht Hd)|apply Ho; auto].
    apply clos_rt_rt1n in Hd. inversion Hd as [|a b Hab Hr]; subst; [auto|].
    destruct (Hmid t Ht) as (_ & _ & _ & Hr' & _). apply (Hu a); [apply Hr'; exact Hab|]. apply clos_rt1n_rt. exact Hr.
  Qed.

  (** Needed operations overwrite only the arrays of their own parameter. *)
  Lemma needed_changes u x : needed G ts u -> changes G u x -> exists k p gr vid sids,
    nth_error us k = Some u /\ nth_error ps k = Some p /\ nth_error gs k = Some gr /\ var_tensor g p vid /\
    state_ids opt e vid sids /\ update_tensor inj G opt p gr u sids /\ gr < length g /\ operand opt e vid x.
  Proof.
    intros Hn Hc. destruct (needed_cases u Hn) as [Hin|[Hin|(Hlt & t & Ht & Hd)]].
    - apply In_nth_error in Hin. destruct Hin as (k & Hk).
      destruct (param k u Hk) as (p & gr & vid & sids & Hp & Hgr & Hv & Hs & Ht & Hlt).
      exists k, p, gr, vid, sids. repeat (split; auto). eapply update_changes; eauto.
    - exfalso. destruct (Hmid u Hin) as (_ & _ & _ & _ & H). exact (H x Hc).
    - exfalso. apply old_changes in Hc; auto. destruct Ht as [Ht|[Ht|Ht]].
      + exact (u_pure _ _ _ _ _ Hupd t u x Ht Hd Hc).
      + exact (proj2 Hpre t u x Ht Hd Hc).
      + exact (proj2 Hpost t u x Ht Hd Hc).
  Qed.

  (** No update is needed by the other tensors or by another update. *)
  Lemma old_not_us t u : t < length g -> In u us -> ~ depends G t u.
  Proof. intros Ht Hu Hd. destruct (old_depends t u Ht Hd) as [_ Hlt]. specialize (Hge u Hu). lia. Qed.
  Lemma us_not_us k l uk ul : nth_error us k = Some uk -> nth_error us l = Some ul -> depends G uk ul -> k = l.
  Proof.
    intros Hk Hl Hd. destruct (param k uk Hk) as (p & gr & vid & sids & Hp & Hgr & Hv & Hs & Ht & Hlt).
    destruct (update_depends _ _ _ _ _ _ Ht Hv Hlt Hd) as [E1|[E1|(v & E1)]].
    - apply (proj1 (NoDup_nth_error us) HndU); [apply nth_error_Some|]; congruence.
    - apply depends_lt in E1; [|exact Hlt]. specialize (Hge ul (nth_in _ _ _ Hl)). lia.
    - destruct (us_computed ul (nth_in _ _ _ Hl)) as (m & Hm & _ & Hmv). destruct E1 as (m' & Hm' & _ & Hmv'). congruence.
  Qed.

  (** What [settled] promises. *)
  Lemma settled_before l u j : nth_error us l = Some u -> settled g gs post l j -> runs_before G ts j u.
  Proof.
    intros Hul Hset. set (a0 := length (pre ++ mid)).
    assert (Hts : ts = (pre ++ mid) ++ us ++ post) by (rewrite <- app_assoc; reflexivity).
    assert (Hpos : forall d t, a0 <= d -> nth_error ts d = Some t ->
              nth_error us (d - a0) = Some t \/ (a0 + length us <= d /\ In t post)).
    { intros d t Hd Hn. rewrite Hts, nth_error_app2 in Hn by exact Hd. fold a0 in Hn.
      destruct (Nat.lt_ge_cases (d - a0) (length us)) as [Hlt|Hle].
      - left. rewrite nth_error_app1 in Hn by exact Hlt. exact Hn.
      - right. split; [lia|]. rewrite nth_error_app2 in Hn by exact Hle. eapply nth_in; eauto. }
    assert (Hat : forall m t, nth_error us m = Some t -> nth_error ts (a0 + m) = Some t).
    { intros m t Hm. rewrite Hts, nth_error_app2 by (fold a0; lia). fold a0. replace (a0 + m - a0) with m by lia.
      rewrite nth_error_app1; [exact Hm|]. apply nth_error_Some. congruence. }
    destruct Hset as [(m & gr & Hm & Hgm & Hdj)|(t & Ht & Hdj)].
    - assert (Hgr : gr < length g) by (apply (u_grads _ _ _ _ _ Hupd); eapply nth_in; eauto).
      assert (Hml : m < length us) by (rewrite Hl2, Hl1; apply nth_error_Some; congruence).
      destruct (nth_error us m) as [um|] eqn:Hum; [|apply nth_error_None in Hum; lia].
      destruct (param m um Hum) as (pm & gm & vm & sm & Hpm & Hgm' & Hvm & Hsm & Htm & Hltm).
      assert (gm = gr) by congruence. subst gm.
      destruct (Nat.eq_dec m l) as [->|Hne].
      + assert (um = u) by congruence. subst um. left. apply step_then with gr; [eapply gr_step; eauto|]. apply depends_new; auto.
      + right. exists (a0 + m), um. split; [apply Hat; exact Hum|]. split.
        * eapply rt_trans; [apply rt_step; eapply gr_step; eauto|]. apply depends_new; auto.
        * intros d td Hd Htd Hdu. destruct (Hpos d td) as [Hud|[_ Hpd]]; [lia|exact Htd| |].
          -- assert (d - a0 = l) by (eapply us_not_us; eauto). lia.
          -- exact (old_not_us td u (proj1 Hpost td Hpd) (nth_in _ _ _ Hul) Hdu).
    - right. assert (Htl : t < length g) by (apply (proj1 Hpost); exact Ht).
      apply In_nth_error in Ht. destruct Ht as (q & Hq). exists (a0 + length us + q), t. split; [|split].
      + rewrite Hts, nth_error_app2 by (fold a0; lia). fold a0. replace (a0 + length us + q - a0) with (length us + q) by lia.
        rewrite nth_error_app2 by lia. replace (length us + q - length us) with q by lia. exact Hq.
      + apply depends_new; auto.
      + intros d td Hd Htd Hdu. destruct (Hpos d td) as [Hud|[_ Hpd]]; [lia|exact Htd| |].
        * assert (d - a0 < length us) by (apply nth_error_Some; congruence). lia.
        * exact (old_not_us td u (proj1 Hpost td Hpd) (nth_in _ _ _ Hul) Hdu).
  Qed.

  (** A tensor of the original graph comes first when all it reads is settled. *)
  Lemma old_first t : t < length g -> sees_old opt e g ps gs post 0 t -> comes_first G ts t.
  Proof.
    intros Ht Hs j u x Hd Hr Hn Hc.
    destruct (needed_changes u x Hn Hc) as (l & q & gr' & w & sids' & Hul & Hql & Hgl & Hw & Hsl & Htl & Hltl & Hop).
    right. right. destruct (old_depends t j Ht Hd) as [Hd' Hj]. apply (settled_before l u j Hul).
    apply (Hs l q w j x); auto; [lia|]. apply old_reads_var; auto.
  Qed.
  Lemma grad_sees k gr : nth_error gs k = Some gr -> sees_old opt e g ps gs post 0 gr.
  Proof.
    intros Hk l p v j x _ Hp Hv Hop Hd Hr. destruct (Nat.le_gt_cases l k) as [Hle|Hlt].
    - left. exists k, gr. auto.
    - apply (Hshare k gr Hk l p v j x); auto; lia.
  Qed.
  Lemma post_sees t : In t post -> sees_old opt e g ps gs post 0 t.
  Proof. intros Ht l p v j x _ _ _ _ Hd _. right. eauto. Qed.
  Lemma sees_part t i : sees_old opt e g ps gs post 0 t -> depends g t i -> sees_old opt e g ps gs post 0 i.
  Proof. intros H Hi l p v j x Hl Hp Hv Hop Hd. apply (H l p v j x); auto. eapply rt_trans; eauto. Qed.

  Lemma us_first u : In u us -> comes_first G ts u.
  Proof.
    intros Hin j u' x Hd Hr Hn Hc.
    destruct (needed_changes u' x Hn Hc) as (l & q & gr' & w & sids' & Hul & Hql & Hgl & Hw & Hsl & Htl & Hltl & Hop).
    apply In_nth_error in Hin. destruct Hin as (k & Hk).
    destruct (param k u Hk) as (p & gr & vid & sids & Hp & Hgr & Hv & Hs & Ht & Hltk).
    destruct (update_depends _ _ _ _ _ _ Ht Hv Hltk Hd) as [->|[Hdj|(v & Hvj)]].
    - (* the update tensor itself reads [x] *)
      destruct Hr as (n & inc & m & Hn' & Hinc & Hm & Hmp & Hmv).
      assert (Hrd : reads_from G u (in_id inc)) by (exists n, inc; auto).
      assert (Hvx : var_tensor G (in_id inc) x) by (exists m; auto).
      assert (Hopk : operand opt e vid x).
      { destruct (update_reads _ _ _ _ _ Ht Hrd) as [Hid|[Hid|(sid & Hsid & Hvs)]].
        - rewrite Hid in Hvx. left. apply (vt_fun G p); auto. apply vt_new; auto.
        - exfalso. rewrite Hid in Hvx. apply vt_old in Hvx; auto.
          apply (u_notvar _ _ _ _ _ Hupd gr q w x); auto; eapply nth_in; eauto.
        - right. exists sids. split; auto. replace x with sid; auto. eapply vt_fun; eauto. }
      assert (k = l) by (apply (u_apart _ _ _ _ _ Hupd k l p q vid w x); auto). subst l.
      left. congruence.
    - assert (Hgd : depends G gr j) by (apply depends_new; auto).
      destruct (old_first gr Hltk (grad_sees k gr Hgr) j u' x Hgd Hr Hn Hc) as [E1|[E1|E1]]; [|auto|auto].
      exfalso. specialize (Hge u' (nth_in _ _ _ Hul)). lia.
    - exfalso. eapply vt_noreadvar; eauto. exact wf_G.
  Qed.

  Lemma mid_first m : In m mid -> comes_first G ts m.
  Proof.
    intros Hm j u x Hd Hr Hn Hc. destruct (Hmid m Hm) as (Hcm & _ & _ & Hreads & _).
    apply clos_rt_rt1n in Hd. inversion Hd as [|a b Hab Hr']; subst.
    - exfalso. destruct Hr as (n & inc & mm & Hn' & Hinc & Hmm & Hmp & Hmv).
      assert (Hu : In (in_id inc) us) by (apply Hreads; exists n, inc; auto).
      destruct (us_computed _ Hu) as (n2 & Hn2 & _ & Hv2). congruence.
    - assert (Ha : In a us) by (apply Hreads; exact Hab). apply clos_rt1n_rt in Hr'.
      destruct (us_first a Ha j u x Hr' Hr Hn Hc) as [->|[->|E1]]; [|auto|auto].
      apply clos_rt_rt1n in Hr'. inversion Hr' as [|a' b' Hab' Hr2]; subst; [auto|].
      right. right. left. apply step_then with a'; [exact Hab'|]. apply clos_rt1n_rt. exact Hr2.
  Qed.

  Lemma all_first i : (forall t, In t pre -> sees_old opt e g ps gs post 0 t) -> needed G ts i -> comes_first G ts i.
  Proof.
    intros Hps Hi. destruct (needed_cases i Hi) as [Hu|[Hm|(Hlt & t & Ht & Hd)]]; [apply us_first; exact Hu|apply mid_first; exact Hm|].
    apply old_first; [exact Hlt|]. apply (sees_part t); [|exact Hd]. destruct Ht as [Ht|[Ht|Ht]].
    - apply In_nth_error in Ht. destruct Ht as (k & Hk). eapply grad_sees; eauto.
    - auto.
    - apply post_sees. exact Ht.
  Qed.

  Lemma ts_range : in_range G ts.
  Proof.
    assert (Hle : length g <= length G) by (destruct Hext as (new & ->); rewrite app_length; lia).
    intros t Ht. rewrite !in_app_iff in Ht. destruct Ht as [Ht|[Ht|[Ht|Ht]]].
    - pose proof (proj1 Hpre t Ht). lia.
    - destruct (Hmid t Ht) as ((n & Hn & _) & _). apply nth_error_Some. congruence.
    - destruct (us_computed t Ht) as (n & Hn & _). apply nth_error_Some. congruence.
    - pose proof (proj1 Hpost t Ht). lia.
  Qed.

  (** ** Inputs of an update *)
  Variable feeder : list (ph_key * arr R).
  Notation env0 := (array_list e).

  Lemma arg_mut_var t v x : var_tensor G t v -> arg G feeder env0 (Incoming t true 0) x ->
    exists a, nth_error env0 v = Some a /\ x = RdWr a.
  Proof.
    intros (n & Hn & Hp & Hv) H.
    inversion H as [inc m a Hm Hf|inc m vid a Hm Hmp Hmv He|inc m ys a Hm Hval Hy]; subst; simpl in *.
    - destruct (fed_ph _ _ _ _ _ Hf). congruence.
    - assert (vid = v) by congruence. subst. eauto.
    - destruct Hm as (? & ? & ?). congruence.
  Qed.

  Lemma arg_grad t x : arg G feeder env0 (Incoming t false 0) x ->
    exists a, (x = NonVar a \/ x = RdOnly a) /\ tensor_value G feeder env0 t (inl a).
  Proof.
    intros H. inversion H as [inc m a Hm Hf|inc m vid a Hm Hmp Hmv He|inc m ys a Hm Hval Hy]; subst; simpl in *.
    - exists a. split; auto. apply tv_ph with m; auto.
      destruct (n_var m) as [vid|] eqn:Hv; auto. exfalso.
      destruct (fed_ph _ _ _ _ _ Hf). pose proof (plain_G t m vid Hm Hv). congruence.
    - exists a. split; auto. eapply tv_var; eauto.
    - exists a. split; auto. destruct ys as [|y ys]; [discriminate|]. injection Hy as ->. eapply tv_ok; eauto.
  Qed.

  Lemma grad_arg t a : tensor_value G feeder env0 t (inl a) ->
    exists x, (x = NonVar a \/ x = RdOnly a) /\ arg G feeder env0 (Incoming t false 0) x.
  Proof.
    intros H. inversion H as [n vid v Hn Hv He|n v Hn Hv Hf|y ys Hval|]; subst.
    - exists (RdOnly a). split; auto.
      apply (arg_var a_shape compute debug G feeder env0 (Incoming t false 0) n vid a); auto.
      apply (plain_G t n vid); auto.
    - exists (NonVar a). split; auto. eapply arg_ph; eauto.
    - exists (NonVar a). split; auto.
      assert (Hn : exists n, op_node G t n) by (inversion Hval; subst; eauto). destruct Hn as (n & Hn).
      eapply arg_op; eauto.
  Qed.

  Lemma args_states sts : forall sids xs, Forall2 (var_tensor G) sts sids ->
    Forall2 (arg G feeder env0) (map (fun s => Incoming s true 0) sts) xs ->
    exists avs, xs = map RdWr avs /\ Forall2 (fun sid a => nth_error env0 sid = Some a) sids avs.
  Proof.
    induction sts as [|s sts IH]; intros sids xs Hs Hx; simpl in Hx; inv Hx; inv Hs.
    - exists []. split; auto.
    - destruct (IH _ _ H5 H3) as (avs & -> & Ha).
      destruct (arg_mut_var _ _ _ H2 H1) as (a & He & ->). exists (a :: avs). split; [reflexivity|]. constructor; auto.
  Qed.
  Lemma states_args sts : forall sids avs, Forall2 (var_tensor G) sts sids ->
    Forall2 (fun sid a => nth_error env0 sid = Some a) sids avs ->
    Forall2 (arg G feeder env0) (map (fun s => Incoming s true 0) sts) (map RdWr avs).
  Proof.
    induction sts as [|s sts IH]; intros sids avs Hs Hx; inv Hs; inv Hx; simpl; constructor.
    - destruct H1 as (n & Hn & Hp & Hv).
      apply (arg_var a_shape compute debug G feeder env0 (Incoming s true 0) n y y0); auto.
    - eapply IH; eauto.
  Qed.

  Lemma update_args p gr u sids vid n xs : update_tensor inj G opt p gr u sids -> var_tensor g p vid ->
    op_node G u n -> Forall2 (arg G feeder env0) (n_inputs n) xs ->
    exists pv gv avs x, xs = RdWr pv :: x :: map RdWr avs /\ (x = NonVar gv \/ x = RdOnly gv) /\
      nth_error env0 vid = Some pv /\ Forall2 (fun sid a => nth_error env0 sid = Some a) sids avs /\
      tensor_value G feeder env0 gr (inl gv).
  Proof.
    intros (n' & sts & Hn' & Hop & Hi & Hs) Hp Hn Hx.
    assert (n' = n) by (eapply op_node_fun; eauto). subst n'. rewrite Hi in Hx.
    inversion Hx as [|? x0 ? l1 H0 Hx1]; subst. inversion Hx1 as [|? x1 ? l2 H1 Hx2]; subst.
    destruct (arg_mut_var _ _ _ (vt_new _ _ Hp) H0) as (pv & Hpv & ->).
    destruct (arg_grad _ _ H1) as (gv & Hx1' & Hgv).
    destruct (args_states _ _ _ Hs Hx2) as (avs & -> & Ha).
    exists pv, gv, avs, x1. auto.
  Qed.

  Lemma names_len v sids : state_ids opt e v sids -> length sids = length (state_names opt 0).
  Proof.
    unfold state_ids. intros H. assert (Hl : length (state_names opt v) = length sids).
    { induction H; simpl; auto. }
    rewrite <- Hl. destruct opt; reflexivity.
  Qed.

  (** The writes of the update tensor reach the arrays of its parameter. *)
  Lemma update_written p gr u sids vid n ws (p' : arr R) sts' :
    update_tensor inj G opt p gr u sids -> var_tensor g p vid -> op_node G u n ->
    NoDup (vid :: sids) -> NoDup (map fst ws) -> length sts' = length sids ->
    (forall q v, In (q, v) ws <-> (q = 0 /\ v = p') \/ exists j, q = 2 + j /\ nth_error sts' j = Some v) ->
    (forall x, In x (vid :: sids) -> x < length env0) ->
    nth_error (apply_writes G (n_inputs n) ws env0) vid = Some p' /\
    Forall2 (fun sid a => nth_error (apply_writes G (n_inputs n) ws env0) sid = Some a) sids sts'.
  Proof.
    intros (n' & sts & Hn' & Hop & Hi & Hs) Hp Hn Hnd Hws Hlen Hw Hin.
    assert (n' = n) by (eapply op_node_fun; eauto). subst n'.
    assert (H0 : write_target G (n_inputs n) 0 = Some vid).
    { unfold write_target. rewrite Hi. simpl. destruct (vt_new _ _ Hp) as (m & Hm & Hmp & Hmv). rewrite Hm, Hmp. exact Hmv. }
    assert (Hj : forall j sid, nth_error sids j = Some sid -> write_target G (n_inputs n) (2 + j) = Some sid).
    { intros j sid Hsid. unfold write_target. rewrite Hi. simpl. rewrite nth_error_map.
      clear -Hs Hsid. revert sids Hs Hsid. revert j. induction sts as [|s sts IH]; intros j sids Hs Hsid; inv Hs.
      - destruct j; discriminate.
      - destruct j as [|j]; simpl in *.
        + injection Hsid as ->. destruct H1 as (m & Hm & Hmp & Hmv). rewrite Hm, Hmp. exact Hmv.
        + eapply IH; eauto. }
    assert (Htgt : forall q v, In (q, v) ws -> (q = 0 /\ write_target G (n_inputs n) q = Some vid) \/
              exists j sid, q = 2 + j /\ nth_error sids j = Some sid /\ write_target G (n_inputs n) q = Some sid).
    { intros q v Hq. apply Hw in Hq. destruct Hq as [[-> _]|(j & -> & Hjv)]; [left; auto|]. right.
      assert (Hjl : j < length sids) by (rewrite <- Hlen; apply nth_error_Some; congruence).
      destruct (nth_error sids j) as [sid|] eqn:Hsid; [|apply nth_error_None in Hsid; lia]. exists j, sid. auto. }
    inversion Hnd as [|? ? Hnv Hnd']; subst. split.
    - apply (writes_at G (n_inputs n) ws env0 0 p' vid); auto.
      + apply Hw. left; auto.
      + intros q v Hq Ht. destruct (Htgt q v Hq) as [[-> _]|(j & sid & -> & Hsid & Ht')]; auto.
        exfalso. apply Hnv. rewrite Ht in Ht'. injection Ht' as ->. eapply nth_in; eauto.
      + apply Hin. left; auto.
    - assert (Hall : forall j sid a, nth_error sids j = Some sid -> nth_error sts' j = Some a ->
                nth_error (apply_writes G (n_inputs n) ws env0) sid = Some a).
      { intros j sid a Hsid Ha. apply (writes_at G (n_inputs n) ws env0 (2 + j) a sid); auto.
        - apply Hw. right. exists j. auto.
        - intros q v Hq Ht. destruct (Htgt q v Hq) as [[-> Ht']|(j' & sid' & -> & Hsid' & Ht')].
          + exfalso. apply Hnv. rewrite Ht in Ht'. injection Ht' as <-. eapply nth_in; eauto.
          + rewrite Ht in Ht'. injection Ht' as <-. f_equal. f_equal.
            apply (proj1 (NoDup_nth_error sids) Hnd').
            * apply nth_error_Some. congruence.
            * congruence.
        - apply Hin. right. eapply nth_in; eauto. }
      clear -Hall Hlen. revert sts' Hlen Hall. generalize (apply_writes G (n_inputs n) ws env0). intros env1.
      induction sids as [|sid sids IH]; intros [|a sts'] Hlen Hall; try discriminate; constructor.
      + apply (Hall 0); reflexivity.
      + apply IH; [injection Hlen; auto|]. intros j. apply (Hall (S j)).
  Qed.

  (** ** What an evaluation has done *)
  Section Run.
    Variables (fuel : nat) (st : @state (arr R) E).
    Hypothesis Hloop : loop G feeder fuel (init_state ts env0) = Ok st.
    Hypothesis Hok : forall u, In u us -> exists ys, st_store st u = Some (inl ys).

    Lemma run_facts : execution a_shape compute debug G feeder env0 (rev (st_log st)) (st_store st) (st_env st) /\
      timely G ts (rev (st_log st)) /\ (forall k, In k (map event_id (rev (st_log st))) <-> needed G ts k) /\ st_stack st = [].
    Proof.
      pose proof (inv_init a_shape compute debug G feeder ts env0 ts_range) as HI.
      destruct (inv_loop _ _ _ _ _ _ _ wf_G _ _ _ HI Hloop) as [HI' Hst].
      pose proof (stage_loop _ _ _ _ _ _ _ wf_G _ _ _ HI (stage_init _ _ _) Hloop) as HS.
      split; [apply (I_exec _ _ _ _ _ _ _ _ HI')|]. split; [|split; [|exact Hst]].
      - exact (conj (I_order _ _ _ _ _ _ _ _ HI') (proj1 HS)).
      - intros k. rewrite <- (inv_final _ _ _ _ _ _ _ wf_G _ HI' Hst). symmetry. apply (stored_log _ _ _ _ _ _ _ _ _ HI').
    Qed.

    (** A tensor that sees the old values has its value from before the call. *)
    Theorem run_value t r : t < length g -> sees_old opt e g ps gs post 0 t ->
      st_store st t = Some r -> value g feeder env0 t r.
    Proof.
      intros Ht Hs Hr. destruct run_facts as (Hex & Htm & Hneed & _).
      assert (Hv : value G feeder env0 t r).
      { apply (first_value _ _ _ _ _ _ _ wf_G _ _ _ Hex Htm (fun k Hk => proj1 (Hneed k) Hk) t r (old_first t Ht Hs) Hr). }
      destruct Hext as (new & Hnew). rewrite Hnew in Hv. apply (ext_value_inv a_shape compute debug feeder env0 g new wf_g t r Hv Ht).
    Qed.

    (** Every update made its step from the values before the call. *)
    Theorem run_stepped k p gr vid names : nth_error ps k = Some p -> nth_error gs k = Some gr -> var_tensor g p vid ->
      stepped powf compute debug opt e c feeder (Env (st_env st) names) gr vid.
    Proof.
      intros Hp Hgr Hv. destruct run_facts as (Hex & Htm & Hneed & _).
      assert (Hk : k < length us) by (rewrite Hl2; apply nth_error_Some; congruence).
      destruct (nth_error us k) as [u|] eqn:Hu; [|apply nth_error_None in Hu; lia].
      destruct (param k u Hu) as (p1 & gr1 & vid1 & sids & Hp1 & Hgr1 & Hv1 & Hs & Ht & Hlt).
      assert (p1 = p) by congruence. assert (gr1 = gr) by congruence. subst p1 gr1.
      assert (vid1 = vid) by (eapply vt_fun; eauto). subst vid1.
      destruct (Hok u (nth_in _ _ _ Hu)) as (yy & Hyy).
      assert (Hcomp : computed G u) by (apply us_computed; eapply nth_in; eauto).
      assert (Hran : exists xs, In (Ran u xs) (rev (st_log st))).
      { assert (Hin : In u (map event_id (rev (st_log st)))).
        { apply Hneed. split; auto. exists u. split; [|apply rt_refl]. rewrite !in_app_iff. right. right. left. eapply nth_in; eauto. }
        apply in_map_iff in Hin. destruct Hin as ([u' xs|u'] & Hid & Hin); simpl in Hid; subst u'; [eauto|].
        exfalso. destruct (skipped_result _ _ _ _ _ _ _ _ _ Hex _ Hin) as (n & inc & e1 & Hn & _ & _ & Hs'). congruence. }
      destruct Hran as (xs & Hran).
      pose proof Ht as Ht'. destruct Ht as (n & sts & Hn & Hop & Hi & Hst).
      destruct (ran_result _ _ _ _ _ _ _ _ _ Hex u xs Hran) as (n1 & ws & ys & status & Hn1 & Hc & _ & _).
      assert (n1 = n) by (eapply op_node_fun; eauto). subst n1.
      destruct (update_run _ _ _ _ _ _ _ wf_G _ _ _ Hex Htm (fun k Hk => proj1 (Hneed k) Hk) u n xs Hn (us_first u (nth_in _ _ _ Hu)) Hran) as (Hargs & Heff).
      destruct (update_args p gr u sids vid n xs Ht' Hv Hn Hargs) as (pv & gv & avs & x & -> & Hx & Hpv & Havs & Hgv).
      rewrite Hop, Hcompute in Hc. unfold opt_compute in Hc.
      assert (Hlen : length avs = length (state_names opt 0)).
      { rewrite <- (forall2_len _ _ _ Havs). eapply names_len; eauto. }
      pose proof (opt_writes_step powf opt pv gv x avs Hx Hlen) as Hstep.
      destruct (opt_step powf opt pv gv avs) as [[p' svs']|] eqn:Hos; [|rewrite Hstep in Hc; discriminate].
      destruct Hstep as (ws' & Hws & Hl' & Hndw & Hpos). rewrite Hws in Hc. injection Hc as <- <- <-.
      assert (Hndv : NoDup (vid :: sids)) by (apply (u_within _ _ _ _ _ Hupd p); auto; eapply nth_in; eauto).
      assert (Hbound : forall z, In z (vid :: sids) -> z < length env0).
      { intros z [<-|Hz]; [apply nth_error_Some; congruence|].
        clear -Havs Hz. induction Havs as [|a b l l' Hab Hl IH]; [destruct Hz|].
        destruct Hz as [->|Hz]; [|auto]. apply nth_error_Some. congruence. }
      destruct (update_written p gr u sids vid n ws' p' svs' Ht' Hv Hn Hndv Hndw) as (Hw1 & Hw2); auto.
      { rewrite Hl', <- (forall2_len _ _ _ Havs). reflexivity. }
      assert (Hsole : forall z, operand opt e vid z -> forall u', needed G ts u' -> changes G u' z -> u' = u).
      { intros z Hz u' Hu' Hc'.
        destruct (needed_changes u' z Hu' Hc') as (l & q & gr' & w & sids' & Hul & Hql & Hgl & Hw & _ & _ & _ & Hopz).
        assert (k = l) by (apply (u_apart _ _ _ _ _ Hupd k l p q vid w z); auto). subst l. congruence. }
      assert (Heff' : forall z, operand opt e vid z ->
                nth_error (st_env st) z = nth_error (apply_writes G (n_inputs n) ws' env0) z).
      { intros z Hz. apply (Heff ws' [empty_output] None) with (env1 := apply_writes G (n_inputs n) ws' env0).
        - rewrite Hop, Hcompute. unfold opt_compute. rewrite Hws. reflexivity.
        - apply apply_writes_updated.
        - apply Hsole. exact Hz. }
      exists sids, pv, gv, avs, p', svs'. split; auto. split; auto. split; auto. split.
      { destruct Hext as (new' & Hnew'). rewrite Hnew' in Hgv.
        apply (ext_tensor_value_iff a_shape compute debug feeder env0 g new' wf_g gr (inl gv) Hlt). exact Hgv. }
      split; auto. split.
      + cbn [array_list]. rewrite Heff' by (left; auto). exact Hw1.
      + cbn [array_list]. clear -Hw2 Heff' Hs. assert (Hsub : forall z, In z sids -> operand opt e vid z).
        { intros z Hz. right. exists sids. auto. }
        clear Hs. induction Hw2 as [|a b l l' Hab Hl IH]; constructor.
        * rewrite Heff'; auto. apply Hsub. left; auto.
        * apply IH. intros z Hz. apply Hsub. right; auto.
    Qed.

    Theorem run_untouched x : (forall p vid, In p ps -> var_tensor g p vid -> ~ operand opt e vid x) ->
      nth_error (st_env st) x = nth_error env0 x.
    Proof.
      intros Hx. destruct run_facts as (Hex & Htm & Hneed & _).
      apply (unchanged _ _ _ _ _ _ _ _ _ x Hex). intros u Hu Hc.
      destruct (needed_changes u x (proj1 (Hneed u) Hu) Hc) as (l & q & gr' & w & sids' & _ & Hql & _ & Hw & _ & _ & _ & Hop).
      apply (Hx q w); auto. eapply nth_in; eauto.
    Qed.
    Theorem run_length : length (st_env st) = length env0.
    Proof. destruct run_facts as (Hex & _). apply (execution_env_length _ _ _ _ _ _ _ _ _ Hex). Qed.

    (** The value an update leaves is the zero scalar. *)
    Theorem run_empty u : In u us -> st_store st u = Some (inl [empty_output]).
    Proof.
      intros Hu. destruct run_facts as (Hex & Htm & Hneed & _). destruct (Hok u Hu) as (yy & Hyy).
      assert (Hcomp : computed G u) by (apply us_computed; exact Hu).
      assert (Hin : In u (map event_id (rev (st_log st)))).
      { apply Hneed. split; auto. exists u. split; [|apply rt_refl]. rewrite !in_app_iff. auto. }
      apply in_map_iff in Hin. destruct Hin as ([u' xs|u'] & Hid & Hin); simpl in Hid; subst u'.
      - destruct (ran_result _ _ _ _ _ _ _ _ _ Hex u xs Hin) as (n1 & ws & ys & status & Hn1 & Hc & _ & Hs).
        apply In_nth_error in Hu. destruct Hu as (k & Hk).
        destruct (param k u Hk) as (p & gr & vid & sids & _ & _ & _ & _ & (n & sts & Hn & Hop & _) & _).
        assert (n1 = n) by (eapply op_node_fun; eauto). subst n1. rewrite Hop, Hcompute in Hc. unfold opt_compute in Hc.
        destruct (opt_writes powf (update_op opt) xs); [|discriminate]. injection Hc as <- <- <-. exact Hs.
      - exfalso. destruct (skipped_result _ _ _ _ _ _ _ _ _ Hex _ Hin) as (n & inc & e1 & Hn & _ & _ & Hs). congruence.
    Qed.
  End Run.
End Joint.
