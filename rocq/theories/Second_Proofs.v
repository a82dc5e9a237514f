(** The arrays that the labels' gradients of the cross entropies consist of. *)
From Coq Require Import List Arith ZArith Bool Reals Lia Lra.
Import ListNotations.
From Verif Require Import Array_Model Array_Proofs Reduce_Model Arith_Model Arith_Proofs Vjp_Spec Vjp_Proofs Dot_Spec Softmax_Model Softmax_Spec.
From Verif Require Import Eval_Proofs Array_Sum Broadcast_Spec Arith_Final Reduce_Spec Reduce_Proofs Shape_Spec Dot_Model Dot_Proofs Softmax_Proofs Softmax_Proofs2 Softmax_Proofs3 Softmax_Xent P_Softmax.
Local Open Scope R_scope.

(** The column of an array with [k] columns that column [j] of a broadcast result reads. *)
Definition col (k j : nat) : nat := if (k =? 1)%nat then 0%nat else j.

Section Terms.
  Variable at_empty : arr R -> option R.
  Hypothesis AE : at_empty_ok 0 at_empty.
  Notation mul := (mul_forward 0 Rmult at_empty).
  Notation sub := (sub_forward 0 Rminus at_empty).

  (** [reduce_sum(exp(l) * l, [axis], true)] and its difference from [l]. *)
  Lemma entropy_terms axis n c (l : arr R) : names_axis 2 axis 1 -> has_shape [n; c] l -> (n * c <> 0)%nat ->
    exists p s d, mul (amap exp l) l = Some p /\ reduce 0 Rplus 0 [axis] true false p = Some s /\ sub s l = Some d /\
      has_shape [n; c] d /\
      forall i j, (i < n)%nat -> (j < c)%nat ->
        aget 0 d [i; j] = sum_below c (fun k => exp (aget 0 l [i; k]) * aget 0 l [i; k]) - aget 0 l [i; j].
  Proof.
    intros Ax Hl N. apply has_shape_wf in Hl. destruct Hl as [Sl Wl].
    rewrite (mul_same at_empty AE [n; c]) by first [exact Sl | apply amap_wf; exact Wl | exact Wl | simpl; lia].
    set (p := tab [n; c] _).
    destruct (reduce_line axis p 1) as (s & E & Ss & Ws & Gs); [simpl; congruence|exact Ax|].
    cbn in Ss. change (a_shape p) with [n; c] in Ss, Gs. 
    destruct (sub_forward_ok 0 Rminus at_empty AE s l [n; c]) as (d & Ed & Sd & Qd).
    { exact Ws. } { exact Wl. }
    { rewrite Ss, Sl. unfold co_broadcast. cbn. rewrite Nat.eqb_refl. destruct c as [|[|c]]; reflexivity. }
    exists p, s, d. split; [reflexivity|]. split; [exact E|]. split; [exact Ed|].
    destruct Qd as [Wd Qd]. split; [split; [exact Sd|rewrite Wd, Sd; reflexivity]|].
    intros i j Hi Hj. rewrite (Qd [i; j]) by (rewrite Sd; apply in_bounds_pair; lia).
    rewrite Sl, (bc_idx_self [n; c] [i; j]) by (apply in_bounds_pair; lia). f_equal.
    replace (bc_idx (a_shape s) [i; j]) with (set_at 1 0%nat [i; j]).
    2:{ rewrite Ss. unfold bc_idx. cbn. destruct (Nat.eqb_spec n 1) as [->|]; [|reflexivity]. f_equal. lia. }
    rewrite (Gs [i; j]) by (apply in_bounds_pair; lia). cbn [nth]. rewrite sum_below_rsum. apply sum_ext. intros k Hk. apply in_seq in Hk.
    cbn [set_at]. unfold p. rewrite aget_tab by (apply in_bounds_pair; lia).
    rewrite (aget_map 0) by (first [exact Wl | rewrite Sl; apply in_bounds_pair; lia]). reflexivity.
  Qed.

  Lemma sparse_terms n c (l gy d : arr R) : has_shape [n; c] l -> has_shape [n; 1%nat] gy -> has_shape [n; c] d -> (n * c <> 0)%nat ->
    exists xg r, mul (amap exp l) gy = Some xg /\ mul xg d = Some r /\ has_shape [n; c] r /\
      forall i j, (i < n)%nat -> (j < c)%nat -> aget 0 r [i; j] = exp (aget 0 l [i; j]) * aget 0 gy [i; 0%nat] * aget 0 d [i; j].
  Proof.
    intros Hl Hg Hd N. apply has_shape_wf in Hl, Hg, Hd. destruct Hl as [Sl Wl], Hg as [Sg Wg], Hd as [Sd Wd].
    rewrite (mul_set at_empty AE [n; c] 1) by first [exact Sl | apply amap_wf; exact Wl | exact Sg | exact Wg | simpl; lia].
    eexists _, _. split; [reflexivity|].
    rewrite (mul_same at_empty AE [n; c]) by first [reflexivity | apply tab_wf | exact Sd | exact Wd | simpl; lia].
    split; [reflexivity|]. split; [apply tab_has_shape|]. intros i j Hi Hj.
    rewrite !aget_tab by (apply in_bounds_pair; lia). rewrite (aget_map 0) by (first [exact Wl | rewrite Sl; apply in_bounds_pair; lia]). reflexivity.
  Qed.

  Lemma co_broadcast_vec n c : n = c \/ n = 1%nat \/ c = 1%nat -> co_broadcast [n] [n; c] = Some [n; if (n =? 1)%nat then c else n].
  Proof.
    intros H. unfold co_broadcast. cbn. destruct H as [->|[->| ->]].
    - rewrite !Nat.eqb_refl. destruct (Nat.eqb_spec c 1) as [->|]; reflexivity.
    - destruct (Nat.eqb_spec 1 c) as [<-|]; [reflexivity|]. cbn. destruct (Nat.eqb_spec c 1); [congruence|reflexivity].
    - destruct (Nat.eqb_spec n 1) as [->|]; reflexivity.
  Qed.
  Lemma co_broadcast_vec_none n c : n <> c -> n <> 1%nat -> c <> 1%nat -> co_broadcast [n] [n; c] = None.
  Proof.
    intros A B C. unfold co_broadcast. cbn.
    repeat match goal with |- context [(?a =? ?b)%nat] => destruct (Nat.eqb_spec a b); [congruence|]; cbn end. reflexivity.
  Qed.
  Lemma dense_terms n c (gy y d : arr R) : has_shape [n] gy -> has_shape [n] y -> has_shape [n; c] d -> (n * c <> 0)%nat ->
    n = c \/ n = 1%nat \/ c = 1%nat ->
    let m := if (n =? 1)%nat then c else n in
    exists e r, mul gy d = Some e /\ mul e y = Some r /\ has_shape [n; m] r /\
      forall i j, (i < n)%nat -> (j < m)%nat -> aget 0 r [i; j] = aget 0 gy [col n j] * aget 0 d [i; col c j] * aget 0 y [col n j].
  Proof.
    intros Hg Hy Hd N B m. apply has_shape_wf in Hg, Hy, Hd. destruct Hg as [Sg Wg], Hy as [Sy Wy], Hd as [Sd Wd].
    assert (Pm : prod [n; m] <> 0%nat) by (unfold m; cbn; destruct (Nat.eqb_spec n 1); lia).
    destruct (bin_forward_ok 0 at_empty AE Rmult gy d [n; m] Rmult_comm Wg Wd) as (e & Ee & Se & We & Qe); [rewrite Sg, Sd; apply co_broadcast_vec; exact B|exact Pm|].
    destruct (bin_forward_ok 0 at_empty AE Rmult e y [n; m] Rmult_comm We Wy) as (r & Er & Sr & Wr & Qr).
    { rewrite Se, Sy. unfold m, co_broadcast. cbn. destruct (Nat.eqb_spec n 1) as [->|]; [|rewrite Nat.eqb_refl; reflexivity].
      destruct (Nat.eqb_spec c 1) as [->|]; reflexivity. }
    { exact Pm. }
    exists e, r. split; [exact Ee|]. split; [exact Er|]. split; [split; [exact Sr|rewrite Wr, Sr; reflexivity]|].
    intros i j Hi Hj.
    assert (Hb : in_bounds [n; m] [i; j]) by (apply in_bounds_pair; split; assumption).
    rewrite Qr by (rewrite Sr; exact Hb). rewrite Se, Sy, (bc_idx_self [n; m] [i; j] Hb).
    rewrite Qe by (rewrite Se; exact Hb). rewrite Sg, Sd. unfold bc_idx, col. cbn.
    destruct (Nat.eqb_spec n 1) as [->|]; [|reflexivity]. assert (i = 0%nat) by lia. subst i. reflexivity.
  Qed.
  Lemma dense_terms_none n c (gy d : arr R) : has_shape [n] gy -> has_shape [n; c] d -> (n * c <> 0)%nat ->
    n <> c -> n <> 1%nat -> c <> 1%nat -> mul gy d = None.
  Proof.
    intros Hg Hd N A B C. apply has_shape_wf in Hg, Hd. destruct Hg as [Sg Wg], Hd as [Sd Wd].
    apply (forward_none 0 1 Rminus Rmult Rdiv at_empty Rmult gy d Wg Wd); rewrite ?Sg, ?Sd; try congruence.
    - apply co_broadcast_vec_none; assumption.
    - intros E. injection E as E. subst n. cbn in N. lia.
  Qed.
End Terms.
