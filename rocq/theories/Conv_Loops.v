(** im2col and col2im in closed form. *)
From Coq Require Import List Arith ZArith Bool Lia.
Import ListNotations.
From Verif Require Import Eval_Proofs Array_Model Array_Proofs Kernel_Model Kernel_Proofs Conv_Model.
Local Open Scope Z_scope.

Notation z := Z.of_nat.

Definition inb (r n : Z) : bool := (0 <=? r) && (r <? n).
Lemma inb_ok r n : inb r n = true <-> 0 <= r < n.
Proof. unfold inb. rewrite andb_true_iff, Z.leb_le, Z.ltb_lt. tauto. Qed.
Lemma u32_inb r n : - 2 ^ 31 <= r < 2 ^ 31 -> 0 <= n < 2 ^ 31 -> (u32 r <? u32 n) = inb r n.
Proof.
  intros Hr Hn. unfold u32, inb. rewrite (Z.mod_small n) by lia. destruct (Z.leb_spec 0 r); cbn [andb].
  - rewrite Z.mod_small by lia. reflexivity.
  - replace (r mod 2 ^ 32) with (r + 2 ^ 32); [destruct (Z.ltb_spec (r + 2 ^ 32) n); [lia|reflexivity]|].
    replace r with ((r + 2 ^ 32) + (-1) * 2 ^ 32) at 2 by lia. rewrite Z.mod_add by lia. rewrite Z.mod_small by lia. reflexivity.
Qed.

Lemma flat_map_ext_in {X Y} (f g : X -> list Y) l : (forall x, In x l -> f x = g x) -> flat_map f l = flat_map g l.
Proof. induction l as [|x l IH]; intros H; simpl; [reflexivity|]. rewrite H, IH; simpl; auto. intros; apply H; simpl; auto. Qed.
Lemma flat_map_single {X Y} (f : X -> Y) l : flat_map (fun x => [f x]) l = map f l.
Proof. induction l as [|x l IH]; simpl; [reflexivity|]. rewrite IH. reflexivity. Qed.
Lemma map_flat_map {X Y W} (f : Y -> W) (g : X -> list Y) l : map f (flat_map g l) = flat_map (fun x => map f (g x)) l.
Proof. induction l as [|x l IH]; simpl; [reflexivity|]. rewrite map_app, IH. reflexivity. Qed.
Lemma flat_map_flat_map {X Y W} (f : Y -> list W) (g : X -> list Y) l : flat_map f (flat_map g l) = flat_map (fun x => flat_map f (g x)) l.
Proof. induction l as [|x l IH]; simpl; [reflexivity|]. rewrite flat_map_app, IH. reflexivity. Qed.
Lemma flat_map_map {X Y W} (f : Y -> list W) (g : X -> Y) l : flat_map f (map g l) = flat_map (fun x => f (g x)) l.
Proof. induction l as [|x l IH]; simpl; [reflexivity|]. rewrite IH. reflexivity. Qed.

(** A nest of loops as one loop over the indices. *)
Lemma flat_indices {W} (f : list nat -> list W) d sh : flat_map f (indices (d :: sh)) = flat_map (fun i => flat_map (fun t => f (i :: t)) (indices sh)) (seq 0 d).
Proof. simpl. rewrite flat_map_flat_map. apply flat_map_ext. intros i. apply flat_map_map. Qed.
Lemma flat_indices5 {W} (f : nat -> nat -> nat -> nat -> nat -> list W) a b c d e :
  flat_map (fun i => flat_map (fun j => flat_map (fun k => flat_map (fun l => flat_map (fun m => f i j k l m) (seq 0 e)) (seq 0 d)) (seq 0 c)) (seq 0 b)) (seq 0 a) =
  flat_map (fun idx => match idx with [i; j; k; l; m] => f i j k l m | _ => [] end) (indices [a; b; c; d; e]).
Proof.
  rewrite flat_indices. apply flat_map_ext. intros i. rewrite flat_indices. apply flat_map_ext. intros j.
  rewrite flat_indices. apply flat_map_ext. intros k. rewrite flat_indices. apply flat_map_ext. intros l.
  rewrite flat_indices. apply flat_map_ext. intros m. simpl. rewrite app_nil_r. reflexivity.
Qed.

Lemma loop_from {S} n (body : nat -> S -> list instr * S) (st : nat -> S) out s0 :
  s0 = st 0%nat -> (forall k, (k < n)%nat -> body k (st k) = (out k, st (k + 1)%nat)) ->
  loop n 0 body s0 = (flat_map out (seq 0 n), st n).
Proof. intros -> H. rewrite (loop_closed n 0 body st out) by (intros; apply H; lia). reflexivity. Qed.

(** The image position that entry (ki,kj,i,j) of the columns takes: row and
    column relative to the image (outside it: padding). *)
Definition tap (p s d i k : nat) : Z := z (i * s + k * d) - z p.

Section Loops.
  Variables (xch xh xw kh kw p s d yh yw : nat).
  Hypothesis Hyh : out_size (z xh) (z p) (z s) (z d) (z kh) = z yh.
  Hypothesis Hyw : out_size (z xw) (z p) (z s) (z d) (z kw) = z yw.
  Hypothesis Fh : forall i k, (i < yh)%nat -> (k < kh)%nat -> tap p s d i k < 2 ^ 31.
  Hypothesis Fw : forall i k, (i < yw)%nat -> (k < kw)%nat -> tap p s d i k < 2 ^ 31.
  Hypothesis Fp : z p < 2 ^ 31.
  Hypothesis Fxh : z xh < 2 ^ 31.
  Hypothesis Fxw : z xw < 2 ^ 31.

  (** Offset in the image of entry (c,ki,kj,i,j), if it is not padding. *)
  Definition source (idx : list nat) : option Z :=
    match idx with
    | [c; ki; kj; i; j] =>
        let r := tap p s d i ki in let q := tap p s d j kj in
        if inb r (z xh) && inb q (z xw) then Some (z c * (z xh * z xw) + (r * z xw + q)) else None
    | _ => None
    end.
  Notation csh := [xch; kh; kw; yh; yw].

  Lemma test_h i k : (i < yh)%nat -> (k < kh)%nat -> (u32 (z k * z d - z p + z i * z s) <? u32 (z xh)) = inb (tap p s d i k) (z xh).
  Proof.
    intros Hi Hk. specialize (Fh i k Hi Hk). replace (z k * z d - z p + z i * z s) with (tap p s d i k) by (unfold tap; lia).
    apply u32_inb; unfold tap in *; lia.
  Qed.
  Lemma test_w i k : (i < yw)%nat -> (k < kw)%nat -> (u32 (z k * z d - z p + z i * z s) <? u32 (z xw)) = inb (tap p s d i k) (z xw).
  Proof.
    intros Hi Hk. specialize (Fw i k Hi Hk). replace (z k * z d - z p + z i * z s) with (tap p s d i k) by (unfold tap; lia).
    apply u32_inb; unfold tap in *; lia.
  Qed.

  Definition im2col_ins (x ret : addr) (idx : list nat) : instr :=
    match source idx with
    | Some o => Copy (fst ret, snd ret + z (ravel csh idx)) (fst x, snd x + o)
    | None => Zero (fst ret, snd ret + z (ravel csh idx))
    end.

  Theorem im2col_closed x ret :
    im2col x ret (z xch) (z xh) (z xw) (z kh) (z kw) (z p) (z p) (z s) (z s) (z d) (z d) =
    map (im2col_ins x ret) (indices csh).
  Proof.
    unfold im2col. rewrite Hyh, Hyw, !Nat2Z.id.
    rewrite (loop_from xch _ (fun c => (snd x + z c * (z xh * z xw), snd ret + z c * z (kh * kw * yh * yw)))
      (fun c => flat_map (fun ki => flat_map (fun kj => flat_map (fun i => flat_map (fun j =>
         [im2col_ins x ret [c; ki; kj; i; j]]) (seq 0 yw)) (seq 0 yh)) (seq 0 kw)) (seq 0 kh))).
    2: { f_equal; lia. }
    2: { intros c Hc.
      rewrite (loop_from kh _ (fun ki => snd ret + z c * z (kh * kw * yh * yw) + z ki * z (kw * yh * yw))
        (fun ki => flat_map (fun kj => flat_map (fun i => flat_map (fun j =>
         [im2col_ins x ret [c; ki; kj; i; j]]) (seq 0 yw)) (seq 0 yh)) (seq 0 kw))).
      - f_equal. f_equal; lia.
      - lia.
      - intros ki Hki.
        rewrite (loop_from kw _ (fun kj => snd ret + z c * z (kh * kw * yh * yw) + z ki * z (kw * yh * yw) + z kj * z (yh * yw))
          (fun kj => flat_map (fun i => flat_map (fun j => [im2col_ins x ret [c; ki; kj; i; j]]) (seq 0 yw)) (seq 0 yh))).
        + f_equal. lia.
        + lia.
        + intros kj Hkj.
          rewrite (loop_from yh _ (fun i => (snd ret + z c * z (kh * kw * yh * yw) + z ki * z (kw * yh * yw) + z kj * z (yh * yw) + z i * z yw, z ki * z d - z p + z i * z s))
            (fun i => flat_map (fun j => [im2col_ins x ret [c; ki; kj; i; j]]) (seq 0 yw))).
          * f_equal. lia.
          * f_equal; lia.
          * intros i Hi. f_equal; [|f_equal; lia]. rewrite test_h by assumption.
            destruct (inb (tap p s d i ki) (z xh)) eqn:Er.
            -- rewrite (loop_from yw _ (fun j => z kj * z d - z p + z j * z s) (fun j => [im2col_ins x ret [c; ki; kj; i; j]])); [reflexivity|lia|].
               intros j Hj. f_equal; [|lia]. f_equal. rewrite test_w by assumption. unfold im2col_ins. simpl source. rewrite Er. simpl andb.
               destruct (inb (tap p s d j kj) (z xw)) eqn:Eq.
               ++ f_equal; f_equal; simpl ravel; unfold tap; lia.
               ++ f_equal; f_equal; simpl ravel; lia.
            -- rewrite flat_map_single. apply map_ext_in. intros j Hj. apply in_seq in Hj. unfold im2col_ins. simpl source. rewrite Er. simpl andb.
               cbv iota. f_equal. f_equal. simpl ravel. lia. }
    simpl fst. rewrite (flat_indices5 (fun c ki kj i j => [im2col_ins x ret [c; ki; kj; i; j]])).
    rewrite <- flat_map_single. apply flat_map_ext_in. intros idx Hidx. apply indices_in in Hidx.
    assert (L : length idx = 5%nat) by (rewrite (in_bounds_length _ _ Hidx); reflexivity).
    destruct idx as [|c [|ki [|kj [|i [|j [|? ?]]]]]]; try discriminate L. reflexivity.
  Qed.

  Definition col2im_ins (x ret : addr) (idx : list nat) : list instr :=
    match source idx with
    | Some o => [Accum (fst ret, snd ret + o) (fst x, snd x + z (ravel csh idx))]
    | None => []
    end.
  Theorem col2im_closed x ret :
    col2im x ret (z xch) (z xh) (z xw) (z kh) (z kw) (z p) (z p) (z s) (z s) (z d) (z d) =
    flat_map (col2im_ins x ret) (indices csh).
  Proof.
    unfold col2im. rewrite Hyh, Hyw, !Nat2Z.id.
    rewrite (loop_from xch _ (fun c => (snd x + z c * z (kh * kw * yh * yw), snd ret + z c * (z xh * z xw)))
      (fun c => flat_map (fun ki => flat_map (fun kj => flat_map (fun i => flat_map (fun j =>
         col2im_ins x ret [c; ki; kj; i; j]) (seq 0 yw)) (seq 0 yh)) (seq 0 kw)) (seq 0 kh))).
    2: { f_equal; lia. }
    2: { intros c Hc.
      rewrite (loop_from kh _ (fun ki => snd x + z c * z (kh * kw * yh * yw) + z ki * z (kw * yh * yw))
        (fun ki => flat_map (fun kj => flat_map (fun i => flat_map (fun j =>
         col2im_ins x ret [c; ki; kj; i; j]) (seq 0 yw)) (seq 0 yh)) (seq 0 kw))).
      - f_equal. f_equal; lia.
      - lia.
      - intros ki Hki.
        rewrite (loop_from kw _ (fun kj => snd x + z c * z (kh * kw * yh * yw) + z ki * z (kw * yh * yw) + z kj * z (yh * yw))
          (fun kj => flat_map (fun i => flat_map (fun j => col2im_ins x ret [c; ki; kj; i; j]) (seq 0 yw)) (seq 0 yh))).
        + f_equal. lia.
        + lia.
        + intros kj Hkj.
          rewrite (loop_from yh _ (fun i => (snd x + z c * z (kh * kw * yh * yw) + z ki * z (kw * yh * yw) + z kj * z (yh * yw) + z i * z yw, z ki * z d - z p + z i * z s))
            (fun i => flat_map (fun j => col2im_ins x ret [c; ki; kj; i; j]) (seq 0 yw))).
          * f_equal. lia.
          * f_equal; lia.
          * intros i Hi. f_equal; [|f_equal; lia]. rewrite test_h by assumption.
            destruct (inb (tap p s d i ki) (z xh)) eqn:Er.
            -- rewrite (loop_from yw _ (fun j => z kj * z d - z p + z j * z s) (fun j => col2im_ins x ret [c; ki; kj; i; j])); [reflexivity|lia|].
               intros j Hj. f_equal; [|lia]. rewrite test_w by assumption. unfold col2im_ins. simpl source. rewrite Er. simpl andb.
               destruct (inb (tap p s d j kj) (z xw)) eqn:Eq; [|reflexivity].
               f_equal. f_equal; f_equal; simpl ravel; unfold tap; lia.
            -- symmetry. rewrite (flat_map_ext_in _ (fun _ => []) (seq 0 yw)).
               ++ clear. induction (seq 0 yw); simpl; auto.
               ++ intros j Hj. unfold col2im_ins. simpl source. rewrite Er. reflexivity. }
    simpl fst. rewrite (flat_indices5 (fun c ki kj i j => col2im_ins x ret [c; ki; kj; i; j])).
    apply flat_map_ext_in. intros idx Hidx. apply indices_in in Hidx.
    assert (L : length idx = 5%nat) by (rewrite (in_bounds_length _ _ Hidx); reflexivity).
    destruct idx as [|c [|ki [|kj [|i [|j [|? ?]]]]]]; try discriminate L. reflexivity.
  Qed.
End Loops.
