(** Executing instruction lists: loads after stores, instructions that do not
    interfere commute, every interleaving of independent items gives the same
    memory. *)
From Coq Require Import List Arith ZArith Bool Lia.
Import ListNotations.
From Verif Require Import Eval_Proofs Array_Model Array_Proofs Kernel_Model.

(** Addresses an instruction reads. *)
Definition reads (i : instr) : list addr :=
  match i with
  | Copy _ s => [s] | Zero _ => [] | Accum d s => [d; s]
  | Gemm d false l => map fst l ++ map snd l
  | Gemm d true l => d :: map fst l ++ map snd l
  end.
(** Neither writes what the other one reads or writes. *)
Definition independent (i j : instr) : Prop :=
  dest i <> dest j /\ ~ In (dest i) (reads j) /\ ~ In (dest j) (reads i).

Lemma addr_dec (a b : addr) : {a = b} + {a <> b}.
Proof. decide equality; [apply Z.eq_dec | apply Nat.eq_dec]. Qed.
Definition addr_eqb (a b : addr) : bool := if addr_dec a b then true else false.
Lemma addr_eqb_ok a b : addr_eqb a b = true <-> a = b.
Proof. unfold addr_eqb. destruct (addr_dec a b); split; auto; discriminate. Qed.

Lemma nth_error_set {X} k (x : X) l j : nth_error (set_at k x l) j = if (j =? k) && (k <? length l) then Some x else nth_error l j.
Proof.
  revert k j. induction l as [|y l IH]; intros k j.
  - destruct k; simpl; rewrite andb_false_r; reflexivity.
  - destruct k as [|k]; destruct j as [|j]; simpl; try reflexivity. rewrite IH. reflexivity.
Qed.
Lemma set_set_comm {X} k k' (x x' : X) l : k <> k' -> set_at k x (set_at k' x' l) = set_at k' x' (set_at k x l).
Proof.
  revert k k'. induction l as [|y l IH]; intros k k' N; [destruct k, k'; reflexivity|].
  destruct k as [|k], k' as [|k']; simpl; try reflexivity; [contradiction|]. rewrite IH by lia. reflexivity.
Qed.
Lemma set_set_same {X} k (x x' : X) l : set_at k x (set_at k x' l) = set_at k x l.
Proof. revert k. induction l as [|y l IH]; intros [|k]; simpl; try reflexivity. rewrite IH. reflexivity. Qed.

Section Exec.
  Context {A : Type} (zero : A) (add mul : A -> A -> A).
  Notation mem := (@mem A).
  Notation exec1 := (exec1 zero add mul).
  Notation exec := (exec zero add mul).
  Notation value := (value zero add mul).

  Lemma load_ok (m : mem) a v : load m a = Some v -> (0 <= snd a)%Z /\ exists l, nth_error m (fst a) = Some l /\ nth_error l (Z.to_nat (snd a)) = Some v.
  Proof.
    unfold load. destruct (Z.ltb_spec (snd a) 0); [discriminate|]. destruct (nth_error m (fst a)) as [l|]; [|discriminate].
    intros E. split; [lia|]. exists l. auto.
  Qed.
  Lemma store_load (m : mem) a v (m' : mem) : store m a v = Some m' -> forall b, load m' b = if addr_eqb a b then Some v else load m b.
  Proof.
    unfold store. destruct (load m a) as [x|] eqn:E; [|discriminate]. intros H; inv H. intros b.
    apply load_ok in E. destruct E as (P & l & El & Ex). destruct a as [ab ao], b as [bb bo]; simpl in *.
    unfold load. simpl. rewrite nth_error_set. rewrite (nth_error_nth _ _ [] El).
    assert (Lm : ab < length m) by (apply nth_error_Some; congruence).
    assert (Ll : Z.to_nat ao < length l) by (apply nth_error_Some; congruence).
    destruct (addr_eqb (ab, ao) (bb, bo)) eqn:Q.
    - apply addr_eqb_ok in Q. inv Q. destruct (Z.ltb_spec bo 0); [lia|]. rewrite Nat.eqb_refl. destruct (Nat.ltb_spec bb (length m)); [|lia].
      simpl. rewrite nth_error_set, Nat.eqb_refl. destruct (Nat.ltb_spec (Z.to_nat bo) (length l)); [reflexivity|lia].
    - destruct (Z.ltb_spec bo 0); [reflexivity|]. destruct (Nat.eqb_spec bb ab) as [->|N]; [|reflexivity].
      destruct (Nat.ltb_spec ab (length m)); [|lia]. simpl. rewrite nth_error_set.
      destruct (Nat.eqb_spec (Z.to_nat bo) (Z.to_nat ao)) as [E|N].
      + exfalso. assert (bo = ao) by lia. subst. assert (addr_eqb (ab, ao) (ab, ao) = true) by (apply addr_eqb_ok; reflexivity). congruence.
      + simpl. rewrite El. reflexivity.
  Qed.
  Lemma store_defined (m : mem) a v : store m a v = None <-> load m a = None.
  Proof. unfold store. destruct (load m a); split; congruence. Qed.
  Lemma store_comm (m : mem) a b u v : a <> b ->
    match store m a u with Some m => store m b v | None => None end =
    match store m b v with Some m => store m a u | None => None end.
  Proof.
    intros N. destruct (store m a u) as [ma|] eqn:Ea, (store m b v) as [mb|] eqn:Eb.
    - pose proof (store_load _ _ _ _ Ea b) as Lb. pose proof (store_load _ _ _ _ Eb a) as La.
      assert (Na : addr_eqb a b = false) by (destruct (addr_eqb a b) eqn:Q; auto; apply addr_eqb_ok in Q; contradiction).
      assert (Nb : addr_eqb b a = false) by (destruct (addr_eqb b a) eqn:Q; auto; apply addr_eqb_ok in Q; subst; contradiction).
      rewrite Na in Lb. rewrite Nb in La. unfold store in *. rewrite La, Lb.
      destruct (load m a) eqn:Xa; [|discriminate]. destruct (load m b) eqn:Xb; [|discriminate]. inv Ea. inv Eb. f_equal.
      destruct a as [ab ao], b as [bb bo]. simpl in *.
      apply load_ok in Xa. destruct Xa as (Pa & la & Ela & Exa). apply load_ok in Xb. destruct Xb as (Pb & lb & Elb & Exb). simpl in *.
      destruct (Nat.eq_dec ab bb) as [->|Nab].
      + rewrite !set_set_same. f_equal. assert (Lm : bb < length m) by (apply nth_error_Some; congruence).
        assert (Ez : Z.to_nat bo <> Z.to_nat ao) by (intros Q; apply N; f_equal; lia).
        rewrite (nth_set bb), (nth_set bb). rewrite Nat.eqb_refl. destruct (Nat.ltb_spec bb (length m)); [|lia]. simpl. apply set_set_comm. exact Ez.
      + rewrite set_set_comm by auto. rewrite !nth_set.
        destruct (Nat.eqb_spec bb ab); [congruence|]. destruct (Nat.eqb_spec ab bb); [congruence|]. reflexivity.
    - apply store_defined in Eb. apply store_defined. rewrite (store_load _ _ _ _ Ea b).
      destruct (addr_eqb a b) eqn:Q; [apply addr_eqb_ok in Q; contradiction|exact Eb].
    - apply store_defined in Ea. symmetry. apply store_defined. rewrite (store_load _ _ _ _ Eb a).
      destruct (addr_eqb b a) eqn:Q; [apply addr_eqb_ok in Q; subst; contradiction|exact Ea].
    - reflexivity.
  Qed.

  Lemma products_ext (m m' : mem) l : (forall a, In a (map fst l ++ map snd l) -> load m' a = load m a) -> forall s, products add mul m' l s = products add mul m l s.
  Proof.
    induction l as [|[a b] l IH]; intros H s; simpl; [reflexivity|]. simpl in H.
    rewrite (H a) by auto. rewrite (H b) by (right; apply in_or_app; right; simpl; auto).
    destruct (load m a), (load m b); try reflexivity. apply IH. intros c Hc. apply H.
    apply in_app_or in Hc. right. apply in_or_app. destruct Hc; auto. right. right. auto.
  Qed.
  Lemma value_ext (m m' : mem) i : (forall a, In a (reads i) -> load m' a = load m a) -> value m' i = value m i.
  Proof.
    destruct i as [d s|d|d s|d [] l]; simpl; intros H.
    - apply H. auto.
    - reflexivity.
    - rewrite !H by auto. reflexivity.
    - rewrite H by auto. destruct (load m d) as [w|]; [|reflexivity]. apply products_ext. intros a Ha. apply H. auto.
    - apply products_ext. exact H.
  Qed.
  Lemma exec1_value m i m' : exec1 m i = Some m' -> exists v, value m i = Some v /\ store m (dest i) v = Some m'.
  Proof. unfold Kernel_Model.exec1. destruct (value m i) as [v|]; [|discriminate]. intros H. exists v. auto. Qed.
  Lemma value_other m i j m' : exec1 m i = Some m' -> ~ In (dest i) (reads j) -> value m' j = value m j.
  Proof.
    intros E N. apply exec1_value in E. destruct E as (v & _ & E). apply value_ext. intros a Ha. rewrite (store_load _ _ _ _ E a).
    destruct (addr_eqb (dest i) a) eqn:Q; [apply addr_eqb_ok in Q; subst; contradiction|reflexivity].
  Qed.
  Lemma exec1_comm m i j : independent i j ->
    match exec1 m i with Some m => exec1 m j | None => None end = match exec1 m j with Some m => exec1 m i | None => None end.
  Proof.
    intros (N & Ni & Nj).
    destruct (exec1 m i) as [mi|] eqn:Ei, (exec1 m j) as [mj|] eqn:Ej.
    - pose proof (value_other _ _ _ _ Ei Ni) as Vj. pose proof (value_other _ _ _ _ Ej Nj) as Vi.
      apply exec1_value in Ei. destruct Ei as (v & Ev & Ei). apply exec1_value in Ej. destruct Ej as (u & Eu & Ej).
      unfold Kernel_Model.exec1. rewrite Vi, Vj, Ev, Eu. pose proof (store_comm m (dest i) (dest j) v u N) as C. rewrite Ei, Ej in C. exact C.
    - pose proof (value_other _ _ _ _ Ei Ni) as Vj. unfold Kernel_Model.exec1 in Ej |- *. rewrite Vj. destruct (value m j) as [u|]; [|reflexivity].
      apply store_defined in Ej. apply store_defined. apply exec1_value in Ei. destruct Ei as (v & _ & Ei). rewrite (store_load _ _ _ _ Ei).
      destruct (addr_eqb (dest i) (dest j)) eqn:Q; [apply addr_eqb_ok in Q; contradiction|exact Ej].
    - pose proof (value_other _ _ _ _ Ej Nj) as Vi. unfold Kernel_Model.exec1 in Ei |- *. rewrite Vi. destruct (value m i) as [u|]; [|reflexivity].
      apply store_defined in Ei. symmetry. apply store_defined. apply exec1_value in Ej. destruct Ej as (v & _ & Ej). rewrite (store_load _ _ _ _ Ej).
      destruct (addr_eqb (dest j) (dest i)) eqn:Q; [apply addr_eqb_ok in Q; congruence|exact Ei].
    - reflexivity.
  Qed.
  Lemma exec_app m l l' : exec m (l ++ l') = match exec m l with Some m => exec m l' | None => None end.
  Proof. revert m. induction l as [|i l IH]; intros m; simpl; [reflexivity|]. destruct (exec1 m i); auto. Qed.
  Lemma exec_comm m i l l' : (forall j, In j l -> independent i j) -> exec m (i :: l ++ l') = exec m (l ++ i :: l').
  Proof.
    revert m. induction l as [|j l IH]; intros m H; [reflexivity|].
    assert (C := exec1_comm m i j (H j (or_introl eq_refl))).
    simpl (exec m ((j :: l) ++ i :: l')). rewrite app_comm_cons. simpl (exec m (i :: _)).
    transitivity (match exec1 m j with Some m => exec m (i :: l ++ l') | None => None end).
    - simpl. destruct (exec1 m i) as [mi|], (exec1 m j) as [mj|]; try reflexivity.
      + rewrite C. reflexivity.
      + rewrite C. reflexivity.
      + rewrite <- C. reflexivity.
    - destruct (exec1 m j) as [mj|]; [|reflexivity]. apply IH. intros k Hk. apply H. simpl. auto.
  Qed.

  (** Items that do not interfere: every interleaving gives the same memory as
      running them one after the other. *)
  Definition items_independent (items : list (list instr)) : Prop :=
    forall p q l l' i j, p <> q -> nth_error items p = Some l -> nth_error items q = Some l' -> In i l -> In j l' -> independent i j.
  Lemma interleaving_exec items r : interleaving items r -> items_independent items -> forall m, exec m r = exec m (concat items).
  Proof.
    induction 1 as [items F|pre i l post r I IH]; intros D m.
    - assert (concat items = []) as ->; [|reflexivity]. induction F as [|x items -> F IH]; simpl; auto. apply IH.
      intros p q l l' a b N Hp Hq. apply (D (S p) (S q)); auto.
    - assert (D' : items_independent (pre ++ l :: post)).
      { intros p q k k' a b N Hp Hq Ha Hb.
        assert (X : forall p k a, nth_error (pre ++ l :: post) p = Some k -> In a k -> exists k2, nth_error (pre ++ (i :: l) :: post) p = Some k2 /\ In a k2).
        { clear. intros p k a. destruct (Nat.lt_ge_cases p (length pre)).
          - rewrite !nth_error_app1 by auto. eauto.
          - rewrite !nth_error_app2 by auto. destruct (p - length pre) as [|p']; simpl; [|eauto]. intros E Ha. inv E. exists (i :: k). simpl. auto. }
        destruct (X _ _ _ Hp Ha) as (k2 & E2 & I2). destruct (X _ _ _ Hq Hb) as (k3 & E3 & I3). apply (D p q k2 k3); auto. }
      specialize (IH D'). simpl. transitivity (exec m (i :: concat (pre ++ l :: post))).
      + simpl. destruct (exec1 m i); auto.
      + rewrite !concat_app. simpl. apply exec_comm. intros j Hj. apply in_concat in Hj. destruct Hj as (k & Hk & Hj).
        apply In_nth_error in Hk. destruct Hk as (q & Hq).
        assert (Lq : q < length pre) by (apply nth_error_Some; congruence).
        apply (D (length pre) q (i :: l) k); simpl; auto; [lia| |].
        * rewrite nth_error_app2, Nat.sub_diag by lia. reflexivity.
        * rewrite nth_error_app1 by lia. exact Hq.
  Qed.

  (** Each address stored once and not read by the other instructions: the
      stored values are those computed from the memory before. *)
  Lemma exec_once l : forall m, NoDup (map dest l) -> (forall i j, In i l -> In j l -> dest i <> dest j -> ~ In (dest i) (reads j)) ->
    (forall i, In i l -> load m (dest i) <> None /\ value m i <> None) ->
    exists m', exec m l = Some m' /\ (forall i, In i l -> load m' (dest i) = value m i) /\
      (forall a, ~ In a (map dest l) -> load m' a = load m a).
  Proof.
    induction l as [|i l IH]; intros m ND NR OK.
    - exists m. split; [reflexivity|]. split; [intros i []|reflexivity].
    - simpl in ND. inv ND. destruct (OK i (or_introl eq_refl)) as (D & V). destruct (value m i) as [v|] eqn:Ev; [|congruence].
      destruct (store m (dest i) v) as [m1|] eqn:Es; [|apply store_defined in Es; contradiction].
      assert (E1 : exec1 m i = Some m1) by (unfold Kernel_Model.exec1; rewrite Ev; exact Es).
      assert (ND : forall j, In j l -> dest i <> dest j) by (intros j Hj Q; apply H1; rewrite Q; apply in_map; exact Hj).
      assert (NE : forall j, In j l -> addr_eqb (dest i) (dest j) = false).
      { intros j Hj. destruct (addr_eqb (dest i) (dest j)) eqn:Q; auto. apply addr_eqb_ok in Q. exfalso. apply (ND j Hj Q). }
      assert (NV : forall j, In j l -> value m1 j = value m j).
      { intros j Hj. apply (value_other m i j m1 E1). apply NR; simpl; auto. }
      destruct (IH m1 H2) as (m' & E & L1 & L2).
      + intros j k Hj Hk. apply NR; simpl; auto.
      + intros j Hj. rewrite (store_load _ _ _ _ Es), (NE j Hj), (NV j Hj). apply OK. simpl. auto.
      + exists m'. split; [simpl; rewrite E1; exact E|]. split.
        * intros j [<-|Hj].
          -- rewrite L2 by exact H1. rewrite (store_load _ _ _ _ Es). assert (addr_eqb (dest i) (dest i) = true) as -> by (apply addr_eqb_ok; reflexivity). auto.
          -- rewrite (L1 j Hj). apply NV. exact Hj.
        * intros a Ha. simpl in Ha. rewrite L2 by tauto. rewrite (store_load _ _ _ _ Es).
          destruct (addr_eqb (dest i) a) eqn:Q; [apply addr_eqb_ok in Q; tauto|reflexivity].
  Qed.

  (** Instruction lists that do not interfere can change places. *)
  Lemma exec_swap m l l' r : (forall i j, In i l -> In j l' -> independent i j) -> exec m (l ++ l' ++ r) = exec m (l' ++ l ++ r).
  Proof.
    revert m r. induction l as [|i l IH]; intros m r H; [reflexivity|].
    transitivity (exec m (i :: l' ++ l ++ r)).
    - simpl. destruct (exec1 m i); [|reflexivity]. apply IH. intros; apply H; simpl; auto.
    - rewrite <- app_comm_cons. apply exec_comm. intros j Hj. apply H; simpl; auto.
  Qed.
  (** Two phases of independent items can be run phase by phase. *)
  Lemma exec_phases {I} (f g : I -> list instr) ls m : NoDup ls ->
    (forall b b' i j, In b ls -> In b' ls -> b <> b' -> In i (g b) -> In j (f b') -> independent i j) ->
    exec m (flat_map (fun b => f b ++ g b) ls) = exec m (flat_map f ls ++ flat_map g ls).
  Proof.
    revert m. induction ls as [|b ls IH]; intros m ND H; [reflexivity|]. inv ND. simpl. rewrite <- !app_assoc.
    rewrite (exec_app m (f b)), (exec_app m (f b)). destruct (exec m (f b)) as [m1|]; [|reflexivity].
    rewrite exec_app. transitivity (exec m1 (g b ++ flat_map f ls ++ flat_map g ls)).
    - rewrite exec_app. destruct (exec m1 (g b)) as [m2|]; [|reflexivity]. apply IH; [assumption|].
      intros c c' i j Hc Hc'. apply H; simpl; auto.
    - apply exec_swap. intros i j Hi Hj. apply in_flat_map in Hj. destruct Hj as (b' & Hb' & Hj).
      apply (H b b'); simpl; auto. intros ->. contradiction.
  Qed.

  (** The contents of a buffer from its loads. *)
  Lemma buffer_loads (m : mem) B n f : (forall k, k < n -> load m (B, Z.of_nat k) = Some (f k)) -> load m (B, Z.of_nat n) = None ->
    nth B m [] = map f (seq 0 n).
  Proof.
    intros L N. unfold load in *. cbn [fst snd] in *.
    destruct (Z.ltb_spec (Z.of_nat n) 0); [lia|].
    destruct (nth_error m B) as [l|] eqn:E.
    - rewrite (nth_error_nth _ _ _ E). rewrite Nat2Z.id in N. apply nth_error_None in N.
      assert (Len : length l = n).
      { destruct (Nat.lt_ge_cases (length l) n) as [Hlt|]; [|lia]. specialize (L _ Hlt). destruct (Z.ltb_spec (Z.of_nat (length l)) 0); [lia|].
        rewrite Nat2Z.id in L. assert (nth_error l (length l) = None) by (apply nth_error_None; lia). congruence. }
      apply nth_ext with (d := zero) (d' := f 0); [rewrite map_length, seq_length; exact Len|].
      intros k Hk. rewrite Len in Hk. specialize (L _ Hk). destruct (Z.ltb_spec (Z.of_nat k) 0); [lia|]. rewrite Nat2Z.id in L.
      rewrite (nth_error_nth _ _ _ L). rewrite (map_nth f). rewrite seq_nth by exact Hk. reflexivity.
    - destruct n as [|n]; [|specialize (L 0 ltac:(lia)); discriminate]. simpl. apply nth_overflow. apply nth_error_None. exact E.
  Qed.
End Exec.

(** Loops in closed form. *)
Lemma loop_closed {S} n : forall i (body : nat -> S -> list instr * S) (st : nat -> S) out,
  (forall k, i <= k < i + n -> body k (st k) = (out k, st (k + 1))) ->
  loop n i body (st i) = (flat_map out (seq i n), st (i + n)).
Proof.
  induction n as [|n IH]; intros i body st out H; simpl.
  - rewrite Nat.add_0_r. reflexivity.
  - rewrite (H i) by lia. rewrite (IH (i + 1) body st out) by (intros; apply H; lia).
    rewrite Nat.add_1_r. f_equal. f_equal. lia.
Qed.
