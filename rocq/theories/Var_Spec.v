(** What registrations and lookups mean, in terms of the history alone. *)
From Coq Require Import String Ascii List Arith Bool Permutation.
Import ListNotations.
From Verif Require Import Var_Model.

Section Histories.
  Context {A : Type}.
  (** Number of registrations in a history. *)
  Fixpoint regs (h : list (event A)) : nat :=
    match h with
    | [] => 0
    | Reg _ _ _ :: h => S (regs h)
    | Upd _ _ :: h => regs h
    end.
  (** Identifier [i] was given out for the name [(ns, name)]. *)
  Definition registered_as (h : list (event A)) (i : nat) (ns name : string) : Prop :=
    exists h1 a h2, h = h1 ++ Reg ns name a :: h2 /\ regs h1 = i.
  (** Array [a] is the last one stored under identifier [i]: the registered one,
      or the last one written over it. *)
  Definition holds (h : list (event A)) (i : nat) (a : A) : Prop :=
    exists h1 ns name a0 h2, h = h1 ++ Reg ns name a0 :: h2 /\ regs h1 = i /\
      ((a = a0 /\ forall b, ~ In (Upd i b) h2) \/
       (exists h3 h4, h2 = h3 ++ Upd i a :: h4 /\ forall b, ~ In (Upd i b) h4)).
  (** Identifier [i] belongs to the last registration under that name. *)
  Definition latest (h : list (event A)) (ns name : string) (i : nat) : Prop :=
    exists h1 a h2, h = h1 ++ Reg ns name a :: h2 /\ regs h1 = i /\ forall b, ~ In (Reg ns name b) h2.
End Histories.

(** A map holds each key once. *)
Definition one_entry_per_key {K V} (m : list (K * V)) : Prop := NoDup (map fst m).

(** A name free of the separator. *)
Fixpoint no_sep (s : string) : Prop :=
  match s with
  | EmptyString => True
  | String c s => c <> SEP /\ no_sep s
  end.

(** Two environments with the same arrays and the same name lookups. *)
Definition same_env {A} (e e' : env A) : Prop :=
  array_list e' = array_list e /\
  Permutation (name_to_id e) (name_to_id e') /\
  forall ns name, get_array_by_name e' ns name = get_array_by_name e ns name.

(** The serialisation library: reading back a complete document gives the same
    arrays and the same map (entries in any order); nothing shorter parses.
    JSON has no infinities and no NaN: serde_json writes them as null, which is
    not read back as a number.  [storable] arrays hold none of them. *)
Record codec {A B} (storable : A -> Prop) (ser : document A -> list B) (parse : list B -> option (document A)) : Prop := {
  codec_ok : forall d, Forall storable (d_arrays d) -> one_entry_per_key (d_names d) ->
    exists d', parse (ser d) = Some d' /\ d_arrays d' = d_arrays d /\ Permutation (d_names d) (d_names d');
  codec_unstorable : forall d a, In a (d_arrays d) -> ~ storable a -> parse (ser d) = None;
  codec_prefix : forall d k, k < length (ser d) -> parse (firstn k (ser d)) = None;
  codec_nonempty : forall d, 0 < length (ser d)
}.
