(** What the calls that register variables mean, in terms of the calls alone. *)
From Coq Require Import String List Arith Bool.
Import ListNotations.
From Verif Require Import Slot_Model.
Local Open Scope string_scope.
Local Open Scope list_scope.

Section Calls.
  Context {A : Type}.
  (** The namespace a call registers an array in, the name it asks for if any, and the array. The default
      namespace is the one with the empty name. *)
  Definition registers (c : call A) : option (string * option string * A) :=
    match c with
    | Set_ DefaultVariableSlot a | EnvSet a => Some ("", None, a)
    | Set_ (NamedDefaultVariableSlot n) a => Some ("", Some n, a)
    | Set_ (VariableSlot ns) a => Some (ns, None, a)
    | Set_ (NamedVariableSlot ns n) a => Some (ns, Some n, a)
    | Write _ _ => None
    end.
  (** Number of registrations. *)
  Fixpoint sets (cs : list (call A)) : nat :=
    match cs with
    | [] => 0
    | c :: cs => match registers c with Some _ => S (sets cs) | None => sets cs end
    end.
  (** The registration number [i] is the call [registers c = Some r]. *)
  Definition made (cs : list (call A)) (i : nat) (r : string * option string * A) (later : list (call A)) : Prop :=
    exists before c, cs = before ++ c :: later /\ registers c = Some r /\ sets before = i.
  (** The last registration under that name in that namespace is number [i]. *)
  Definition last_named (cs : list (call A)) (ns name : string) (i : nat) : Prop :=
    exists a later, made cs i (ns, Some name, a) later /\
      forall c b, In c later -> registers c <> Some (ns, Some name, b).
  (** Registration number [i] asked for no name. *)
  Definition unnamed (cs : list (call A)) (ns : string) (i : nat) : Prop :=
    exists a later, made cs i (ns, None, a) later.
  (** Array number [i] is [a] now. *)
  Definition stored (cs : list (call A)) (i : nat) (a : A) : Prop :=
    exists ns n a0 later, made cs i (ns, n, a0) later /\
      ((a = a0 /\ forall b, ~ In (Write i b) later) \/
       (exists l1 l2, later = l1 ++ Write i a :: l2 /\ forall b, ~ In (Write i b) l2)).
  (** The UUIDs are distinct, and nobody uses one of them as a name. *)
  Definition fresh (uuids : nat -> string) (cs : list (call A)) : Prop :=
    (forall i j, uuids i = uuids j -> i = j) /\
    (forall c ns a i, In c cs -> registers c <> Some (ns, Some (uuids i), a)).
End Calls.

(** The names given in a namespace, and how many registrations there gave none. *)
Definition names_given {A} (ns : string) (cs : list (call A)) : list string :=
  flat_map (fun c => match registers c with
                     | Some (ns', Some n, _) => if String.eqb ns' ns then [n] else []
                     | _ => [] end) cs.
Definition unnamed_count {A} (ns : string) (cs : list (call A)) : nat :=
  length (filter (fun c => match registers c with Some (ns', None, _) => String.eqb ns' ns | _ => false end) cs).
