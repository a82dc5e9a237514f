(** What differentiation is supposed to compute, stated without the path map,
    the queue or the accumulation lists of the implementation. *)
From Coq Require Import List Arith Bool Permutation.
Import ListNotations.
From Verif Require Import Graph_Model.

Section GradSpec.
  Context {O : Type}.
  Variable g : graph O.

  (** [edge y p x]: the [p]-th tensor that [y] propagates gradients to is [x]. *)
  Definition edge (y p x : nat) : Prop :=
    exists n inc, nth_error g y = Some n /\ nth_error (get_backprop_inputs n) p = Some inc /\ in_id inc = x.
  Definition differentiable (x : nat) : Prop := exists n, nth_error g x = Some n /\ n_diff n = true.
  Definition leaf (x : nat) : Prop := exists n, nth_error g x = Some n /\ n_inputs n = [].

  (** Paths along edges satisfying [ok]; every tensor after the start is
      differentiable.  A path is the list of its (tensor, position) edges. *)
  Inductive path (ok : nat -> nat -> Prop) : nat -> list (nat * nat) -> nat -> Prop :=
  | path_nil y : path ok y [] y
  | path_cons y p z es x :
      edge y p z -> ok y p -> differentiable z -> path ok z es x -> path ok y ((y, p) :: es) x.

  (** Some differentiable path leads from [y] to [x]. *)
  Definition reaches (y x : nat) : Prop := exists es, path (fun _ _ => True) y es x.

  (** Gradients flow to existing tensors of smaller rank, and not out of leaves. *)
  Record ranked : Prop := {
    rk_edge : forall y p x, edge y p x -> x < length g /\ rank_of g x < rank_of g y;
    rk_leaf : forall y p x, leaf y -> ~ edge y p x
  }.

  (** [pop] removes some entry of maximal rank. *)
  Record heap_pop (pop : list nat -> option (nat * list nat)) : Prop := {
    pop_nil : pop [] = None;
    pop_some : forall a l, exists y rest, pop (a :: l) = Some (y, rest);
    pop_perm : forall l y rest, pop l = Some (y, rest) -> Permutation l (y :: rest);
    pop_max : forall l y rest z, pop l = Some (y, rest) -> In z l -> rank_of g z <= rank_of g y
  }.

  Section Sum.
    Context {M : Type}.
    Variables (zero : M) (add : M -> M -> M).
    (** [vjp y p m]: what the rule of [y] propagates to its [p]-th tensor. *)
    Variable vjp : nat -> nat -> M -> M.

    Definition msum (l : list M) : M := fold_right add zero l.
    (** Composing the rules along a path. *)
    Fixpoint path_value (es : list (nat * nat)) (m : M) : M :=
      match es with
      | [] => m
      | (y, p) :: es => path_value es (vjp y p m)
      end.

    (** [total] is the sum, over all paths from the [ys] to [x] (each path once),
        of the composed rules applied to the gradient [seeds] of the start. *)
    Definition is_path_sum (ok : nat -> nat -> Prop) (ys : list nat) (seeds : list M) (x : nat) (total : M) : Prop :=
      exists paths : list (nat * list (nat * nat)),
        NoDup paths /\
        (forall k es, In (k, es) paths <-> exists y, nth_error ys k = Some y /\ path ok y es x) /\
        total = msum (map (fun '(k, es) => path_value es (nth k seeds zero)) paths).
  End Sum.

  (** A denotation of the tensors built so far: [good] states, handles that are
      meaningful as gradients of a tensor (say, of its shape), their values, and
      growth of the state. *)
  Section Denotation.
    Context {S T M : Type}.
    Variables (zero : M) (add : M -> M -> M) (vjp : nat -> nat -> M -> M).
    Variables (good : S -> Prop) (valid : nat -> S -> T -> Prop) (den : S -> T -> M) (ext : S -> S -> Prop).
    (** The rule of [y] propagates something at position [p]. *)
    Variable passes : nat -> nat -> Prop.
    Variable opgrad : nat -> T -> S -> option (list (option T) * S).
    Variable addn : list T -> S -> option (T * S).

    Record denotes : Prop := {
      add_comm : forall a b, add a b = add b a;
      add_assoc : forall a b c, add a (add b c) = add (add a b) c;
      add_zero : forall a, add zero a = a;
      vjp_add : forall y p a b, vjp y p (add a b) = add (vjp y p a) (vjp y p b);
      vjp_zero : forall y p, vjp y p zero = zero;
      ext_refl : forall s, ext s s;
      ext_trans : forall s1 s2 s3, ext s1 s2 -> ext s2 s3 -> ext s1 s3;
      ext_valid : forall x s s' t, ext s s' -> valid x s t -> valid x s' t /\ den s' t = den s t;
      addn_ok : forall x l s t s', good s -> Forall (valid x s) l -> 2 <= length l -> addn l s = Some (t, s') ->
        good s' /\ ext s s' /\ valid x s' t /\ den s' t = msum zero add (map (den s) l);
      opgrad_ok : forall y gy s gxs s', good s -> valid y s gy -> opgrad y gy s = Some (gxs, s') ->
        good s' /\ ext s s' /\
        forall p, (passes y p <-> exists t, nth_error gxs p = Some (Some t)) /\
                  forall t, nth_error gxs p = Some (Some t) ->
                    (forall x, edge y p x -> valid x s' t) /\ den s' t = vjp y p (den s gy)
    }.

    (** The meaning of the supplied output gradients; [one_val] when none are. *)
    Definition seed_values (one_val : M) (ys : list nat) (gys : option (list T)) (s : S) (seeds : list M) : Prop :=
      match gys with
      | Some l => Forall2 (fun y t => valid y s t) ys l /\ seeds = map (den s) l
      | None => seeds = map (fun _ => one_val) ys
      end.
    (** [f] builds a tensor with value [m], a gradient for every tensor in [X]. *)
    Definition builds (X : nat -> Prop) (f : S -> option (T * S)) (m : M) : Prop :=
      forall s t s', good s -> f s = Some (t, s') -> 
        good s' /\ ext s s' /\ (forall x, X x -> valid x s' t) /\ den s' t = m.
  End Denotation.

  (** At most one edge or output position feeds the accumulation for [x]. *)
  Definition single_use (ys : list nat) (x : nat) : Prop :=
    (forall y p y' p', edge y p x -> edge y' p' x -> y = y' /\ p = p') /\
    (In x ys -> forall y p, ~ edge y p x).

  (** A tensor whose accumulated gradient is read off once: a leaf that is not an
      output, or a tensor with a single use. *)
  Definition accum_once (ys : list nat) (x : nat) : Prop := (leaf x /\ ~ In x ys) \/ single_use ys x.

  (** A differentiation request: outputs are distinct and differentiable, the
      queue pops by rank, the rules and constants denote what they should. *)
  Record problem {S T M : Type} (zero one_val : M) (add : M -> M -> M) (vjp : nat -> nat -> M -> M)
    (good : S -> Prop) (valid : nat -> S -> T -> Prop) (den : S -> T -> M) (ext : S -> S -> Prop)
    (passes : nat -> nat -> Prop)
    (opgrad : nat -> T -> S -> option (list (option T) * S)) (addn : list T -> S -> option (T * S))
    (one : S -> option (T * S)) (zeros_like : nat -> S -> option (T * S))
    (pop : list nat -> option (nat * list nat)) (ys : list nat) : Prop := {
    pb_ranked : ranked;
    pb_diff : forall y, In y ys -> differentiable y;
    pb_nodup : NoDup ys;
    pb_pop : heap_pop pop;
    pb_den : denotes zero add vjp good valid den ext passes opgrad addn;
    pb_one : builds good valid den ext (fun y => In y ys) one one_val;
    pb_zeros : forall x, builds good valid den ext (eq x) (zeros_like x) zero
  }.

  (** Some path from an output along which every rule propagates something. *)
  Definition live (passes : nat -> nat -> Prop) (ys : list nat) (x : nat) : Prop :=
    exists y es, In y ys /\ path passes y es x.
  (** A differentiable path leads from an output to [x]. *)
  Definition reached (ys : list nat) (x : nat) : Prop :=
    differentiable x /\ exists y, In y ys /\ reaches y x.
  (** [x] lies upstream of some target. *)
  Definition leads_to (xs : list nat) (x : nat) : Prop :=
    differentiable x /\ exists t, In t xs /\ reaches x t.
End GradSpec.
