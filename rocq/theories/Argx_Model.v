(** argmax and argmin: src/tensor_ops/reduction_ops.rs:365-457.

    Memory layout matters here, so arrays have strides ([sarr]); the operand is
    taken to be in row-major order. *)
From Coq Require Import List Arith ZArith Bool.
Import ListNotations.
From Verif Require Import Array_Model.

(** ** Strided arrays (the ndarray crate) The arrays of reduction_ops.rs:365-429. *)
Record sarr (A : Type) := SArr { s_shape : list nat; s_strides : list nat; s_data : list A }.
Arguments SArr {A}. Arguments s_shape {A}. Arguments s_strides {A}. Arguments s_data {A}.

(** Row-major and column-major strides. Layout of the arrays made at
    reduction_ops.rs:376-394. *)
Fixpoint c_strides (sh : list nat) : list nat :=
  match sh with
  | [] => []
  | _ :: sh => prod sh :: c_strides sh
  end.
(** Layout that [into_shape] gives a column-major mask, reduction_ops.rs:402. *)
Definition f_strides (sh : list nat) : list nat := rev (c_strides (rev sh)).

(** ndarray: position of an element from strides and index, for reading the mask at
    reduction_ops.rs:411-416. *)
Fixpoint offset (strides idx : list nat) : nat :=
  match strides, idx with
  | s :: strides, i :: idx => i * s + offset strides idx
  | _, _ => 0
  end.
(** Reading an element of the mask, reduction_ops.rs:405-416. *)
Definition sget {A} (d : A) (a : sarr A) (idx : list nat) : A := nth (offset (s_strides a) idx) (s_data a) d.
(** The mask as made at reduction_ops.rs:379-394: row-major. *)
Definition to_s {A} (a : arr A) : sarr A := SArr (a_shape a) (c_strides (a_shape a)) (a_data a).

(** [swap_axes]: only shape and strides change. Used by ndarray_ext.rs:41-55 and
    reduction_ops.rs:403. *)
Definition swap {X} (d : X) (i j : nat) (l : list X) : list X := set_at i (nth j l d) (set_at j (nth i l d) l).
(** ndarray_ext.rs:46, 51; reduction_ops.rs:403. *)
Definition swap_axes {A} (i j : nat) (a : sarr A) : sarr A :=
  SArr (swap 0 i j (s_shape a)) (swap 0 i j (s_strides a)) (s_data a).

(** ndarray's [is_standard_layout]: strides as in row-major order, except for axes of
    length 1; arrays without elements qualify. Decides what [into_shape] does at
    reduction_ops.rs:402. *)
Fixpoint layout_rev (l : list (nat * nat)) (contig : nat) : bool :=
  match l with
  | [] => true
  | (d, s) :: l => if d =? 1 then layout_rev l contig else (s =? contig) && layout_rev l (contig * d)
  end.
(** The same from shape and strides, reduction_ops.rs:402. *)
Definition layout_c (sh st : list nat) : bool :=
  existsb (fun d => d =? 0) sh || layout_rev (rev (combine sh st)) 1.

(** [into_shape] (ndarray 0.16.1): row-major data is read in row-major order,
    column-major data in column-major order, anything else is an error. Called at
    reduction_ops.rs:402. *)
Definition s_into_shape {A} (a : sarr A) (sh : list nat) : option (sarr A) :=
  if prod (s_shape a) =? prod sh then
    if layout_c (s_shape a) (s_strides a) then Some (SArr sh (c_strides sh) (s_data a))
    else if (1 <? length (s_shape a)) && layout_c (rev (s_shape a)) (rev (s_strides a))
    then Some (SArr sh (f_strides sh) (s_data a))
    else None
  else None.

(** src/ndarray_ext.rs:41-55 roll_axis: [n] swaps of axis [to] with
    [from], [from - 1], ... or [from], [from + 1], ... *)
Fixpoint roll_down {A} (n : nat) (to from : nat) (a : sarr A) : sarr A :=
  match n with
  | 0 => a
  | S n => roll_down n to (from - 1) (swap_axes to from a)
  end.
(** src/ndarray_ext.rs:50-53: the loop for [to >= from]. *)
Fixpoint roll_up {A} (n : nat) (to from : nat) (a : sarr A) : sarr A :=
  match n with
  | 0 => a
  | S n => roll_up n to (S from) (swap_axes to from a)
  end.
(** src/ndarray_ext.rs:41-55. *)
Definition roll_axis {A} (a : sarr A) (to from : nat) : sarr A :=
  if to <? from then roll_down (from - to) to from a else roll_up (to - from) to from a.

(** src/ndarray_ext.rs:58-64 normalize_negative_axis; [None]: the cast wraps to
    a huge axis. *)
Definition normalize_axis (axis : Z) (ndim : nat) : option nat :=
  let z := (if axis <? 0 then Z.of_nat ndim + axis else axis)%Z in
  if (z <? 0)%Z then None else Some (Z.to_nat z).

Section Argx.
  Context {A : Type} (zero one : A) (add mul : A -> A -> A) (eqb : A -> A -> bool) (of_nat : nat -> A).

  (** Lines 383-392: has an earlier element of the line equalled the extremum? *)
  Fixpoint found (x : arr A) (m : arr A) (axis : nat) (k : nat) (j : list nat) : bool :=
    match k with
    | 0 => false
    | S k => found x m axis k j || eqb (aget zero x (insert_at axis k j)) (aget zero m j)
    end.
  (** Lines 375-394: 1 at the first extremum of each line, 0 elsewhere. *)
  Definition mask (comp : A -> A -> A) (default : A) (axis : nat) (x : arr A) : option (arr A) :=
    match fold_axis zero x axis default comp with
    | None => None
    | Some m =>
        Some (tab (a_shape x) (fun i =>
          let k := nth axis i 0 in let j := remove_at axis i in
          if eqb (aget zero x i) (aget zero m j) && negb (found x m axis k j) then one else zero))
    end.

  (** Lines 365-429 argx_helper; [None] is a panic.  The indices 0, 1, ... are
      exact numbers here. *)
  Definition argx_helper (comp : A -> A -> A) (default : A) (keep : bool) (axis : Z) (x : arr A) : option (arr A) :=
    match normalize_axis axis (length (a_shape x)) with
    | None => None
    | Some axis =>
        match mask comp default axis x with
        | None => None
        | Some mk =>
            let reduction_len := nth axis (a_shape x) 0 in
            let mk := roll_axis (to_s mk) 0 axis in
            if reduction_len =? 0 then None                      (* division by zero, line 401 *)
            else
              let rows := prod (a_shape x) / reduction_len in
              match s_into_shape mk [reduction_len; rows] with
              | None => None
              | Some mk =>
                  let mk := swap_axes 0 1 mk in
                  let mat := tab [rows; 1] (fun i =>
                    fold_left add (map (fun k => mul (sget zero mk [nth 0 i 0; k]) (of_nat k)) (seq 0 reduction_len)) zero) in
                  into_shape mat (if keep then set_at axis 1 (a_shape x) else remove_at axis (a_shape x))
              end
        end
    end.
End Argx.
