(** Operations that move elements: src/tensor_ops/array_ops.rs and Transpose in
    math_ops.rs.  Axes, indices and shape tensors are modelled by the integers
    they hold.  [None] is a panic or an OpError. *)
From Coq Require Import List Arith ZArith Bool.
Import ListNotations.
From Verif Require Import Array_Model Arith_Model Reduce_Model.

(** ndarray_ext.rs:57-64 normalize_negative_axis.  Below -ndim the cast to usize
    gives a huge number, which every caller rejects by a panic: [None]. *)
Definition normalize_axis (axis : Z) (ndim : nat) : option nat :=
  if (axis <? 0)%Z
  then if (Z.of_nat ndim + axis <? 0)%Z then None else Some (Z.to_nat (Z.of_nat ndim + axis))
  else Some (Z.to_nat axis).

(** ndarray: one axis' [Slice { start, end, step: 1 }] on an axis of length [n]:
    negative numbers count from the end; a missing end is [n]; an end before the
    start gives an empty range; out of range panics. *)
Definition abs_index (n : nat) (i : Z) : option nat :=
  if (i <? 0)%Z
  then if (Z.of_nat n + i <? 0)%Z then None else Some (Z.to_nat (Z.of_nat n + i))
  else Some (Z.to_nat i).
(** Used at array_ops.rs:704, 783, 432, 735, 809. *)
Definition resolve (n : nat) (s : Z) (e : option Z) : option (nat * nat) :=
  bind (abs_index n s) (fun lo =>
    bind (match e with None => Some n | Some e => abs_index n e end) (fun hi =>
      let hi := Nat.max lo hi in
      if hi <=? n then Some (lo, hi) else None)).

(** All axes at once ([slice], [slice_collapse], [slice_mut]): the ranges, one per axis;
    a different number of them panics. array_ops.rs:704, 783, 432, 735, 809. *)
Fixpoint ranges (sh : list nat) (sl : list (Z * option Z)) : option (list (nat * nat)) :=
  match sh, sl with
  | [], [] => Some []
  | n :: sh, (s, e) :: sl =>
      bind (resolve n s e) (fun r => bind (ranges sh sl) (fun rs => Some (r :: rs)))
  | _, _ => None
  end.

Section Shape.
  Context {A : Type} (zero : A).

  (** The elements of a slice, array_ops.rs:704, 783. *)
  Definition read_ranges (x : arr A) (rs : list (nat * nat)) : arr A :=
    tab (map (fun r => snd r - fst r) rs) (fun i => aget zero x (map2 (fun r k => fst r + k) rs i)).

  (** array_ops.rs:780-786 Slice::compute and 704 [slice_collapse]. *)
  Definition slice_forward (sl : list (Z * option Z)) (x : arr A) : option (arr A) :=
    bind (ranges (a_shape x) sl) (fun rs => Some (read_ranges x rs)).

  (** Assigning through a mutable slice: [slice_mut(..).zip_mut_with(&g, |a, &g| *a =
      g)]; [g] is broadcast to the slice's shape. array_ops.rs:735-740, 809-814: the
      elements the slice selects. *)
  Definition inside (rs : list (nat * nat)) (k : list nat) : bool :=
    forallb (fun p => (fst (fst p) <=? snd p) && (snd p <? snd (fst p))) (combine rs k).
  (** array_ops.rs:735-740, 809-814: the elements the slice selects. *)
  Definition write_ranges (x : arr A) (rs : list (nat * nat)) (g : arr A) : option (arr A) :=
    bind (broadcast zero g (map (fun r => snd r - fst r) rs)) (fun g =>
      Some (tab (a_shape x) (fun k =>
        if inside rs k then aget zero g (map2 (fun r k => k - fst r) rs k) else aget zero x k))).

  (** array_ops.rs:804-818 SliceGrad::compute: [gx] starts as zeros. *)
  Definition slice_grad (sl : list (Z * option Z)) (x gy : arr A) : option (arr A) :=
    bind (ranges (a_shape x) sl) (fun rs => write_ranges (full (a_shape x) zero) rs gy).

  (** mod.rs:2171-2196 slice: the bounds given by the user; -1 as an end means
      "to the end". *)
  Definition user_slice (starts ends : list Z) : option (list (Z * option Z)) :=
    if length starts =? length ends
    then Some (map2 (fun s e => (s, if (e =? -1)%Z then None else Some (if (e <? -1)%Z then (e + 1)%Z else e))) starts ends)
    else None.
  (** src/tensor_ops/mod.rs:2171-2196 with array_ops.rs:781-786. *)
  Definition slice (starts ends : list Z) (x : arr A) : option (arr A) :=
    bind (user_slice starts ends) (fun sl => slice_forward sl x).
  (** array_ops.rs:788-800 Slice::grad with 803-818 SliceGrad::compute. *)
  Definition slice_gradient (starts ends : list Z) (x gy : arr A) : option (arr A) :=
    bind (user_slice starts ends) (fun sl => slice_grad sl x gy).

  (** array_ops.rs:749-777 make_indices_for_split; 699-708 Split::compute;
      728-746 SplitGrad::compute. *)
  Definition split_slices (ndim k : nat) (start stop : Z) : option (list (Z * option Z)) :=
    if k <? ndim
    then Some (map (fun i => if i =? k then (start, Some stop) else (0%Z, None)) (seq 0 ndim))
    else None.
  (** array_ops.rs:698-708 Split::compute. *)
  Definition split_forward (axis : Z) (start stop : Z) (x : arr A) : option (arr A) :=
    bind (normalize_axis axis (length (a_shape x))) (fun k =>
      bind (split_slices (length (a_shape x)) k start stop) (fun sl => slice_forward sl x)).
  (** array_ops.rs:709-744 Split::grad, SplitGrad::compute. *)
  Definition split_grad (axis : Z) (start stop : Z) (x gy : arr A) : option (arr A) :=
    bind (normalize_axis axis (length (a_shape x))) (fun k =>
      bind (split_slices (length (a_shape x)) k start stop) (fun sl => slice_grad sl x gy)).
  (** mod.rs:2113-2138 split: the i-th part starts at the sum of the sizes before. *)
  Definition split_part (sizes : list nat) (axis : Z) (i : nat) (x : arr A) : option (arr A) :=
    let start := list_sum (firstn i sizes) in
    split_forward axis (Z.of_nat start) (Z.of_nat (start + nth i sizes 0)) x.

  (** ndarray's [concatenate] along axis [k]. array_ops.rs:589, 684; ndarray_ext.rs:165.
      *)
  Fixpoint pick (k : nat) (xs : list (arr A)) (c : nat) (i : list nat) : A :=
    match xs with
    | [] => zero
    | x :: xs => let n := nth k (a_shape x) 0 in
                 if c <? n then aget zero x (set_at k c i) else pick k xs (c - n) i
    end.
  (** array_ops.rs:589, 684; ndarray_ext.rs:165; ndarray_ext.rs:172-212. *)
  Definition concatenate (k : nat) (xs : list (arr A)) : option (arr A) :=
    match xs with
    | [] => None
    | x0 :: _ =>
        let sh := a_shape x0 in
        if k <? length sh then
          if forallb (fun x => (length (a_shape x) =? length sh) && shape_eqb (remove_at k (a_shape x)) (remove_at k sh)) xs
          then Some (tab (set_at k (list_sum (map (fun x => nth k (a_shape x) 0) xs)) sh)
                         (fun i => pick k xs (nth k i 0) i))
          else None
        else None
    end.
  (** array_ops.rs:576-597 Concat::compute.  For a negative axis it calls
      [ctx.input(0)] a second time, which panics (op.rs:202-217). *)
  Definition concat (axis : Z) (xs : list (arr A)) : option (arr A) :=
    if (axis <? 0)%Z then None else concatenate (Z.to_nat axis) xs.
  (** array_ops.rs:623-670 ConcatGrad::compute: what the gradient for operand
      [index] evaluates to.  The inputs are gy, x_0, x_1, ...; the loop adds the
      lengths of inputs 1..index, that is x_0 .. x_(index-2); the end of the
      slice is the operand's length.  Negative axis: as in [concat]. *)
  Definition concat_grad (axis : Z) (index : nat) (xs : list (arr A)) (gy : arr A) : option (arr A) :=
    if (axis <? 0)%Z then None
    else let k := Z.to_nat axis in
         let len x := nth_error (a_shape x) k in
         bind (fold_left (fun acc x => bind acc (fun a => bind (len x) (fun n => Some (a + n))))
                         (firstn (index - 1) xs) (Some 0)) (fun start =>
           bind (bind (nth_error xs index) len) (fun region =>
             slice_forward (map (fun i => if i =? k then (Z.of_nat start, Some (Z.of_nat region)) else (0%Z, None))
                                (seq 0 (length (a_shape gy)))) gy)).

  (** array_ops.rs:676-695 Tile::compute, Tile::grad. *)
  Definition tile (axis : Z) (num : nat) (x : arr A) : option (arr A) :=
    bind (normalize_axis axis (length (a_shape x))) (fun k => concatenate k (repeat x num)).
  (** array_ops.rs:693-695 Tile::grad. *)
  Definition tile_grad (add : A -> A -> A) (axis : Z) (gy : arr A) : option (arr A) :=
    reduce zero add zero [axis] true false gy.

  (** ndarray_ext.rs:158-166 select. *)
  Definition collapse_axis (k i : nat) (x : arr A) : option (arr A) :=
    match nth_error (a_shape x) k with
    | None => None
    | Some n => if i <? n then Some (tab (set_at k 1 (a_shape x)) (fun j => aget zero x (set_at k i j))) else None
    end.
  (** ndarray_ext.rs:158-164: the slices of [select]. *)
  Fixpoint collapses (k : nat) (idx : list nat) (x : arr A) : option (list (arr A)) :=
    match idx with
    | [] => Some []
    | i :: idx => bind (collapse_axis k i x) (fun s => bind (collapses k idx x) (fun l => Some (s :: l)))
    end.
  (** ndarray_ext.rs:158-166. *)
  Definition select (k : nat) (idx : list nat) (x : arr A) : option (arr A) :=
    match idx with
    | [] => None
    | _ => bind (collapses k idx x) (concatenate k)
    end.
  (** array_ops.rs:353-384 Gather::compute.  [norm]: should_normalize_negative_indices
      (true for gather_common, false for gather). *)
  Fixpoint plain_indices (l : list Z) : option (list nat) :=
    match l with
    | [] => Some []
    | i :: l => if (i <? 0)%Z then None else bind (plain_indices l) (fun r => Some (Z.to_nat i :: r))
    end.
  (** array_ops.rs:353-384. *)
  Definition gather (norm : bool) (axis : Z) (indices : arr Z) (param : arr A) : option (arr A) :=
    bind (normalize_axis axis (length (a_shape param))) (fun k =>
      bind (nth_error (a_shape param) k) (fun n =>
        let out := firstn k (a_shape param) ++ a_shape indices ++ skipn (S k) (a_shape param) in
        bind (if norm then normalize_axes n (a_data indices) else plain_indices (a_data indices)) (fun idx =>
          bind (select k idx param) (fun s => into_shape s out)))).
  (** array_ops.rs:402-465 GatherGrad::compute.  Axis -1 becomes ndim, other
      negative axes a huge number; both make the slice of the shape panic. *)
  Fixpoint gather_grad_loop (add : A -> A -> A) (k n : nat) (gy : arr A) (t : nat) (idx : list Z) (gx : arr A) : option (arr A) :=
    match idx with
    | [] => Some gx
    | i :: idx =>
        bind (resolve n i (Some (i + 1)%Z)) (fun r =>
          if fst r <? snd r
          then gather_grad_loop add k n gy (S t) idx
                 (tab (a_shape gx) (fun j => if nth k j 0 =? fst r then add (aget zero gx j) (aget zero gy (set_at k t j)) else aget zero gx j))
          else None)
    end.
  (** array_ops.rs:402-467 GatherGrad::compute. *)
  Definition gather_grad (add : A -> A -> A) (axis : Z) (indices : arr Z) (param gy : arr A) : option (arr A) :=
    if (axis <? 0)%Z then None
    else let k := Z.to_nat axis in
         bind (nth_error (a_shape param) k) (fun n =>
           bind (into_shape gy (firstn k (a_shape param) ++ [length (a_data indices)] ++ skipn (S k) (a_shape param))) (fun gy =>
             gather_grad_loop add k n gy 0 (a_data indices) (full (a_shape param) zero))).

  (** array_ops.rs:183-227 Reshape::compute.  [dims]: the shape tensor; -1 becomes
      len / -(product of all dims) (a zero or negative divisor panics). *)
  Definition reshape_dim (len : nat) (dims : list Z) (d : Z) : option nat :=
    if (d =? -1)%Z
    then let p := (- fold_left Z.mul dims 1)%Z in
         if (0 <? p)%Z then Some (Z.to_nat (Z.of_nat len / p)) else None
    else if (d <? 0)%Z then None else Some (Z.to_nat d).
  (** array_ops.rs:187-198: all dimensions. *)
  Fixpoint reshape_dims (len : nat) (dims l : list Z) : option (list nat) :=
    match l with
    | [] => Some []
    | d :: l => bind (reshape_dim len dims d) (fun n => bind (reshape_dims len dims l) (fun r => Some (n :: r)))
    end.
  (** array_ops.rs:183-227. *)
  Definition reshape (dims : list Z) (x : arr A) : option (arr A) :=
    bind (reshape_dims (length (a_data x)) dims dims) (into_shape x).
  (** array_ops.rs:229-238 Reshape::grad *)
  Definition reshape_grad (x gy : arr A) : option (arr A) := reshape (map Z.of_nat (a_shape x)) gy.
  (** mod.rs:1344-1355 flatten: the shape tensor is the rank-0 array -1. *)
  Definition flatten (x : arr A) : option (arr A) := reshape [(-1)%Z] x.

  (** Sorting signed axes ([Vec<isize>::sort]). array_ops.rs:834, 864. *)
  Fixpoint insert_sortedZ (x : Z) (l : list Z) : list Z :=
    match l with
    | [] => [x]
    | y :: l => if (x <=? y)%Z then x :: y :: l else y :: insert_sortedZ x l
    end.
  (** array_ops.rs:834, 864. *)
  Definition sortZ (l : list Z) : list Z := fold_right insert_sortedZ [] l.

  (** array_ops.rs:827-848 Squeeze::compute; [adjust] counts the removed axes. *)
  Definition drop_unit (k : nat) (x : arr A) : option (arr A) :=
    match nth_error (a_shape x) k with
    | Some 1 => Some (tab (remove_at k (a_shape x)) (fun j => aget zero x (insert_at k 0 j)))
    | _ => None
    end.
  (** array_ops.rs:835-845: the loop over the axes. *)
  Fixpoint squeeze_loop (adjust : nat) (axes : list Z) (x : arr A) : option (arr A) :=
    match axes with
    | [] => Some x
    | i :: axes =>
        let k := ((if i <? 0 then Z.of_nat (length (a_shape x)) + i else i) - Z.of_nat adjust)%Z in
        if (k <? 0)%Z then None
        else bind (drop_unit (Z.to_nat k) x) (squeeze_loop (S adjust) axes)
    end.
  (** array_ops.rs:827-848. *)
  Definition squeeze (axes : list Z) (x : arr A) : option (arr A) := squeeze_loop 0 (sortZ axes) x.
  (** array_ops.rs:857-876 ExpandDims::compute *)
  Fixpoint expand_shape (ndim : nat) (axes : list Z) (sh : list nat) : option (list nat) :=
    match axes with
    | [] => Some sh
    | i :: axes =>
        let k := (if (i <? 0)%Z then Z.of_nat ndim + i else i)%Z in
        if (k <? 0)%Z then None
        else if Z.to_nat k <=? length sh then expand_shape ndim axes (insert_at (Z.to_nat k) 1 sh) else None
    end.
  (** array_ops.rs:857-876. *)
  Definition expand (axes : list Z) (x : arr A) : option (arr A) :=
    bind (expand_shape (length (a_shape x)) (sortZ axes) (a_shape x)) (into_shape x).
  (** array_ops.rs:855-858, 878-881: each one's gradient is the other on gy. *)
  Definition squeeze_grad (axes : list Z) (gy : arr A) : option (arr A) := expand axes gy.
  (** array_ops.rs:878-881. *)
  Definition expand_grad (axes : list Z) (gy : arr A) : option (arr A) := squeeze axes gy.

  (** math_ops.rs:426-453 Transpose::compute.  [permuted_axes] panics unless the
      axes are a permutation.  With [invert], [dims[perm[i]] = i]; out of range or
      unwritten entries are undefined behaviour: [None]. *)
  Definition is_perm (p : list nat) : bool :=
    forallb (fun k => existsb (Nat.eqb k) p) (seq 0 (length p)).
  (** math_ops.rs:438-447. *)
  Definition invert_perm (p : list nat) : option (list nat) :=
    if forallb (fun d => d <? length p) p && is_perm p
    then Some (fold_left (fun dims q => set_at (snd q) (fst q) dims) (combine (seq 0 (length p)) p) (repeat 0 (length p)))
    else None.
  (** math_ops.rs:426-453. *)
  Definition transpose (invert : bool) (perm : list Z) (x : arr A) : option (arr A) :=
    if length perm =? length (a_shape x) then
      bind (plain_indices perm) (fun p =>
        bind (if invert then invert_perm p else Some p) (fun d =>
          if is_perm d then Some (permute zero d x) else None))
    else None.
  (** math_ops.rs:455-465 Transpose::grad *)
  Definition transpose_grad (invert : bool) (perm : list Z) (gy : arr A) : option (arr A) :=
    transpose (negb invert) perm gy.

  (** array_ops.rs:504-528 AddN::compute (without mkl); [+=] broadcasts the
      right side to the left's shape. *)
  Definition add_n (add : A -> A -> A) (xs : list (arr A)) : option (arr A) :=
    match xs with
    | [] => None
    | [x] => Some x
    | x0 :: x1 :: xs =>
        fold_left (fun acc x => bind acc (fun a => zip_mut zero zero add a x)) xs (zip_bc zero zero add x0 x1)
    end.
  (** array_ops.rs:530-534 AddN::grad *)
  Definition add_n_grad (n : nat) (gy : arr A) : list (arr A) := repeat gy n.

  (** array_ops.rs:282-304 IndexOp::compute, 319-346 IndexOpGrad::compute
      ([access_elem]); [g] is the rank-0 gradient's element. *)
  Definition elem_pos (n : nat) (i : Z) : option nat :=
    let k := (if (i <? 0)%Z then Z.of_nat n + i else i)%Z in
    if ((0 <=? k) && (k <? Z.of_nat n))%Z then Some (Z.to_nat k) else None.
  (** array_ops.rs:282-302. *)
  Definition access_elem (i : Z) (x : arr A) : option (arr A) :=
    bind (elem_pos (length (a_data x)) i) (fun k => Some (Arr [] [nth k (a_data x) zero])).
  (** array_ops.rs:317-346. *)
  Definition access_elem_grad (i : Z) (x : arr A) (g : A) : option (arr A) :=
    bind (elem_pos (length (a_data x)) i) (fun k =>
      Some (Arr (a_shape x) (set_at k g (repeat zero (length (a_data x)))))).
End Shape.

(** array_ops.rs:241-272 SetDiff1D::compute on the integer values. *)
Definition setdiff1d (a b : list Z) : list Z :=
  sortZ (nodup Z.eq_dec (filter (fun x => negb (existsb (Z.eqb x) b)) a)).
