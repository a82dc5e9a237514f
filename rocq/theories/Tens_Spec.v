(** What array graphs mean: the value of each tensor as a function of the leaf
    values, the shapes that follow from the leaf shapes, and the points at which
    the operations are differentiable. *)
From Coq Require Import String List Arith ZArith Bool Reals.
Import ListNotations.
From Verif Require Import Array_Model Arith_Model Reduce_Model Mean_Model Shape_Model Softmax_Model Reduce_Spec Vjp_Spec
  Graph_Model Eval_Model Eval_Spec Grad_Spec Scalar_Model Scalar_Spec Tens_Model.
From Verif Require Pool_Spec.
Local Open Scope R_scope.

(** ** Values *)

(** The values of all tensors when leaf [i] holds [rho i]. *)
Definition tnode_val (rho : nat -> arr R) (i : nat) (n : node top) (acc : list (option tv)) : option tv :=
  match n_op n with
  | TLeaf => Some (TA (rho i))
  | o => match lookups acc (n_inputs n) with
         | Some vs => tcompute o vs
         | None => None
         end
  end.
Definition tvalues (rho : nat -> arr R) (g : tgraph) : list (option tv) := scan (tnode_val rho) g.
(** The array at tensor [i]. *)
Definition arr_of (v : tv) : arr R := match v with TA a => a | TI _ => Arr [] [0] end.
Definition aval (rho : nat -> arr R) (g : tgraph) (i : nat) : arr R :=
  match nth_error (tvalues rho g) i with Some (Some v) => arr_of v | _ => Arr [] [0] end.

(** ** Shapes *)

(** A tensor holds numbers in a given shape, or given integers. *)
Inductive ty := TyA (sh : list nat) | TyI (l : list Z).

Definition nonempty (sh : list nat) : bool := negb (prod sh =? 0)%nat.

(** +, -, *, /: the operands broadcast to a common shape, which is the one the
    attached shape tensor computes (same rank, or one operand of rank 0). *)
Definition arith_ty (a b : list nat) : option (list nat) :=
  match co_broadcast a b, infer_shape a b with
  | Some r, Some r' => if shape_eqb r r' && nonempty r then Some r else None
  | _, _ => None
  end.
(** Comparisons, maximum and minimum. *)
Definition cmp_ty (a b : list nat) : option (list nat) :=
  if nonempty a && nonempty b then
    if shape_eqb b [] then Some a
    else if shape_eqb a [] then Some b
    else if shape_eqb a b then Some a
    else if (length a =? length b)%nat && (prod a <? prod b)%nat && can_broadcast a b then Some b
    else None
  else None.
Definition same_ty (a b : list nat) : option (list nat) := if shape_eqb a b then Some a else None.
Definition bin_ty (b : bop) (s0 s1 : list nat) : option (list nat) :=
  match b with
  | Add | Sub | Mul => arith_ty s0 s1
  | Div => if shape_eqb s1 [1%nat] then None else arith_ty s0 s1
  | ELUGrad _ | ClipGrad _ _ => same_ty s0 s1
  | _ => cmp_ty s0 s1
  end.
(** [from] can be broadcast to [to] by repeating elements along dimensions of
    size 1, or as a rank-0 array. *)
Definition reduces_to (orig g : list nat) : bool :=
  nonempty g && can_broadcast orig g && ((length orig =? length g)%nat || shape_eqb orig []).

(** Axes of a rank-[n] array, none named twice. *)
Fixpoint distinctb (l : list nat) : bool :=
  match l with [] => true | k :: l => negb (memb k l) && distinctb l end.
Definition axes_of (n : nat) (axes : list Z) : option (list nat) :=
  match normalize_axes n axes with
  | Some ax => if forallb (fun k => (k <? n)%nat) ax && distinctb ax then Some ax else None
  | None => None
  end.
(** A permutation of the axes of a rank-[n] array. *)
Definition perm_of (n : nat) (inv : bool) (perm : list Z) : option (list nat) :=
  if (length perm =? n)%nat then
    match plain_indices perm with
    | Some p => if forallb (fun k => (k <? n)%nat) p && is_perm p
                then (if inv then invert_perm p else Some p) else None
    | None => None
    end
  else None.
(** How many elements are combined into one by reducing the axes [ax]. *)
Definition group_size (ax sh : list nat) : nat := prod (map (fun k => nth k sh 0%nat) ax).
(** [out] is [sh] with unit axes at the positions [ax]. *)
Definition unit_axesb (ax sh out : list nat) : bool :=
  (length out =? length sh + length ax)%nat && shape_eqb (drop_axes ax out) sh &&
  forallb (fun k => (nth k out 0 =? 1)%nat) ax && forallb (fun k => (k <? length out)%nat) ax && distinctb ax.
(** Class numbers below [c], one for each of [n] rows. *)
Definition labels_ok (n c : nat) (t : list Z) : bool :=
  (length t =? n)%nat && forallb (fun z => (0 <=? z)%Z && (z <? Z.of_nat c)%Z) t.
(** The shape of a block of an array, given by a range for each axis. *)
Definition range_lens (rs : list (nat * nat)) : list nat := map (fun r => (snd r - fst r)%nat) rs.
(** The block made of the positions [lo .. hi-1] of one axis. *)
Definition split_ranges (sh : list nat) (axis lo hi : Z) : option (list (nat * nat)) :=
  match normalize_axis axis (length sh) with
  | Some k => match split_slices (length sh) k lo hi with Some sl => ranges sh sl | None => None end
  | None => None
  end.
Definition all_shapes (ts : list ty) : option (list (list nat)) :=
  fold_right (fun t acc => match t, acc with TyA s, Some l => Some (s :: l) | _, _ => None end) (Some []) ts.
(** Arrays that agree but for axis [k], put one after the other along it. *)
Definition joined (k : nat) (l : list (list nat)) : option ty :=
  match l with
  | [] => None
  | sh :: _ =>
      if (k <? length sh)%nat && forallb (fun s => (length s =? length sh)%nat && shape_eqb (remove_at k s) (remove_at k sh)) l
      then Some (TyA (set_at k (list_sum (map (fun s => nth k s 0%nat) l)) sh)) else None
  end.
(** Convolutions: how many places a kernel of [k] pixels, [d] apart, has on [x]
    pixels with padding [p], when it is moved by [s]; sizes are positive and fit
    the integers used. *)
Definition conv_out (x p s d k : nat) : option nat :=
  if (0 <? s)%nat && (0 <? k)%nat && (d * (k - 1) <? x + 2 * p)%nat then Some ((x + 2 * p - (d * (k - 1) + 1)) / s + 1)%nat else None.
Definition small (l : list nat) : bool := forallb (fun n => (Z.of_nat n <? 2 ^ 31)%Z) l.
Definition conv_ty (p s d : nat) (x w : list nat) : option (list nat) :=
  match x, w with
  | [b; xch; xh; xw], [ych; wch; kh; kw] =>
      match conv_out xh p s d kh, conv_out xw p s d kw with
      | Some yh, Some yw =>
          if (xch =? wch)%nat && forallb (fun n => (0 <? n)%nat) [xch; ych; xh; xw] &&
             small [xh + 2 * p + s; xw + 2 * p + s; xh * xw; xch * kw * kh * yh * yw; ych * yh * yw]%nat
          then Some [b; ych; yh; yw] else None
      | _, _ => None
      end
  | _, _ => None
  end.
(** The size of an image on which such a kernel has [y] places and none is left
    over. *)
Definition back_size (checked : bool) (y p s d k : nat) : option nat :=
  if (0 <? y)%nat && (2 * p <=? s * (y - 1) + d * (k - 1))%nat && (negb checked || (2 * p <=? s * (y - 1))%nat)
  then Some (s * (y - 1) + d * (k - 1) + 1 - 2 * p)%nat else None.
Definition deconv_ty (checked : bool) (p s d : nat) (y w : list nat) : option (list nat) :=
  match y, w with
  | [b; _; yh; yw], [_; xch; kh; kw] =>
      match back_size checked yh p s d kh, back_size checked yw p s d kw with
      | Some xh, Some xw =>
          match conv_ty p s d [b; xch; xh; xw] w with
          | Some y' => if (0 <? b)%nat && shape_eqb y' y then Some [b; xch; xh; xw] else None
          | None => None
          end
      | _, _ => None
      end
  | _, _ => None
  end.
(** Square images, or a single one. *)
Definition square (x : list nat) : bool :=
  match x with [b; _; h; w] => (h =? w)%nat || (b =? 1)%nat | _ => false end.
(** Max pooling, without padding. *)
Definition pool_ty (p s size : nat) (x : list nat) : option (list nat) :=
  match x with
  | [b; ch; xh; xw] =>
      if (p =? 0)%nat && (0 <? s)%nat && (0 <? size)%nat && (size <=? xh)%nat && (size <=? xw)%nat &&
         forallb (fun n => (Z.of_nat (2 * n) <? 2 ^ 64)%Z) [xh; xw]
      then Some [b; ch; ((xh - size) / s + 1)%nat; ((xw - size) / s + 1)%nat] else None
  | _ => None
  end.
(** The last window ends at the end of the image, and positions are exact. *)
Definition pool_exact (bits : N) (s size : nat) (x : list nat) : bool :=
  match x with
  | [b; ch; xh; xw] =>
      forallb (fun n => (s * ((n - size) / s) + size =? n)%nat) [xh; xw] && (N.of_nat (b * ch * xh * xw) <=? 2 ^ bits)%N
  | _ => false
  end.
(** Positions along an axis of [n] elements; with [norm], also counted from the
    end. *)
Definition named (norm : bool) (n : nat) (z : Z) : bool :=
  ((0 <=? z) && (z <? Z.of_nat n) || norm && (- Z.of_nat n <=? z) && (z <? 0))%Z.
(** Elements picked along an axis by a vector of positions. *)
Definition gather_ty (norm : bool) (axis : Z) (idx : list Z) (sh : list nat) : option (list nat) :=
  match axis_of (length sh) axis with
  | Some k => if negb (length idx =? 0)%nat && forallb (named norm (nth k sh 0%nat)) idx then Some (set_at k (length idx) sh) else None
  | None => None
  end.
Definition otyA (o : option (list nat)) : option ty := option_map TyA o.

Definition op_ty (o : top) (ts : list ty) : option ty :=
  match o, ts with
  | TScalar _, [] => Some (TyA [])
  | TConst a, [] => if (length (a_data a) =? prod (a_shape a))%nat then Some (TyA (a_shape a)) else None
  | TConstI l, [] => Some (TyI l)
  | TShape, [TyA sh] => Some (TyI (shape_vec sh))
  | TSize, [TyA sh] => Some (TyA [])
  | TInferShape, [TyI a; TyI b] =>
      match dims a, dims b with
      | Some a, Some b => option_map (fun r => TyI (shape_vec r)) (infer_shape a b)
      | _, _ => None
      end
  | TZeros, [TyI l] | TOnes, [TyI l] => otyA (dims l)
  | TMaybeReduceSum, [TyA g; TyI l] =>
      match dims l with Some o => if reduces_to o g then Some (TyA o) else None | None => None end
  | TMaybeBroadcast, [TyA x; TyI l] =>
      match dims l with Some t => if reduces_to x t then Some (TyA t) else None | None => None end
  | TSumAll, [TyA sh] => Some (TyA [])
  | TSumAllGrad, [TyA []; TyI l] => otyA (dims l)
  | TAddN, TyA sh :: ts =>
      if forallb (fun t => match t with TyA s => shape_eqb s sh | _ => false end) ts then Some (TyA sh) else None
  | TStop, [TyA sh] => Some (TyA sh)
  | TUn _, [TyA sh] => Some (TyA sh)
  | TBin b, [TyA s0; TyA s1] => otyA (bin_ty b s0 s1)
  | TMatMul ta tb, [TyA [a0; a1]; TyA [b0; b1]] =>
      if ((if ta then a0 else a1) =? (if tb then b1 else b0))%nat
      then Some (TyA [if ta then a1 else a0; if tb then b0 else b1]) else None
  | TReduceSum keep, [TyA sh; TyI axes] =>
      if shape_eqb sh [0%nat] then None
      else option_map (fun ax => TyA (reduced_shape keep ax sh)) (axes_of (length sh) axes)
  | TReduceGrad md, [TyA g; TyI l; TyI axes] =>
      match dims l with
      | None => None
      | Some sh =>
          if shape_eqb sh [0%nat] then None
          else match axes_of (length sh) axes with
               | Some ax => if shape_eqb g (reduced_shape (negb md) ax sh) then Some (TyA sh) else None
               | None => None
               end
      end
  | TReshape, [TyA sh; TyI l] =>
      match reshape_dims (prod sh) l l with
      | Some out => if (prod sh =? prod out)%nat then Some (TyA out) else None
      | None => None
      end
  | TTranspose inv, [TyA sh; TyI perm] =>
      option_map (fun p => TyA (map (fun k => nth k sh 0%nat) p)) (perm_of (length sh) inv perm)
  | TSoftmax _ axis, [TyA sh] =>
      match axis_of (length sh) axis with Some _ => Some (TyA sh) | None => None end
  | TReduceMean keep, [TyA sh; TyI axes] =>
      match axes_of (length sh) axes with
      | Some ax => if nonempty sh && (N.of_nat (group_size ax sh) <=? 2 ^ 24)%N then Some (TyA (reduced_shape keep ax sh)) else None
      | None => None
      end
  | TReduceProd keep, [TyA sh; TyI axes] =>
      if shape_eqb sh [0%nat] then None
      else option_map (fun ax => TyA (reduced_shape keep ax sh)) (axes_of (length sh) axes)
  | TReduceExt _ _ keep, [TyA sh; TyI axes] =>
      if shape_eqb sh [0%nat] then None
      else option_map (fun ax => TyA (reduced_shape keep ax sh)) (axes_of (length sh) axes)
  | TGatherI, [TyI idx; TyI l] => option_map (fun a => TyI (a_data a)) (gather 0%Z true 0 (vecZ idx) (vecZ l))
  | TProdI, [TyI (_ :: _); TyI [0%Z]] => Some (TyA [])
  | TIndex i, [TyA sh] => match elem_pos (prod sh) i with Some _ => Some (TyA []) | None => None end
  | TIndexGrad i, [TyA sh; TyA []] => match elem_pos (prod sh) i with Some _ => Some (TyA sh) | None => None end
  | TExpandDims, [TyA sh; TyI axes] =>
      match plain_indices axes, expand_shape (length sh) (sortZ axes) sh with
      | Some ax, Some out => if unit_axesb ax sh out then Some (TyA out) else None
      | _, _ => None
      end
  | TSqueeze, [TyA sh; TyI axes] =>
      match plain_indices axes with
      | Some ax => if unit_axesb ax (drop_axes ax sh) sh then Some (TyA (drop_axes ax sh)) else None
      | None => None
      end
  | TLogSoftmax _ axis, [TyA sh] =>
      match axis_of (length sh) axis with Some _ => if nonempty sh then Some (TyA sh) else None | None => None end
  | TLogSumExp _ axis true, [TyA sh] =>
      match axis_of (length sh) axis with Some k => if nonempty sh then Some (TyA (set_at k 1%nat sh)) else None | None => None end
  | TSigmoidXent, [TyA s0; TyA s1] => otyA (same_ty s0 s1)
  | TSparseXent _, [TyA [n; c]; TyI t] => if nonempty [n; c] && labels_ok n c t then Some (TyA [n; 1%nat]) else None
  | TXentLog _, [TyA [n; c]; TyI t] => if nonempty [n; c] && labels_ok n c t then Some (TyA [n; c]) else None
  | TSparseXentGrad, [TyA [n; c]; TyI t; TyA [m; 1%nat]] =>
      if nonempty [n; c] && labels_ok n c t && (n =? m)%nat then Some (TyA [n; c]) else None
  | TSlice sl, [TyA sh] => option_map (fun rs => TyA (range_lens rs)) (ranges sh sl)
  | TSliceGrad sl, [TyA sh; TyA g] =>
      match ranges sh sl with Some rs => if shape_eqb g (range_lens rs) then Some (TyA sh) else None | None => None end
  | TSplit axis lo hi, [TyA sh] => option_map (fun rs => TyA (range_lens rs)) (split_ranges sh axis lo hi)
  | TSplitGrad axis lo hi, [TyA sh; TyA g] =>
      match split_ranges sh axis lo hi with Some rs => if shape_eqb g (range_lens rs) then Some (TyA sh) else None | None => None end
  | TTile axis num, [TyA sh] =>
      match axis_of (length sh) axis with
      | Some k => if (0 <? num)%nat then Some (TyA (set_at k (num * nth k sh 0) sh)%nat) else None
      | None => None
      end
  | TConcat axis, TyA sh :: ts =>
      match all_shapes ts with
      | Some l => if (axis <? 0)%Z then None else joined (Z.to_nat axis) (sh :: l)
      | None => None
      end
  | TConv _ p s d, [TyA x; TyA w] => otyA (conv_ty p s d x w)
  | TConvCols p s d, [TyA x; TyA w] =>
      match conv_ty p s d x w, x, w with
      | Some [b; _; yh; yw], [_; xch; _; _], [_; _; kh; kw] => Some (TyA [b; xch; kw; kh; yh; yw])
      | _, _, _ => None
      end
  | TConvGradW, [TyA [b; xch; kw; kh; yh; yw]; TyA g; TyA w] =>
      match g, w with
      | [b'; ych; yh'; yw'], [ych'; xch'; kh'; kw'] =>
          if (0 <? b)%nat && shape_eqb g [b; ych'; yh; yw] && shape_eqb w [ych; xch; kh; kw] then Some (TyA w) else None
      | _, _ => None
      end
  | TConvT checked p s d, [TyA y; TyA w] => otyA (deconv_ty checked p s d y w)
  | TConvTGradW p s d, [TyA g; TyA x; TyA w] =>
      match conv_ty p s d g w with
      | Some y => if shape_eqb y x && square x && negb (hd 0 x =? 0)%nat then Some (TyA w) else None
      | None => None
      end
  | TPool _ _ _ p s size, [TyA x] => otyA (pool_ty p s size x)
  | TPoolGrad _ bits _ p s size, [TyA x; TyA g] =>
      match pool_ty p s size x with
      | Some y => if shape_eqb y g && pool_exact bits s size x then Some (TyA x) else None
      | None => None
      end
  | TGather norm axis, [TyI idx; TyA sh] => otyA (gather_ty norm axis idx sh)
  | _, _ => None
  end.

(** The leaves have the shapes [ls]. *)
Definition tnode_ty (ls : nat -> list nat) (i : nat) (n : node top) (acc : list (option ty)) : option ty :=
  match n_op n with
  | TLeaf => Some (TyA (ls i))
  | o => match lookups acc (n_inputs n) with
         | Some ts => op_ty o ts
         | None => None
         end
  end.
Definition ttypes (ls : nat -> list nat) (g : tgraph) : list (option ty) := scan (tnode_ty ls) g.
(** Tensor [i] holds numbers in shape [sh] (and everything it is computed from
    fits together). *)
Definition shaped (ls : nat -> list nat) (g : tgraph) (i : nat) (sh : list nat) : Prop :=
  nth_error (ttypes ls g) i = Some (Some (TyA sh)).
Definition conform (ls : nat -> list nat) (rho : nat -> arr R) : Prop := forall i, has_shape (ls i) (rho i).

(** Well-formed array graphs: inputs come earlier, attached shape tensors hold
    the shape, leaves are the variables and placeholders, ranks are those the
    builder assigns, no operation writes in place. *)
Record twf (ls : nat -> list nat) (g : tgraph) : Prop := {
  twf_input : forall i n inc, nth_error g i = Some n -> In inc (n_inputs n) -> (in_id inc < i)%nat;
  twf_shape : forall i n sh t, nth_error g i = Some n -> shaped ls g i sh -> n_shape n = Some t ->
    nth_error (ttypes ls g) t = Some (Some (TyI (shape_vec sh)));
  twf_leaf : forall i n, nth_error g i = Some n -> n_op n = TLeaf ->
    n_inputs n = [] /\ (is_variable n || is_placeholder n) = true;
  twf_op : forall i n, nth_error g i = Some n -> n_op n <> TLeaf -> n_var n = None /\ n_ph n = None;
  twf_backprop : forall i n, nth_error g i = Some n -> n_backprop n = None;
  twf_rank : forall i n inc, nth_error g i = Some n -> In inc (n_inputs n) -> (rank_of g (in_id inc) < n_rank n)%nat;
  twf_mut : forall i n inc, nth_error g i = Some n -> In inc (n_inputs n) -> in_mut inc = false
}.

(** ** Uses of operations whose gradient rules fit *)

(** Elementwise functions whose rule divides by an array of the input's shape. *)
Definition divides (u : uop) : bool :=
  match u with Tan | Ln | Log2 | Log10 | Softplus => true | _ => false end.
(** The known restrictions: no empty arrays under elementwise operations; the
    operands of maximum and minimum have the same shape; matrix products carry no
    transposition flags; log-softmax is along axis 1; reductions other than sums
    name at least one axis; only unit axes are tiled; kernels and pooling windows
    leave no pixel over (C38, C40); transposed convolutions are of square images
    or of a single one (C52); concatenations and (but see [uses] below) gathers
    are not differentiated, nor are
    gradients of reductions, of element accesses, of slices, of sparse cross
    entropies, of convolutions with respect to filters, and of pooling. *)
Definition op_fit (o : top) (ts : list ty) : bool :=
  match o, ts with
  | TUn u, [TyA sh] => nonempty sh && negb (divides u && shape_eqb sh [1%nat])
  | TBin Maximum, [TyA a; TyA b] | TBin Minimum, [TyA a; TyA b] => shape_eqb a b
  | TMatMul ta tb, _ => negb ta && negb tb
  | TReduceGrad _, _ => false
  | TSoftmax _ _, [TyA sh] => nonempty sh
  | TReduceMean _, [_; TyI axes] => negb (length axes =? 0)%nat
  | TReduceProd _, [TyA sh; TyI axes] => negb (length axes =? 0)%nat && nonempty sh && negb (shape_eqb sh [1%nat])
  | TReduceExt _ _ _, [TyA sh; TyI axes] => negb (length axes =? 0)%nat && nonempty sh
  | TIndexGrad _, _ => false
  | TLogSoftmax _ axis, [TyA sh] => match axis_of (length sh) axis with Some k => (k =? 1)%nat | None => false end
  | TSigmoidXent, [TyA sh; _] => nonempty sh && negb (shape_eqb sh [1%nat])
  | TXentLog _, _ | TSparseXentGrad, _ => false
  | TSliceGrad _, _ | TSplitGrad _ _ _, _ | TConcat _, _ => false
  | TTile axis num, [TyA sh] =>
      match axis_of (length sh) axis with Some k => (nth k sh 0 =? 1)%nat | None => false end
  | TConv checked p s d, [TyA x; TyA w] =>
      match conv_ty p s d x w with
      | Some y => match deconv_ty checked p s d y w with Some x' => shape_eqb x' x | None => false end
      | None => false
      end
  | TConvT _ _ _ _, [TyA y; _] => square y
  | TPool _ bits _ _ s size, [TyA x] => pool_exact bits s size x
  | TConvCols _ _ _, _ | TConvGradW, _ | TConvTGradW _ _ _, _ | TPoolGrad _ _ _ _ _ _, _ => false
  | TGather _ _, _ => false
  | _, _ => true
  end.
(** Inputs whose gradient is wrong and which therefore must not vary: the labels
    of sigmoid_cross_entropy. *)
Definition frozen (o : top) (p : nat) : bool :=
  match o, p with TSigmoidXent, 1%nat => true | _, _ => false end.
(** Every tensor that [y] is computed from is such a use. *)
Definition fits (ls : nat -> list nat) (g : tgraph) (y : nat) : Prop :=
  forall i n ts, depends g y i -> nth_error g i = Some n -> lookups (ttypes ls g) (n_inputs n) = Some ts ->
    op_fit (n_op n) ts = true.

(** ** Gathers *)

(** The gradient of [gather] has an attached shape tensor that holds something else
    (the shape of the positions, array_ops.rs:386-398), so [twf] cannot hold of a
    typed graph with such tensors.  [wtypes true] are the types of a graph where
    those tensors, and what is computed from them, have types as well but nothing is
    said about attached shape tensors; [wtypes false] are [ttypes]. *)
Definition gather_back (axis : Z) (idx : list Z) : bool := (0 <=? axis)%Z && forallb (fun z => negb (z =? -1)%Z) idx.
Definition op_tyx (lax : bool) (o : top) (ts : list ty) : option ty :=
  if lax then
    match o, ts with
    | TGatherGrad axis, [TyI idx; TyA sh; TyA g] =>
        match gather_ty true axis idx sh with
        | Some out => if gather_back axis idx && shape_eqb g out then Some (TyA sh) else None
        | None => None
        end
    | _, _ => op_ty o ts
    end
  else op_ty o ts.
Definition tnode_tyx (lax : bool) (ls : nat -> list nat) (i : nat) (n : node top) (acc : list (option ty)) : option ty :=
  match n_op n with
  | TLeaf => Some (TyA (ls i))
  | o => match lookups acc (n_inputs n) with
         | Some ts => op_tyx lax o ts
         | None => None
         end
  end.
Definition wtypes (lax : bool) (ls : nat -> list nat) (g : tgraph) : list (option ty) := scan (tnode_tyx lax ls) g.
(** Tensor [i] holds numbers in shape [sh], whatever shape tensor is attached to it. *)
Definition sized (ls : nat -> list nat) (g : tgraph) (i : nat) (sh : list nat) : Prop :=
  nth_error (wtypes true ls g) i = Some (Some (TyA sh)).
(** Gathers along an axis that is not counted from the end, without the position
    -1 (C31), can be used too, where the attached shapes do not matter. *)
Definition op_use (lax : bool) (o : top) (ts : list ty) : bool :=
  if lax then match o, ts with TGather _ axis, [TyI idx; _] => gather_back axis idx | _, _ => op_fit o ts end
  else op_fit o ts.
Definition usesx (lax : bool) (ls : nat -> list nat) (g : tgraph) (y : nat) : Prop :=
  forall i n ts, depends g y i -> nth_error g i = Some n -> lookups (ttypes ls g) (n_inputs n) = Some ts ->
    op_use lax (n_op n) ts = true.
Definition uses (ls : nat -> list nat) (g : tgraph) (y : nat) : Prop := usesx true ls g y.

(** ** Differentiability *)

(** Each group of elements that a reduction combines has a single largest
    (smallest) element, which lies above (below) [init]. *)
Definition beyond (mx : bool) (a b : R) : Prop := if mx then b < a else a < b.
Definition single_extremes (mx : bool) (init : R) (keep : bool) (ax : list nat) (x : arr R) : Prop :=
  forall i, in_bounds (a_shape x) i -> exists j, in_bounds (a_shape x) j /\
    reduced_index keep ax j = reduced_index keep ax i /\ beyond mx (aget 0 x j) init /\
    forall j', in_bounds (a_shape x) j' -> reduced_index keep ax j' = reduced_index keep ax i -> j' <> j ->
      beyond mx (aget 0 x j) (aget 0 x j').

(** The points at which an operation is differentiable.  [TStop] has none: its
    output is not treated as a function of its input. *)
Definition t_dom (o : top) (vs : list tv) : Prop :=
  match o, vs with
  | TUn u, [TA x] => List.Forall (un_dom u) (a_data x)
  | TBin b, [TA x; TA y] =>
      forall r i, co_broadcast (a_shape x) (a_shape y) = Some r -> in_bounds r i ->
        bin_dom b (aget 0 x (bc_idx (a_shape x) i)) (aget 0 y (bc_idx (a_shape y) i))
  | TStop, _ => False
  | TReduceProd _, TA x :: _ => List.Forall (fun a => a <> 0) (a_data x)
  | TReduceExt mx init keep, [TA x; TI axes] => forall ax, axes_of (length (a_shape x)) axes = Some ax -> single_extremes mx init keep ax x
  | TPool lowest _ _ p s size, [TA x] =>
      List.Forall (Rlt lowest) (a_data x) /\
      forall b ch xh xw yh yw, a_shape x = [b; ch; xh; xw] -> pool_ty p s size (a_shape x) = Some [b; ch; yh; yw] ->
        Pool_Spec.unique_maxima b ch xh xw yh yw p s size x
  | _, _ => True
  end.

(** The values at the inputs of a node. *)
Definition in_vals (rho : nat -> arr R) (g : tgraph) (n : node top) : list tv :=
  map (fun inc => match nth_error (tvalues rho g) (in_id inc) with Some (Some v) => v | _ => TI [] end) (n_inputs n).

(** Pooling straight after [relu], where [u] is what [relu] was applied to: every
    window has one largest pixel only, which is positive, or its pixels are all
    negative (so that [relu] makes them all 0). *)
Definition pool_after_relu (rho : nat -> arr R) (g : tgraph) (n : node top) : Prop :=
  exists lowest bits checked p s size inc m inc',
    n_op n = TPool lowest bits checked p s size /\ n_inputs n = [inc] /\ nth_error g (in_id inc) = Some m /\
    n_op m = TUn ReLU /\ n_inputs m = [inc'] /\ lowest < 0 /\
    let u := aval rho g (in_id inc') in
    forall b ch xh xw yh yw, a_shape u = [b; ch; xh; xw] -> pool_ty p s size (a_shape u) = Some [b; ch; yh; yw] ->
    forall k c i j, (k < b)%nat -> (c < ch)%nat -> (i < yh)%nat -> (j < yw)%nat ->
      (exists h w, Pool_Spec.in_window xh xw p s size i j h w /\ 0 < aget 0 u [k; c; h; w] /\
         forall h' w', Pool_Spec.in_window xh xw p s size i j h' w' -> (h', w') <> (h, w) -> aget 0 u [k; c; h'; w'] < aget 0 u [k; c; h; w]) \/
      (forall h w, Pool_Spec.in_window xh xw p s size i j h w -> aget 0 u [k; c; h; w] < 0).
(** The operation of a tensor is differentiable where it is applied. *)
Definition t_dom_at (rho : nat -> arr R) (g : tgraph) (n : node top) : Prop :=
  t_dom (n_op n) (in_vals rho g n) \/ pool_after_relu rho g n.

(** [x] can be varied in [y]: every array that [y] is computed from and that
    itself depends on [x] is differentiable, with its operation inside its
    domain and independent of [x] in its frozen inputs; sizes are constants. *)
Definition t_smooth (ls : nat -> list nat) (g : tgraph) (rho : nat -> arr R) (x y : nat) : Prop :=
  forall i n sh, depends g y i -> depends g i x -> i <> x -> nth_error g i = Some n -> shaped ls g i sh ->
    n_op n <> TSize -> n_diff n = true /\ t_dom_at rho g n /\
    forall p inc, nth_error (n_inputs n) p = Some inc -> frozen (n_op n) p = true -> ~ depends g (in_id inc) x.

(** A variable or placeholder that gradients may be asked for. *)
Definition t_input_leaf (g : tgraph) (x : nat) : Prop :=
  exists n, nth_error g x = Some n /\ n_op n = TLeaf /\ n_diff n = true.

(** The sum of all elements of an array. *)
Definition elements_sum (a : arr R) : R := fold_right Rplus 0 (a_data a).

(** Changing one leaf. *)
Definition put (rho : nat -> arr R) (x : nat) (a : arr R) : nat -> arr R :=
  fun i => if (i =? x)%nat then a else rho i.

(** The variables and feeds hold the leaf values [rho]. *)
Definition t_leaf_values (g : tgraph) (feeds : list (ph_key * tv)) (env : list tv) (rho : nat -> arr R) : Prop :=
  forall i n, nth_error g i = Some n -> n_op n = TLeaf ->
    (exists vid, n_var n = Some vid /\ n_ph n = None /\ nth_error env vid = Some (TA (rho i))) \/
    (n_var n = None /\ fed tv_shape feeds i n (TA (rho i))).

Definition has_ty (v : tv) (t : ty) : Prop :=
  match v, t with
  | TA a, TyA sh => has_shape sh a
  | TI l, TyI l' => l = l'
  | _, _ => False
  end.
