(** Graphs of arrays over the reals: elementwise operations with broadcasting,
    matrix products, reductions, reshaping, transposition, softmax and the
    operations their gradient rules create
    (src/tensor_ops/{math_ops,binary_ops,activation_ops,array_ops,const_gen_ops,
    reduction_ops,dot_ops,xent_ops,conv_ops/*}.rs).

    The forward computations are those of Arith_Model, Reduce_Model, Mean_Model,
    Dot_Model, Shape_Model, Softmax_Model, Conv_Model and Pool_Model.  A tensor holds an array of real numbers or a
    vector of integers (a shape, a list of axes or a permutation; the code keeps
    these as floats in ordinary arrays, ndarray_ext.rs:29-31).  Integer vectors
    that are computed from real arrays are not modelled. *)
From Coq Require Import String List Arith ZArith Bool Reals.
Import ListNotations.
From Verif Require Import Array_Model Arith_Model Reduce_Model Mean_Model Shape_Model Softmax_Model Dot_Model
  Graph_Model Eval_Model Grad_Model Scalar_Model.
From Verif Require Conv_Model Pool_Model.
Local Open Scope R_scope.

(** Arrays of src/ndarray_ext.rs:10-19; [TI]: vectors used as shapes, axes or indices
    (ndarray_ext.rs:22-31). *)
Inductive tv := TA (a : arr R) | TI (l : list Z).

Inductive top :=
| TLeaf                          (* variables and placeholders: no computation *)
| TScalar (r : R)                (* const_gen_ops.rs:16-25 Scalar *)
| TConst (a : arr R)             (* const_gen_ops.rs ConvertToTensor of numbers *)
| TConstI (l : list Z)           (* ConvertToTensor of shapes, axes, permutations *)
| TShape                         (* array_ops.rs:144-155 Shape *)
| TSize                          (* array_ops.rs:170-182 Size *)
| TInferShape                    (* array_ops.rs:107-142 InferBinOpShape *)
| TZeros | TOnes                 (* const_gen_ops.rs:27-81 *)
| TMaybeReduceSum                (* binary_ops.rs:39-105 *)
| TMaybeBroadcast                (* binary_ops.rs:107-146 *)
| TSumAll                        (* reduction_ops.rs:123-137 ReduceSumToScalar *)
| TSumAllGrad                    (* reduction_ops.rs:139-159 ReduceSumToScalarGrad *)
| TAddN                          (* array_ops.rs:503-535 AddN *)
| TStop                          (* gradient_ops.rs:4-16 StopGradient *)
| TUn (u : uop)                  (* elementwise, see Scalar_Model *)
| TBin (b : bop)
| TMatMul (ta tb : bool)         (* dot_ops.rs:560-628 MatMul *)
| TReduceSum (keep : bool)       (* reduction_ops.rs:161-184 ReduceSum, sparse_axes = false *)
| TReduceGrad (make_dims : bool) (* reduction_ops.rs:459-512 ReduceGradCommon, sparse_axes = false *)
| TReshape                       (* array_ops.rs:187-240 Reshape *)
| TTranspose (invert : bool)     (* math_ops.rs:426-466 Transpose *)
| TSoftmax (minv : R) (axis : Z)  (* activation_ops.rs:57-110; [minv] is [T::min_value()] *)
| TReduceMean (keep : bool)      (* reduction_ops.rs:187-239 ReduceMean, sparse_axes = false *)
| TReduceProd (keep : bool)      (* reduction_ops.rs:241-274 ReduceProd *)
| TReduceExt (mx : bool) (init : R) (keep : bool) (* reduction_ops.rs:276-363 ReduceMax, ReduceMin;
                                    [init] is [T::min_value()] or [T::max_value()] *)
| TGatherI                       (* array_ops.rs:353-384 Gather of integers along axis 0, negative indices allowed *)
| TProdI                         (* reduction_ops.rs:241-253 ReduceProd of a vector of integers *)
| TIndex (i : Z)                 (* array_ops.rs:281-315 IndexOp *)
| TIndexGrad (i : Z)             (* array_ops.rs:317-351 IndexOpGrad *)
| TExpandDims                    (* array_ops.rs:856-882 ExpandDims *)
| TSqueeze                       (* array_ops.rs:826-854 Squeeze *)
| TLogSoftmax (minv : R) (axis : Z)             (* xent_ops.rs:17-32 *)
| TLogSumExp (minv : R) (axis : Z) (keep : bool) (* math_ops.rs:540-610 *)
| TSigmoidXent                   (* xent_ops.rs:33-61 SigmoidCrossEntropy *)
| TSparseXent (minv : R)         (* xent_ops.rs:64-138 SparseSoftmaxCrossEntropy; the labels are integers *)
| TXentLog (minv : R)            (* its second output; simplification: read from the inputs
                                    instead of from output 1 (mod.rs:545-555 nth_tensor) *)
| TSparseXentGrad                (* xent_ops.rs:139-158 SparseSoftmaxCrossEntropyGrad *)
| TSlice (sl : list (Z * option Z))      (* array_ops.rs:780-801 Slice *)
| TSliceGrad (sl : list (Z * option Z))  (* array_ops.rs:803-829 SliceGrad *)
| TSplit (axis lo hi : Z)        (* array_ops.rs:698-724 Split *)
| TSplitGrad (axis lo hi : Z)    (* array_ops.rs:726-748 SplitGrad *)
| TTile (axis : Z) (num : nat)   (* array_ops.rs:679-696 Tile *)
| TConcat (axis : Z)             (* array_ops.rs:576-620 Concat *)
| TConcatGrad (axis : Z) (k : nat) (* array_ops.rs:622-677 ConcatGrad *)
| TGather (norm : bool) (axis : Z) (* array_ops.rs:353-399 Gather of numbers; the indices are an integer vector *)
| TGatherGrad (axis : Z)         (* array_ops.rs:401-473 GatherGrad *)
(* Convolutions and pooling; [checked]: usize arithmetic panics on overflow
   (debug builds). *)
| TConv (checked : bool) (p s d : nat)      (* conv_ops/conv2d.rs:531-587 Conv2D *)
| TConvCols (p s d : nat)        (* its second output; simplification: read from the inputs
                                    instead of from output 1 *)
| TConvGradW                     (* conv_ops/conv2d.rs:736-776 Conv2DFilterGrad; simplification: without its
                                    backprop inputs, which only second derivatives use *)
| TConvT (checked : bool) (p s d : nat)     (* conv_ops/conv2d_transpose.rs:249-301 Conv2DTranspose *)
| TConvTGradW (p s d : nat)      (* conv_ops/conv2d_transpose.rs:433-480 Conv2DTransposeFilterGrad *)
| TPool (lowest : R) (bits : N) (checked : bool) (p s size : nat) (* conv_ops/max_pool2d.rs:166-243 MaxPool2D;
                                    [lowest] is [T::min_value()], [bits] the precision of the floats that hold positions *)
| TPoolGrad (lowest : R) (bits : N) (checked : bool) (p s size : nat). (* conv_ops/max_pool2d.rs:245-295 MaxPool2DGrad;
                                    simplification: the positions are found again from the image
                                    instead of read from output 1 *)

(** ** Forward computations *)

(** [x[IxDyn(&[])]]: the element of a rank-0 array. For other ranks the model stops (see
    Arith_Model). E.g. binary_ops.rs:176. *)
Definition empty_elem (a : arr R) : option R :=
  match a_shape a with [] => nth_error (a_data a) 0 | _ => None end.

(** math_ops.rs:86-175 impl_cmp_op: comparisons, maximum, minimum.  Scalars are
    combined with every element; otherwise the ranks must agree and only the left
    operand is broadcast, if it has fewer elements. *)
Definition cmp_forward (f : R -> R -> R) (x0 x1 : arr R) : option (arr R) :=
  let s0 := is_scalar_shape (a_shape x0) in
  let s1 := is_scalar_shape (a_shape x1) in
  if s1 then match empty_elem x1 with None => None | Some e => Some (amap (fun a => f a e) x0) end
  else if s0 then match empty_elem x0 with None => None | Some e => Some (amap (fun a => f e a) x1) end
  else if negb (length (a_shape x0) =? length (a_shape x1))%nat then None
  else if (prod (a_shape x0) <? prod (a_shape x1))%nat then
    match broadcast 0 x0 (a_shape x1) with
    | None => None
    | Some b => Some (tab (a_shape x1) (fun i => f (aget 0 b i) (aget 0 x1 i)))
    end
  else if (prod (a_shape x1) <? prod (a_shape x0))%nat then None
  else if shape_eqb (a_shape x0) (a_shape x1)
       then Some (tab (a_shape x0) (fun i => f (aget 0 x0 i) (aget 0 x1 i)))
       else None.

(** Elementwise operations of two arguments: binary_ops.rs:147-273,
    math_ops.rs:86-175, activation_ops.rs:207-220, array_ops.rs:560-572. *)
Definition bin_arr (b : bop) (x y : arr R) : option (arr R) :=
  match b with
  | Add => add_forward 0 Rplus empty_elem x y
  | Sub => sub_forward 0 Rminus empty_elem x y
  | Mul => mul_forward 0 Rmult empty_elem x y
  | Div => div_forward 0 1 Rmult Rdiv empty_elem x y
  | ELUGrad _ => zip_bc 0 0 (bin b) x y
  | ClipGrad _ _ => zip_mut 0 0 (bin b) x y
  | _ => cmp_forward (bin b) x y
  end.

(** Reading all inputs, e.g. array_ops.rs:503-528. *)
Definition arrays (vs : list tv) : option (list (arr R)) :=
  fold_right (fun v acc => match v, acc with TA a, Some l => Some (a :: l) | _, _ => None end) (Some []) vs.

(** [as_shape] (ndarray_ext.rs:29-31) of a vector of dimensions. *)
Definition dims (l : list Z) : option (list nat) :=
  if forallb (fun z => (0 <=? z)%Z) l then Some (map Z.to_nat l) else None.
(** ndarray_ext.rs:125-146 [shape_of_view], [shape_of]. *)
Definition shape_vec (sh : list nat) : list Z := map Z.of_nat sh.

(** A result or a panic of the operations cited at [top] (src/op.rs:96-97). *)
Definition otA (o : option (arr R)) : option tv := option_map TA o.
(** An integer vector as an array. Indices of array_ops.rs:353-384. *)
Definition vecZ (l : list Z) : arr Z := Arr [length l] l.
(** Labels of xent_ops.rs:64-113. *)
Definition vecR (l : list Z) : arr R := Arr [length l] (map IZR l).

(** What a kernel returns. conv2d.rs:532-554, conv2d_transpose.rs:250-272,
    max_pool2d.rs:167-227. *)
Definition kA (r : Conv_Model.kres (arr R)) : option tv := otA (Conv_Model.kok r).
(** The comparison of max_pool2d.rs:66. *)
Definition rgtb (a b : R) : bool := if Rlt_dec b a then true else false.
(** Unwritten memory holds zeros here; by C37, C51 and C40 the results used below do not
    depend on it. conv2d.rs:143-148, max_pool2d.rs:34-37. *)
Definition blank : nat -> R := fun _ => 0.

(** [Op::compute]; [None]: a panic, an error, or an input combination outside the model.
    The operations are cited at [top] (src/op.rs:97 for the interface). *)
Definition tcompute (o : top) (vs : list tv) : option tv :=
  match o, vs with
  | TScalar r, [] => Some (TA (Arr [] [r]))
  | TConst a, [] => Some (TA a)
  | TConstI l, [] => Some (TI l)
  | TShape, [TA a] => Some (TI (shape_vec (a_shape a)))
  | TSize, [TA a] => Some (TA (Arr [] [INR (prod (a_shape a))]))
  | TInferShape, [TI a; TI b] =>
      match dims a, dims b with
      | Some a, Some b => option_map (fun r => TI (shape_vec r)) (infer_shape a b)
      | _, _ => None
      end
  | TZeros, [TI l] => option_map (fun sh => TA (full sh 0)) (dims l)
  | TOnes, [TI l] => option_map (fun sh => TA (full sh 1)) (dims l)
  | TMaybeReduceSum, [TA g; TI l] =>
      match dims l with Some sh => otA (maybe_reduce 0 Rplus sh g) | None => None end
  | TMaybeBroadcast, [TA x; TI l] =>
      match dims l with Some sh => otA (maybe_broadcast 0 sh x) | None => None end
  | TSumAll, [TA x] => Some (TA (sum_all 0 Rplus x))
  | TSumAllGrad, [TA g; TI l] => option_map (fun sh => TA (full sh (hd 0 (a_data g)))) (dims l)
  | TAddN, vs => match arrays vs with Some l => otA (add_n 0 Rplus l) | None => None end
  | TStop, [TA x] => Some (TA x)
  | TUn u, [TA x] => Some (TA (amap (un u) x))
  | TBin b, [TA x; TA y] => otA (bin_arr b x y)
  | TMatMul ta tb, [TA x; TA y] => otA (ok (matmul 0 Rplus Rmult ta tb x y))
  | TReduceSum keep, [TA x; TI axes] => otA (reduce 0 Rplus 0 axes keep false x)
  | TReduceGrad md, [TA g; TI l; TI axes] =>
      match dims l with Some sh => otA (reduce_grad 0 md false axes sh g) | None => None end
  | TReshape, [TA x; TI l] => otA (reshape l x)
  | TTranspose inv, [TA x; TI perm] => otA (transpose 0 inv perm x)
  | TSoftmax minv axis, [TA x] => otA (softmax minv exp axis x)
  | TReduceMean keep, [TA x; TI axes] => otA (reduce_mean axes keep false x)
  | TReduceProd keep, [TA x; TI axes] => otA (reduce 0 Rmult 1 axes keep false x)
  | TReduceExt mx init keep, [TA x; TI axes] => otA (reduce 0 (if mx then Rmax else Rmin) init axes keep false x)
  | TGatherI, [TI idx; TI l] => option_map (fun a => TI (a_data a)) (gather 0%Z true 0 (vecZ idx) (vecZ l))
  | TProdI, [TI l; TI axes] => option_map (fun a => TA (amap IZR a)) (reduce 0%Z Z.mul 1%Z axes false false (vecZ l))
  | TIndex i, [TA x] => otA (access_elem 0 i x)
  | TIndexGrad i, [TA x; TA g] =>
      match empty_elem g with Some e => otA (access_elem_grad 0 i x e) | None => None end
  | TExpandDims, [TA x; TI axes] => otA (expand axes x)
  | TSqueeze, [TA x; TI axes] => otA (squeeze 0 axes x)
  | TLogSoftmax minv axis, [TA x] => otA (log_softmax minv exp axis x)
  | TLogSumExp minv axis keep, [TA x] => otA (logsumexp minv exp axis keep x)
  | TSigmoidXent, [TA x; TA t] => otA (sigmoid_xent exp x t)
  | TSparseXent minv, [TA x; TI t] => otA (option_map fst (sparse_xent minv exp x (vecR t)))
  | TXentLog minv, [TA x; TI t] => otA (option_map snd (sparse_xent minv exp x (vecR t)))
  | TSparseXentGrad, [TA log_x; TI t; TA gy] => otA (sparse_xent_grad_x exp log_x (vecR t) gy)
  | TSlice sl, [TA x] => otA (slice_forward 0 sl x)
  | TSliceGrad sl, [TA x; TA gy] => otA (slice_grad 0 sl x gy)
  | TSplit axis lo hi, [TA x] => otA (split_forward 0 axis lo hi x)
  | TSplitGrad axis lo hi, [TA x; TA gy] => otA (split_grad 0 axis lo hi x gy)
  | TTile axis num, [TA x] => otA (tile 0 axis num x)
  | TConcat axis, vs => match arrays vs with Some l => otA (concat 0 axis l) | None => None end
  | TConcatGrad axis k, TA gy :: vs => match arrays vs with Some l => otA (concat_grad 0 axis k l gy) | None => None end
  | TGather norm axis, [TI idx; TA x] => otA (gather 0 norm axis (vecZ idx) x)
  | TGatherGrad axis, [TI idx; TA x; TA gy] => otA (gather_grad 0 Rplus axis (vecZ idx) x gy)
  | TConv _ p s d, [TA x; TA w] => otA (option_map fst (Conv_Model.kok (Conv_Model.conv2d 0 Rplus Rmult blank p s d x w)))
  | TConvCols p s d, [TA x; TA w] => otA (option_map snd (Conv_Model.kok (Conv_Model.conv2d 0 Rplus Rmult blank p s d x w)))
  | TConvGradW, [TA cols; TA gy; TA w] => kA (Conv_Model.conv2d_filter_grad 0 Rplus Rmult blank cols gy w)
  | TConvT checked p s d, [TA y; TA w] => kA (Conv_Model.conv2d_transpose 0 Rplus Rmult blank checked p s d y w)
  | TConvTGradW p s d, [TA gy; TA x; TA w] => kA (Conv_Model.conv2d_transpose_filter_grad 0 Rplus Rmult blank p s d gy x w)
  | TPool lowest bits checked p s size, [TA x] =>
      otA (option_map fst (Conv_Model.kok (Pool_Model.max_pool2d lowest rgtb bits blank checked p s size x)))
  | TPoolGrad lowest bits checked p s size, [TA x; TA gy] =>
      kA (Pool_Model.max_pool2d_grad_x 0 lowest Rplus rgtb bits blank checked p s size x gy)
  | _, _ => None
  end.

(** The same as an operation of the evaluator model; no operation writes in place.
    src/op.rs:97: the result of [Op::compute]. *)
Definition tens_compute (o : top) (xs : list (opin tv)) : cout tv unit :=
  match tcompute o (map opin_val xs) with
  | Some v => CRet [] [v] None
  | None => CPanic
  end.
(** ndarray [shape()], used for the feeds at src/tensor.rs:374-386. *)
Definition tv_shape (v : tv) : list nat :=
  match v with TA a => a_shape a | TI l => [length l] end.

(** ** Building tensors *)

(** src/graph.rs:17-20. *)
Definition tgraph := graph top.
(** Functions that add nodes to the graph of src/graph.rs:27-47 (state and failure). *)
Definition tbld (A : Type) := tgraph -> option (A * tgraph).
(** See [tbld]; src/graph.rs:27-47. *)
Definition tret {A} (a : A) : tbld A := fun s => Some (a, s).
(** See [tbld]; src/graph.rs:27-47. *)
Definition tbind {A B} (m : tbld A) (f : A -> tbld B) : tbld B :=
  fun s => match m s with None => None | Some (a, s') => f a s' end.

(** [Tensor::builder(g).append_input(..)...build(op)]. src/tensor.rs:141-153, 717-802.
    *)
Definition tmk (ins : list nat) (sh : option nat) (diff : bool) (o : top) : tbld nat := fun s =>
  match build s (Builder sh (map (fun i => Incoming i false 0) ins) diff None None None None) o with
  | None => None
  | Some (s', id) => Some (id, s')
  end.

(** src/tensor_ops/mod.rs:266-279 [shape]. *)
Definition a_shape_of (x : nat) : tbld nat := fun s =>
  match nth_error s x with
  | None => None
  | Some n => match n_shape n with
              | Some id => Some (id, s)
              | None => tmk [x] None false TShape s
              end
  end.

(** src/tensor_ops/mod.rs:2387-2423 [convert_to_tensor], [scalar]; tensor.rs:925-940
    [as_tensor] of an array of integers. *)
Definition a_ints (l : list Z) : tbld nat :=
  tbind (tmk [] None true (TConstI [Z.of_nat (length l)])) (fun ss => tmk [] (Some ss) true (TConstI l)).
(** src/tensor_ops/mod.rs:2415-2423 [scalar]. *)
Definition a_scalar (r : R) : tbld nat :=
  tbind (a_ints []) (fun sh => tmk [] (Some sh) true (TScalar r)).

(** Unary elementwise operations (see [t_un] in Scalar_Model).
    src/tensor_ops/mod.rs:333-760, 1373-1580, 1650-1710. *)
Definition a_un (u : uop) (x : nat) : tbld nat :=
  if un_sets_shape u
  then tbind (a_shape_of x) (fun sh => tmk [x] (Some sh) true (TUn u))
  else tmk [x] None true (TUn u).

(** Binary elementwise operations (see [t_bin] in Scalar_Model).
    src/tensor_ops/mod.rs:569-651, 772-960, 1585-1648. *)
Definition a_bin (b : bop) (x y : nat) : tbld nat :=
  match b with
  | Add | Sub | Mul | Div =>
      tbind (a_shape_of x) (fun sx => tbind (a_shape_of y) (fun sy =>
      tbind (tmk [sx; sy] None true TInferShape) (fun sh =>
      tmk [x; y] (Some sh) true (TBin b))))
  | ELUGrad _ | ClipGrad _ _ => tbind (a_shape_of y) (fun sh => tmk [x; y] (Some sh) true (TBin b))
  | _ => tmk [x; y] None true (TBin b)
  end.

(** src/tensor_ops/mod.rs:831-847 [add_n] for two or more tensors. *)
Definition a_add_n (xs : list nat) : tbld nat :=
  match xs with
  | [] => fun _ => None
  | x :: _ => tbind (a_shape_of x) (fun sh => tmk xs (Some sh) true TAddN)
  end.
(** src/tensor_ops/mod.rs:1149-1158 [sum_all]. *)
Definition a_sum_all (x : nat) : tbld nat := tmk [x] None true TSumAll.
(** src/tensor_ops/mod.rs:1344-1355 [flatten]: the attached shape tensor is the
    operand's. *)
Definition a_flatten (x : nat) : tbld nat :=
  tbind (a_ints []) (fun s0 => tbind (tmk [] (Some s0) true (TConstI [(-1)%Z])) (fun m1 =>
  tbind (a_shape_of x) (fun sh => tmk [x; m1] (Some sh) true TReshape))).
(** src/tensor_ops/mod.rs:979-990 [expand_dims]. *)
Definition a_expand_dims (x : nat) (axes : list Z) : tbld nat :=
  tbind (a_ints axes) (fun ax => tmk [x; ax] None true TExpandDims).
(** src/tensor_ops/mod.rs:47-52 [access_elem]. *)
Definition a_access (x : nat) (i : Z) : tbld nat := tmk [x] None true (TIndex i).
(** src/tensor_ops/mod.rs:2215-2227 [concat]. *)
Definition a_concat (xs : list nat) (axis : Z) : tbld nat :=
  match xs with [] => fun _ => None | _ => tmk xs None true (TConcat axis) end.
(** src/tensor_ops/mod.rs:111,150 and 2690-2697: [zeros(&x.shape())]. *)
Definition a_zeros_like (x : nat) : tbld nat :=
  tbind (a_shape_of x) (fun sh => tmk [sh] None true TZeros).

(** ** Gradient rules *)

(** Which shape tensor a rule attaches to a tensor it creates: none, the shape of an
    input of the operation, or its own last argument. [set_shape]
    (src/tensor.rs:702-705) in the rules cited at [top]. *)
Inductive smode := SNone | SOfIn (i : nat) | SLast.

(** The tensor expressions occurring in [Op::grad] implementations (and in the composite
    operations of Comp_Model): the output gradient, inputs and output of the operation,
    shapes of inputs, constants, operations, and a shared subexpression ([EVar 0] refers
    to the innermost). The [grad] functions of the operations cited at [top] (src/op.rs:100 for the interface). *)
Inductive expr :=
| EGy | EIn (i : nat) | EOut | EVar (k : nat)
| EShape (i : nat)                      (* shape(input i) *)
| EScalar (r : R)
| EInts (l : list Z)
| EUn (u : uop) (e : expr)
| EBin (b : bop) (e1 e2 : expr)
| EOp1 (o : top) (m : smode) (e : expr)
| EOp2 (o : top) (m : smode) (e1 e2 : expr)
| EOp3 (o : top) (m : smode) (e1 e2 e3 : expr)
| ELet (e body : expr).

(** The rules of the elementwise operations are those of Scalar_Model. *)
Fixpoint embed (e : rexp) : expr :=
  match e with
  | RGy => EGy
  | RIn i => EIn i
  | ROut => EOut
  | RVar k => EVar k
  | RScalar r => EScalar r
  | RUn u e => EUn u (embed e)
  | RBin b e1 e2 => EBin b (embed e1) (embed e2)
  | RReduce i e => EOp2 TMaybeReduceSum SLast (embed e) (EShape i)   (* binary_ops.rs:283-293 *)
  | RBcast i e => EOp2 TMaybeBroadcast SNone (embed e) (EShape i)    (* binary_ops.rs:96-104 *)
  | RSumAll e => EOp1 TSumAll SNone (embed e)                        (* reduction_ops.rs:152-158 *)
  | RSumAllGrad i e => EOp2 TSumAllGrad SNone (embed e) (EShape i)   (* reduction_ops.rs:130-136 *)
  | RLet a b => ELet (embed a) (embed b)
  end.

(** The gradients appended by [Op::grad]; outer [None]: it panics (variables
    and placeholders, basic_source_ops.rs).  The order in which the tensors of
    one rule are created is simplified: one input gradient after the other.

    Gradients for integer vectors are not modelled ([None] for [TGatherI] and
    [TProdI], which are only built on shape tensors, and for the labels of
    [TSparseXent], xent_ops.rs:129-133); shape tensors are not differentiable
    (mod.rs:277), so gradient computations do not reach those rules. *)
Definition trule (o : top) (num_inputs : nat) : option (list (option expr)) :=
  match o with
  | TLeaf => None
  | TScalar _ => Some [None]
  | TConst _ | TConstI _ => Some []
  | TShape => Some [None]
  | TSize => Some [None]
  | TInferShape => Some [None; None]
  | TZeros | TOnes => Some [None]
  | TMaybeReduceSum => Some [Some (embed (RBcast 0 RGy)); None]
  | TMaybeBroadcast => Some [Some (embed (RReduce 0 RGy)); None]
  | TSumAll => Some [Some (embed (RSumAllGrad 0 RGy))]
  | TSumAllGrad => Some [Some (embed (RSumAll RGy)); None]
  | TAddN => Some (repeat (Some EGy) num_inputs)
  | TStop => Some [None]
  | TUn u => Some [option_map embed (un_rule u)]
  | TBin b => Some (map (option_map embed) (bin_rule b))
  | TMatMul _ _ =>                                        (* dot_ops.rs:608-628 *)
      Some [Some (EOp2 (TMatMul false true) SNone EGy (EIn 1));
            Some (EOp2 (TMatMul true false) SNone (EIn 0) EGy)]
  | TReduceSum keep =>                                    (* reduction_ops.rs:171-184 *)
      Some [Some (EOp3 (TReduceGrad (negb keep)) SNone EGy (EShape 0) (EIn 1)); None]
  | TReduceGrad md =>                                     (* reduction_ops.rs:501-512 *)
      Some [Some (EOp2 (TReduceSum md) SNone EGy (EIn 2)); None; None]
  | TReshape =>                                           (* array_ops.rs:229-239 *)
      Some [Some (EOp2 TReshape SNone EGy (EShape 0)); None]
  | TTranspose inv =>                                     (* math_ops.rs:455-465 *)
      Some [Some (EOp2 (TTranspose (negb inv)) (SOfIn 0) EGy (EIn 1)); None]
  | TSoftmax _ axis =>                                    (* activation_ops.rs:103-109 *)
      Some [Some (ELet (EOp2 (TReduceSum true) SNone (EBin Mul EOut EGy) (EInts [axis]))
                       (EBin Mul (EBin Sub EGy (EVar 0)) EOut))]
  | TReduceMean keep =>                                   (* reduction_ops.rs:218-238 *)
      Some [Some (EBin Div (EOp3 (TReduceGrad (negb keep)) SNone EGy (EShape 0) (EIn 1))
                           (EOp2 TProdI SNone (EOp2 TGatherI SNone (EIn 1) (EShape 0)) (EInts [0%Z]))); None]
  | TReduceProd keep =>                                   (* reduction_ops.rs:255-273 *)
      Some [Some (EBin Div (EOp3 (TReduceGrad (negb keep)) SNone (EBin Mul EGy EOut) (EShape 0) (EIn 1)) (EIn 0)); None]
  | TReduceExt _ _ keep =>                                (* reduction_ops.rs:330-363 min_max_grad *)
      Some [Some (ELet (EOp3 (TReduceGrad (negb keep)) SNone EOut (EShape 0) (EIn 1))
                 (ELet (EOp3 (TReduceGrad (negb keep)) SNone EGy (EShape 0) (EIn 1))
                       (EBin Mul (EBin Equal (EIn 0) (EVar 1)) (EVar 0)))); None]
  | TGatherI | TProdI => Some [None; None]
  | TIndex i =>                                           (* array_ops.rs:305-314 *)
      Some [Some (EOp2 (TIndexGrad i) (SOfIn 0) (EIn 0) EGy)]
  | TIndexGrad _ => Some [None]                           (* array_ops.rs:348-350: one entry for two inputs *)
  | TExpandDims => Some [Some (EOp2 TSqueeze SNone EGy (EIn 1)); None]   (* array_ops.rs:878-881 *)
  | TSqueeze => Some [Some (EOp2 TExpandDims SNone EGy (EIn 1)); None]   (* array_ops.rs:855-858 *)
  | TLogSoftmax _ _ =>                                    (* xent_ops.rs:24-30: always axis 1 *)
      Some [Some (EBin Sub EGy (EBin Mul (EUn Exp EOut) (EOp2 (TReduceSum true) SNone EGy (EInts [1%Z]))))]
  | TLogSumExp minv axis _ =>                             (* math_ops.rs:602-608 *)
      Some [Some (EBin Mul (EOp1 (TSoftmax minv axis) SNone (EIn 0)) EGy)]
  | TSigmoidXent =>                                       (* xent_ops.rs:48-61 *)
      Some [Some (ELet (EUn Exp (EIn 0))
                       (EBin Mul (EBin Sub (EBin Div (EVar 0) (EBin Add (EScalar 1) (EVar 0))) (EIn 1)) EGy));
            Some (EUn Neg (EBin Mul EGy (EIn 1)))]
  | TSparseXent minv =>                                   (* xent_ops.rs:115-138 *)
      Some [Some (EOp3 TSparseXentGrad SNone (EOp2 (TXentLog minv) SNone (EIn 0) (EIn 1)) (EIn 1) EGy); None]
  | TXentLog _ => Some [None; None]                       (* simplification, see above; excluded by [op_fit] *)
  | TSparseXentGrad => Some [None; None]                  (* xent_ops.rs:154-157: two entries for three inputs *)
  | TSlice sl => Some [Some (EOp2 (TSliceGrad sl) (SOfIn 0) (EIn 0) EGy)]   (* array_ops.rs:788-800 *)
  | TSliceGrad _ => Some [None; None]                     (* array_ops.rs:825-828 *)
  | TSplit axis lo hi =>                                  (* array_ops.rs:709-723 *)
      Some [Some (EOp2 (TSplitGrad axis lo hi) (SOfIn 0) (EIn 0) EGy)]
  | TSplitGrad _ _ _ => Some [None]                       (* array_ops.rs:745-747: one entry for two inputs *)
  | TTile axis _ =>                                       (* array_ops.rs:693-695 *)
      Some [Some (EOp2 (TReduceSum true) SNone EGy (EInts [axis]))]
  | TConcat axis =>                                       (* array_ops.rs:598-619; all gradients carry the first operand's shape.
                                                             Three or more operands are not modelled. *)
      match num_inputs with
      | 1%nat => Some [Some (EOp2 (TConcatGrad axis 0) (SOfIn 0) EGy (EIn 0))]
      | 2%nat => Some [Some (EOp3 (TConcatGrad axis 0) (SOfIn 0) EGy (EIn 0) (EIn 1));
                       Some (EOp3 (TConcatGrad axis 1) (SOfIn 0) EGy (EIn 0) (EIn 1))]
      | _ => None
      end
  | TConcatGrad _ _ => Some (repeat None num_inputs)      (* array_ops.rs:671-676 *)
  | TGather _ axis =>                                     (* array_ops.rs:386-398: the gradient carries the shape of input 0, the indices *)
      Some [None; Some (EOp3 (TGatherGrad axis) (SOfIn 0) (EIn 0) (EIn 1) EGy)]
  | TGatherGrad _ => Some [None; None; None]              (* array_ops.rs:468-472 *)
  | TConv checked p s d =>                                (* conv_ops/conv2d.rs:556-586 *)
      Some [Some (EOp2 (TConvT checked p s d) SNone EGy (EIn 1));
            Some (EOp3 TConvGradW SNone (EOp2 (TConvCols p s d) SNone (EIn 0) (EIn 1)) EGy (EIn 1))]
  | TConvCols _ _ _ => Some [None; None]                  (* simplification, see above; excluded by [op_fit] *)
  | TConvGradW => Some [None; None; None]                 (* conv_ops/conv2d.rs:746-775; simplification: second
                                                             derivatives are not modelled here; excluded by [op_fit] *)
  | TConvT checked p s d =>                               (* conv_ops/conv2d_transpose.rs:274-300 *)
      Some [Some (EOp2 (TConv checked p s d) SNone EGy (EIn 1));
            Some (EOp3 (TConvTGradW p s d) SNone EGy (EIn 0) (EOp1 TStop SNone (EIn 1)))]
  | TConvTGradW _ _ _ => Some [None; None; None]          (* conv_ops/conv2d_transpose.rs:453-479; as TConvGradW *)
  | TPool lowest bits checked p s size =>                 (* conv_ops/max_pool2d.rs:229-242 *)
      Some [Some (EOp2 (TPoolGrad lowest bits checked p s size) SNone (EIn 0) EGy)]
  | TPoolGrad _ _ _ _ _ _ => Some [None; None]            (* conv_ops/max_pool2d.rs:281-294; as TConvGradW *)
  end.

(** Building the tensors of a rule for output tensor [out] with inputs [ins].
    [set_shape], src/tensor.rs:702-705. *)
Definition stored (ins : list nat) (m : smode) (last : nat) : tbld (option nat) :=
  match m with
  | SNone => tret None
  | SOfIn i => match nth_error ins i with
               | Some x => tbind (a_shape_of x) (fun sh => tret (Some sh))
               | None => fun _ => None
               end
  | SLast => tret (Some last)
  end.
(** src/tensor_ops/mod.rs:295-305 [size] calls [set_differentiable(false)]. *)
Definition op_diff (o : top) : bool := match o with TSize => false | _ => true end.
(** The bodies of [Op::grad], e.g. dot_ops.rs:608-628. *)
Fixpoint build_expr (ins : list nat) (out gy : nat) (env : list nat) (e : expr) : tbld nat :=
  match e with
  | EGy => tret gy
  | EIn i => match nth_error ins i with Some x => tret x | None => fun _ => None end
  | EOut => tret out
  | EVar k => match nth_error env k with Some x => tret x | None => fun _ => None end
  | EShape i => match nth_error ins i with Some x => a_shape_of x | None => fun _ => None end
  | EScalar r => a_scalar r
  | EInts l => a_ints l
  | EUn u e => tbind (build_expr ins out gy env e) (a_un u)
  | EBin b e1 e2 => tbind (build_expr ins out gy env e1) (fun x =>
                    tbind (build_expr ins out gy env e2) (a_bin b x))
  | EOp1 o m e => tbind (build_expr ins out gy env e) (fun x =>
                  tbind (stored ins m x) (fun sh => tmk [x] sh (op_diff o) o))
  | EOp2 o m e1 e2 => tbind (build_expr ins out gy env e1) (fun x =>
                      tbind (build_expr ins out gy env e2) (fun y =>
                      tbind (stored ins m y) (fun sh => tmk [x; y] sh true o)))
  | EOp3 o m e1 e2 e3 => tbind (build_expr ins out gy env e1) (fun x =>
                         tbind (build_expr ins out gy env e2) (fun y =>
                         tbind (build_expr ins out gy env e3) (fun z =>
                         tbind (stored ins m z) (fun sh => tmk [x; y; z] sh true o))))
  | ELet e body => tbind (build_expr ins out gy env e) (fun x => build_expr ins out gy (x :: env) body)
  end.

(** src/op.rs:430-434 [append_input_grad], once per input. *)
Fixpoint build_exprs (ins : list nat) (out gy : nat) (rs : list (option expr)) : tbld (list (option nat)) :=
  match rs with
  | [] => tret []
  | None :: rs => tbind (build_exprs ins out gy rs) (fun l => tret (None :: l))
  | Some e :: rs => tbind (build_expr ins out gy [] e) (fun t =>
                    tbind (build_exprs ins out gy rs) (fun l => tret (Some t :: l)))
  end.

(** src/op.rs:365-380 [compute_input_grads]. *)
Definition t_opgrad (g : tgraph) (y gy : nat) : tbld (list (option nat)) :=
  match nth_error g y with
  | None => fun _ => None
  | Some n =>
      match trule (n_op n) (length (n_inputs n)) with
      | None => fun _ => None
      | Some rs => build_exprs (map in_id (n_inputs n)) y gy rs
      end
  end.

(** src/tensor_ops/mod.rs:94-114 [grad] and 131-153 [grad_with_default] on such graphs. *)
Fixpoint t_sum_alls (ys : list nat) : tbld (list nat) :=
  match ys with
  | [] => tret []
  | y :: ys => tbind (a_sum_all y) (fun t => tbind (t_sum_alls ys) (fun l => tret (t :: l)))
  end.
(** src/tensor_ops/mod.rs:131-153. *)
Definition t_grad_with_default (pop : tgraph -> list nat -> option (nat * list nat)) (debug : bool) (fuel : nat)
  (ys xs : list nat) (gys : option (list nat)) (g : tgraph) : Eval_Model.res (list (nat * bool) * tgraph * list nat) :=
  grad_with_default g (t_opgrad g) a_add_n (a_scalar 1) a_zeros_like (pop g) debug fuel ys xs gys g.
(** src/tensor_ops/mod.rs:94-114. *)
Definition t_grad (pop : tgraph -> list nat -> option (nat * list nat)) (debug : bool) (fuel : nat)
  (ys xs : list nat) (g : tgraph) : Eval_Model.res (list (nat * bool) * tgraph * list nat) :=
  match t_sum_alls ys g with
  | None => Eval_Model.Panic
  | Some (ys', g') => t_grad_with_default pop debug fuel ys' xs None g'
  end.
