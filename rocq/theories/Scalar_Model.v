(** Graphs of rank-0 tensors over the reals: the elementwise operations of
    src/tensor_ops/{math_ops,binary_ops,activation_ops,array_ops,
    const_gen_ops,reduction_ops}.rs, restricted to inputs of shape [].

    Arrays that occur in such graphs: numbers, the (empty) shape vector of a
    number, and the one-element shape vector of that shape vector.  Numbers are
    real numbers; an operation outside its mathematical domain (where the code
    yields NaN or an infinity) gets an arbitrary value, and the theorems restrict
    themselves to points inside the domains. *)
From Coq Require Import String List Arith ZArith Bool Reals Lra.
Import ListNotations.
From Verif Require Import Graph_Model Eval_Model Grad_Model.
Local Open Scope R_scope.

(** Rank-0 arrays and their shapes (src/ndarray_ext.rs:10-31). *)
Inductive sval := Num (r : R) | Shp | ShpShp.

(** Elementwise functions of one argument. math_ops.rs:277-424, 611-1020;
    activation_ops.rs:113-204; array_ops.rs:537-573 [Clip], [ClipGrad]. *)
Inductive uop :=
| Sin | Cos | Tan | Asin | Acos | Atan | Sinh | Cosh | Tanh | Asinh | Acosh | Atanh
| Exp | Exp2 | Exp10 | Ln | Log2 | Log10 | Sqrt | InvSqrt | Inv | Square | Neg | Abs
| Sign | Floor | Ceil | Pow (a : R) | Sigmoid | Softplus | ReLU | ELU (alpha : R)
| Clip (mn mx : R) | Identity.

(** Elementwise functions of two arguments. binary_ops.rs:148-289; math_ops.rs:177-184;
    activation_ops.rs:207-226; array_ops.rs:560-573. *)
Inductive bop :=
| Add | Sub | Mul | Div
| Maximum | Minimum | Equal | NotEqual | Greater | Lesser | GreaterEqual | LesserEqual
| ELUGrad (alpha : R) | ClipGrad (mn mx : R).

Inductive sop :=
| OLeaf                    (* variables and placeholders: no computation *)
| OScalar (r : R)          (* const_gen_ops.rs:16-25 Scalar *)
| OConvert (v : sval)      (* const_gen_ops.rs ConvertToTensor *)
| OShape                   (* array_ops.rs:144-155 Shape *)
| OInferShape              (* array_ops.rs:107-142 InferBinOpShape *)
| OZeros                   (* const_gen_ops.rs:27-53 Zeros *)
| OMaybeReduceSum          (* binary_ops.rs:39-105 *)
| OMaybeBroadcast          (* binary_ops.rs:107-146 *)
| OSumAll                  (* reduction_ops.rs:123-137 ReduceSumToScalar *)
| OSumAllGrad              (* reduction_ops.rs:139-159 ReduceSumToScalarGrad *)
| OAddN                    (* array_ops.rs:503-535 AddN *)
| OStop                    (* gradient_ops.rs:4-16 StopGradient *)
| OUn (u : uop)
| OBin (b : bop).

(** ** Forward computations *)

(** Helper of [powf], math_ops.rs:619. *)
Definition is_int (a : R) : bool := if Req_EM_T (IZR (Int_part a)) a then true else false.

(** [Float::powf]: for a positive base exp(a ln x); for a negative base and an integral
    exponent the power of |x| with the sign of the parity; 0^0 = 1 and 0^a = 0 for a >
    0. Called at math_ops.rs:619, 763. *)
Definition powf (x a : R) : R :=
  if Rlt_dec 0 x then Rpower x a
  else if Req_EM_T x 0 then (if Req_EM_T a 0 then 1 else 0)
  else if is_int a
       then (if Z.even (Int_part a) then Rpower (- x) a else - Rpower (- x) a)
       else 0.

(** The closures passed to [map]/[mapv]. *)
Definition un (u : uop) (x : R) : R :=
  match u with
  | Sin => sin x                                    (* math_ops.rs:964-975 *)
  | Cos => cos x                                    (* math_ops.rs:983-994 *)
  | Tan => tan x                                    (* math_ops.rs:1002-1013 *)
  | Asin => asin x                                  (* math_ops.rs:943-954 *)
  | Acos => acos x                                  (* math_ops.rs:922-933 *)
  | Atan => atan x                                  (* math_ops.rs:900-911 *)
  | Sinh => sinh x                                  (* math_ops.rs:881-892 *)
  | Cosh => cosh x                                  (* math_ops.rs:862-873 *)
  | Tanh => tanh x                                  (* math_ops.rs:841-852 *)
  | Asinh => arcsinh x                              (* math_ops.rs:819-830 *)
  | Acosh => ln (x + sqrt (x * x - 1))              (* math_ops.rs:797-808 *)
  | Atanh => ln ((1 + x) / (1 - x)) / 2             (* math_ops.rs:776-787 *)
  | Exp => exp x                                    (* math_ops.rs:714-725 *)
  | Exp2 => Rpower 2 x                              (* math_ops.rs:733-744 *)
  | Exp10 => powf 10 x                              (* math_ops.rs:755-767 *)
  | Ln => ln x                                      (* math_ops.rs:695-706 *)
  | Log2 => ln x / ln 2                             (* math_ops.rs:675-686 *)
  | Log10 => ln x / ln 10                           (* math_ops.rs:655-666 *)
  | Sqrt => sqrt x                                  (* math_ops.rs:633-644 *)
  | InvSqrt => / sqrt x                             (* math_ops.rs:349-360 *)
  | Inv => / x                                      (* math_ops.rs:330-341 *)
  | Square => x * x                                 (* math_ops.rs:309-321 *)
  | Neg => - x                                      (* math_ops.rs:297-301 [NegOp] *)
  | Abs => Rabs x                                   (* math_ops.rs:278-289 *)
  | Sign => if Req_EM_T x 0 then 0 else if Rlt_dec 0 x then 1 else -1 (* math_ops.rs:371-381 *)
  | Floor => IZR (Int_part x)                       (* math_ops.rs:389-400 *)
  | Ceil => - IZR (Int_part (- x))                  (* math_ops.rs:408-419 *)
  | Pow a => powf x a                               (* math_ops.rs:612-623 *)
  | Sigmoid => tanh (x * (1 / 2)) * (1 / 2) + 1 / 2 (* activation_ops.rs:130-145 *)
  | Softplus => ln (exp x + 1)                      (* activation_ops.rs:114-118 *)
  | ReLU => Rmax x 0                                (* activation_ops.rs:155-159 *)
  | ELU alpha => if Rlt_dec 0 x then x else alpha * (exp x - 1)  (* activation_ops.rs:184-194 *)
  | Clip mn mx => Rmax (Rmin x mx) mn               (* array_ops.rs:538-542 *)
  | Identity => x                                   (* activation_ops.rs:170-175 *)
  end.

(** [T::from((..) as i32)], math_ops.rs:52-75. *)
Definition b2r (b : bool) : R := if b then 1 else 0.
(** Comparisons, math_ops.rs:61-79. *)
Definition rltb (x y : R) : bool := if Rlt_dec x y then true else false.
(** Comparisons, math_ops.rs:52-59. *)
Definition reqb (x y : R) : bool := if Req_EM_T x y then true else false.

(** The closures of binary_ops.rs:147-273 and of math_ops.rs:53-84. *)
Definition bin (b : bop) (x y : R) : R :=
  match b with
  | Add => x + y
  | Sub => x - y
  | Mul => x * y
  | Div => x / y
  | Maximum => Rmax x y                      (* math_ops.rs:53-83 *)
  | Minimum => Rmin x y
  | Equal => b2r (reqb x y)
  | NotEqual => b2r (negb (reqb x y))
  | Greater => b2r (rltb y x)
  | Lesser => b2r (rltb x y)
  | GreaterEqual => b2r (negb (rltb x y))
  | LesserEqual => b2r (negb (rltb y x))
  | ELUGrad alpha => (if Rlt_dec 0 x then 1 else alpha * (exp x - 1) + alpha) * y  (* activation_ops.rs:207-226 *)
  | ClipGrad mn mx => (b2r (rltb mn x) * b2r (rltb x mx)) * y   (* array_ops.rs:560-577 *)
  end.

(** Reading a number, e.g. binary_ops.rs:176. *)
Definition num (v : sval) : R := match v with Num r => r | _ => 0 end.

(** array_ops.rs:503-528 [AddN::compute]: ((x0 + x1) + x2) + ... *)
Definition nums (vs : list sval) : option (list R) :=
  fold_right (fun v acc => match v, acc with Num r, Some l => Some (r :: l) | _, _ => None end) (Some []) vs.
(** array_ops.rs:503-528. *)
Definition addn_forward (l : list R) : option R :=
  match l with
  | [] => None
  | x :: rest => Some (fold_left Rplus rest x)
  end.

(** [Op::compute] on rank-0 inputs; [None]: an input combination that does not occur in
    such graphs. The operations are cited at [un], [bin] and [addn_forward]; constants:
    const_gen_ops.rs:17-20, 28-48, 56-76, 84-87. *)
Definition scompute (o : sop) (vs : list sval) : option sval :=
  match o, vs with
  | OScalar r, [] => Some (Num r)
  | OConvert v, [] => Some v
  | OShape, [Num _] => Some Shp
  | OInferShape, [Shp; Shp] => Some Shp
  | OZeros, [Shp] => Some (Num 0)
  | OMaybeReduceSum, [Num x; Shp] => Some (Num x)
  | OMaybeBroadcast, [Num x; Shp] => Some (Num x)
  | OSumAll, [Num x] => Some (Num x)
  | OSumAllGrad, [Num x; Shp] => Some (Num x)
  | OAddN, vs => match nums vs with
                 | Some l => option_map Num (addn_forward l)
                 | None => None
                 end
  | OStop, [Num x] => Some (Num x)
  | OUn u, [Num x] => Some (Num (un u x))
  | OBin b, [Num x; Num y] => Some (Num (bin b x y))
  | _, _ => None
  end.

(** The same as an operation of the evaluator model; no operation fails or writes in
    place. src/op.rs:206-233 [input]: the array of an input. *)
Definition opin_val {V} (x : opin V) : V := match x with NonVar v => v | RdOnly v => v | RdWr v => v end.
(** src/op.rs:97: the result of [Op::compute]. *)
Definition scalar_compute (o : sop) (xs : list (opin sval)) : cout sval unit :=
  match scompute o (map opin_val xs) with
  | Some v => CRet [] [v] None
  | None => CPanic
  end.
(** ndarray [shape()], used for the feeds at src/tensor.rs:374-386. *)
Definition sval_shape (v : sval) : list nat :=
  match v with Num _ => [] | Shp => [0%nat] | ShpShp => [1%nat] end.

(** ** Building tensors *)

(** src/graph.rs:17-20. *)
Definition sgraph := graph sop.
(** Functions that add nodes to the graph of src/graph.rs:27-47 (state and failure). *)
Definition bld (A : Type) := sgraph -> option (A * sgraph).
(** See [bld]; src/graph.rs:27-47. *)
Definition ret {A} (a : A) : bld A := fun s => Some (a, s).
(** See [bld]; src/graph.rs:27-47. *)
Definition bind {A B} (m : bld A) (f : A -> bld B) : bld B :=
  fun s => match m s with None => None | Some (a, s') => f a s' end.

(** [Tensor::builder(g).append_input(..)...build(op)]. src/tensor.rs:141-153, 717-802.
    *)
Definition mk (ins : list nat) (sh : option nat) (diff : bool) (o : sop) : bld nat := fun s =>
  match build s (Builder sh (map (fun i => Incoming i false 0) ins) diff None None None None) o with
  | None => None
  | Some (s', id) => Some (id, s')
  end.

(** src/tensor_ops/mod.rs:266-279 [shape]. *)
Definition t_shape (x : nat) : bld nat := fun s =>
  match nth_error s x with
  | None => None
  | Some n => match n_shape n with
              | Some id => Some (id, s)
              | None => mk [x] None false OShape s
              end
  end.

(** src/tensor_ops/mod.rs:2387-2423 [convert_to_tensor], [scalar]. *)
Definition t_scalar (r : R) : bld nat :=
  bind (mk [] None true (OConvert ShpShp)) (fun ss =>
  bind (mk [] (Some ss) true (OConvert Shp)) (fun sh =>
  mk [] (Some sh) true (OScalar r))).

(** src/tensor_ops/mod.rs: the constructors of unary elementwise operations set
    the shape of their argument, except [neg] (1457-1466) and [clip] (1062-1070). *)
Definition un_sets_shape (u : uop) : bool :=
  match u with Neg | Clip _ _ => false | _ => true end.
(** src/tensor_ops/mod.rs:333-760, 1373-1580, 1650-1710. *)
Definition t_un (u : uop) (x : nat) : bld nat :=
  if un_sets_shape u
  then bind (t_shape x) (fun sh => mk [x] (Some sh) true (OUn u))
  else mk [x] None true (OUn u).

(** src/tensor_ops/mod.rs:569-651: +, -, *, / infer their shape; comparisons set
    none (772-1050, 1585-1648); the two gradient operations use the shape of their
    second argument (activation_ops.rs:196-204, array_ops.rs:544-557). *)
Definition t_bin (b : bop) (x y : nat) : bld nat :=
  match b with
  | Add | Sub | Mul | Div =>
      bind (t_shape x) (fun sx => bind (t_shape y) (fun sy =>
      bind (mk [sx; sy] None true OInferShape) (fun sh =>
      mk [x; y] (Some sh) true (OBin b))))
  | ELUGrad _ | ClipGrad _ _ => bind (t_shape y) (fun sh => mk [x; y] (Some sh) true (OBin b))
  | _ => mk [x; y] None true (OBin b)
  end.

(** src/tensor_ops/binary_ops.rs:283-293 [maybe_reduce], applied to [shape(x)]. *)
Definition t_reduce (x e : nat) : bld nat :=
  bind (t_shape x) (fun sh => mk [e; sh] (Some sh) true OMaybeReduceSum).
(** src/tensor_ops/binary_ops.rs:96-104. *)
Definition t_bcast (x e : nat) : bld nat :=
  bind (t_shape x) (fun sh => mk [e; sh] None true OMaybeBroadcast).
(** src/tensor_ops/mod.rs:1149-1158 [sum_all]; reduction_ops.rs:130-136. *)
Definition t_sum_all (x : nat) : bld nat := mk [x] None true OSumAll.
(** reduction_ops.rs:130-136 ReduceSumToScalar::grad. *)
Definition t_sum_all_grad (x e : nat) : bld nat :=
  bind (t_shape x) (fun sh => mk [e; sh] None true OSumAllGrad).
(** src/tensor_ops/mod.rs:831-847 [add_n] for two or more tensors. *)
Definition t_add_n (xs : list nat) : bld nat :=
  match xs with
  | [] => fun _ => None
  | x :: _ => bind (t_shape x) (fun sh => mk xs (Some sh) true OAddN)
  end.
(** src/tensor_ops/mod.rs:111,150 and 2690-2697: [zeros(&x.shape())]. *)
Definition t_zeros_like (x : nat) : bld nat :=
  bind (t_shape x) (fun sh => mk [sh] None true OZeros).
(** src/tensor_ops/mod.rs:242-252 [stop_gradient]. *)
Definition t_stop (x : nat) : bld nat := mk [x] None false OStop.

(** ** Gradient rules *)

(** The tensor expressions occurring in [Op::grad] implementations: the output gradient,
    inputs and output of the operation, constants, operations, and a shared
    subexpression ([RLet]; [RVar 0] refers to the innermost). math_ops.rs:186-1020,
    binary_ops.rs:96-290, activation_ops.rs:120-205. *)
Inductive rexp :=
| RGy | RIn (i : nat) | ROut | RVar (k : nat)
| RScalar (r : R)
| RUn (u : uop) (e : rexp)
| RBin (b : bop) (e1 e2 : rexp)
| RReduce (i : nat) (e : rexp)      (* maybe_reduce(shape(input i), e) *)
| RBcast (i : nat) (e : rexp)       (* MaybeBroadcast(e, shape(input i)) *)
| RSumAll (e : rexp)
| RSumAllGrad (i : nat) (e : rexp)  (* ReduceSumToScalarGrad(e, shape(input i)) *)
| RLet (e body : rexp).

Declare Scope rexp_scope.
Delimit Scope rexp_scope with rexp.
Notation "a * b" := (RBin Mul a b) : rexp_scope.
Notation "a / b" := (RBin Div a b) : rexp_scope.
Notation "a + b" := (RBin Add a b) : rexp_scope.
Notation "a - b" := (RBin Sub a b) : rexp_scope.
Notation "- a" := (RUn Neg a) : rexp_scope.
Local Notation x0 := (RIn 0).
Local Notation x1 := (RIn 1).

(** [Op::grad] of the unary operations; lines as given with [un], the [grad] functions
    follow the [compute] functions (math_ops.rs:291-1020, activation_ops.rs:120-205,
    array_ops.rs:544-557). *)
Definition un_rule (u : uop) : option rexp :=
  match u with
  | Sin => Some (RUn Cos x0 * RGy)%rexp                    (* math_ops.rs:977-979 *)
  | Cos => Some (- (RUn Sin x0 * RGy))%rexp                (* math_ops.rs:996-998 *)
  | Tan => Some (RGy / RUn Square (RUn Cos x0))%rexp       (* math_ops.rs:1015-1018 *)
  | Asin => Some (RUn InvSqrt (RScalar 1 - RUn Square x0) * RGy)%rexp
      (* math_ops.rs:956-960 *)
  | Acos => Some (- RUn InvSqrt (RScalar 1 - RUn Square x0) * RGy)%rexp
      (* math_ops.rs:935-939 *)
  | Atan => Some (RUn Inv (RUn Square x0 + RScalar 1) * RGy)%rexp
      (* math_ops.rs:913-918 *)
  | Sinh => Some (RUn Cosh x0 * RGy)%rexp                  (* math_ops.rs:894-896 *)
  | Cosh => Some (RUn Sinh x0 * RGy)%rexp                  (* math_ops.rs:875-877 *)
  | Tanh => Some (RGy * (RScalar 1 - RUn Square ROut))%rexp
      (* math_ops.rs:854-858 *)
  | Asinh => Some (RUn Inv (RUn Sqrt (RUn Square x0 + RScalar 1)) * RGy)%rexp
      (* math_ops.rs:832-837 *)
  | Acosh => Some (RUn Inv (RUn Sqrt (RUn Square x0 - RScalar 1)) * RGy)%rexp
      (* math_ops.rs:810-815 *)
  | Atanh => Some (RUn Inv (RScalar 1 - RUn Square x0) * RGy)%rexp
      (* math_ops.rs:789-793 *)
  | Exp => Some (ROut * RGy)%rexp                          (* math_ops.rs:727-729 *)
  | Exp2 => Some (RScalar (ln (1 + 1)) * ROut * RGy)%rexp  (* math_ops.rs:746-751 *)
  | Exp10 => Some (RScalar (ln 10) * ROut * RGy)%rexp      (* math_ops.rs:769-772 *)
  | Ln => Some (RGy / x0)%rexp                             (* math_ops.rs:708-710 *)
  | Log2 => Some (RGy / (RScalar (ln (1 + 1)) * x0))%rexp  (* math_ops.rs:688-691 *)
  | Log10 => Some (RGy / (RScalar (ln 10) * x0))%rexp      (* math_ops.rs:668-671 *)
  | Sqrt => Some (RGy * (RScalar (1 / (1 + 1)) * RUn (Pow (- (1 / (1 + 1)))) x0))%rexp
      (* math_ops.rs:646-651 *)
  | InvSqrt => Some (RScalar (- (1 / 2)) * RUn (Pow (- (3 / 2))) x0 * RGy)%rexp
      (* math_ops.rs:362-367 *)
  | Inv => Some (- RUn Square ROut * RGy)%rexp             (* math_ops.rs:343-345 *)
  | Square => Some (RScalar (1 + 1) * x0 * RGy)%rexp       (* math_ops.rs:323-326 *)
  | Neg => Some (- RGy)%rexp                               (* math_ops.rs:303-305 *)
  | Abs => Some (RGy * RUn Sign x0)%rexp                   (* math_ops.rs:291-293 *)
  | Sign | Floor | Ceil => None                            (* math_ops.rs:383-385, math_ops.rs:402-404, math_ops.rs:421-423 *)
  | Pow a => Some (RGy * RScalar a * RUn (Pow (a - 1)) x0)%rexp
      (* math_ops.rs:625-629 *)
  | Sigmoid => Some (RGy * (ROut - RUn Square ROut))%rexp  (* activation_ops.rs:147-151 *)
  | Softplus => Some (RLet (RUn Exp x0) (RGy * (RVar 0 / (RVar 0 + RScalar 1))))%rexp
      (* activation_ops.rs:120-126 *)
  | ReLU => Some (RBin Greater x0 (RScalar 0) * RGy)%rexp  (* activation_ops.rs:161-166 *)
  | ELU alpha => Some (RBin (ELUGrad alpha) x0 RGy)        (* activation_ops.rs:196-204 *)
  | Clip mn mx => Some (RBin (ClipGrad mn mx) x0 RGy)      (* array_ops.rs:544-556 *)
  | Identity => Some RGy                                   (* activation_ops.rs:177-180 *)
  end.

(** Comparisons append a single [None] although they have two inputs
    (math_ops.rs:187-195). The others: binary_ops.rs:154-290, math_ops.rs:198-209
    [min_max_grad], activation_ops.rs:222-225, array_ops.rs:570-573. *)
Definition bin_rule (b : bop) : list (option rexp) :=
  match b with
  | Add => [Some (RReduce 0 RGy); Some (RReduce 1 RGy)]
  | Sub => [Some (RReduce 0 RGy); Some (- RReduce 1 RGy)%rexp]
  | Mul => [Some (RReduce 0 (RGy * x1)%rexp); Some (RReduce 1 (RGy * x0)%rexp)]
  | Div => [Some (RReduce 0 (RGy / x1)%rexp);
            Some (RReduce 1 (- x0 * RUn (Pow (-2)) x1 * RGy)%rexp)]
  | Maximum | Minimum => [Some (RBin Equal x0 ROut * RGy)%rexp; Some (RBin Equal x1 ROut * RGy)%rexp]
  | Equal | NotEqual | Greater | Lesser | GreaterEqual | LesserEqual => [None]
  | ELUGrad _ | ClipGrad _ _ => [None; None]
  end.

(** The gradients appended by [Op::grad]; outer [None]: it panics (variables and
    placeholders, basic_source_ops.rs:14-16). The order in which the tensors of one rule are
    created is simplified: one input gradient after the other. The operations are cited
    at [un_rule] and [bin_rule]; array_ops.rs:530-534 [AddN::grad]. *)
Definition rule (o : sop) (num_inputs : nat) : option (list (option rexp)) :=
  match o with
  | OLeaf => None
  | OScalar _ => Some [None]
  | OConvert _ => Some []
  | OShape => Some [None]
  | OInferShape => Some [None; None]
  | OZeros => Some [None]
  | OMaybeReduceSum => Some [Some (RBcast 0 RGy); None]
  | OMaybeBroadcast => Some [Some (RReduce 0 RGy); None]
  | OSumAll => Some [Some (RSumAllGrad 0 RGy)]
  | OSumAllGrad => Some [Some (RSumAll RGy); None]
  | OAddN => Some (repeat (Some RGy) num_inputs)
  | OStop => Some [None]
  | OUn u => Some [un_rule u]
  | OBin b => Some (bin_rule b)
  end.

(** Building the tensors of a rule for output tensor [out] with inputs [ins]. The bodies
    of [Op::grad], e.g. binary_ops.rs:154-166. *)
Fixpoint build_rexp (ins : list nat) (out gy : nat) (env : list nat) (e : rexp) : bld nat :=
  match e with
  | RGy => ret gy
  | RIn i => match nth_error ins i with Some x => ret x | None => fun _ => None end
  | ROut => ret out
  | RVar k => match nth_error env k with Some x => ret x | None => fun _ => None end
  | RScalar r => t_scalar r
  | RUn u e => bind (build_rexp ins out gy env e) (t_un u)
  | RBin b e1 e2 => bind (build_rexp ins out gy env e1) (fun a =>
                    bind (build_rexp ins out gy env e2) (t_bin b a))
  | RReduce i e => bind (build_rexp ins out gy env e) (fun a =>
                   match nth_error ins i with Some x => t_reduce x a | None => fun _ => None end)
  | RBcast i e => bind (build_rexp ins out gy env e) (fun a =>
                   match nth_error ins i with Some x => t_bcast x a | None => fun _ => None end)
  | RSumAll e => bind (build_rexp ins out gy env e) t_sum_all
  | RSumAllGrad i e => bind (build_rexp ins out gy env e) (fun a =>
                   match nth_error ins i with Some x => t_sum_all_grad x a | None => fun _ => None end)
  | RLet e body => bind (build_rexp ins out gy env e) (fun a => build_rexp ins out gy (a :: env) body)
  end.

(** src/op.rs:430-434 [append_input_grad], once per input. *)
Fixpoint build_rules (ins : list nat) (out gy : nat) (rs : list (option rexp)) : bld (list (option nat)) :=
  match rs with
  | [] => ret []
  | None :: rs => bind (build_rules ins out gy rs) (fun l => ret (None :: l))
  | Some e :: rs => bind (build_rexp ins out gy [] e) (fun t =>
                    bind (build_rules ins out gy rs) (fun l => ret (Some t :: l)))
  end.

(** src/op.rs:365-380 [compute_input_grads]. *)
Definition s_opgrad (g : sgraph) (y gy : nat) : bld (list (option nat)) :=
  match nth_error g y with
  | None => fun _ => None
  | Some n =>
      match rule (n_op n) (length (n_inputs n)) with
      | None => fun _ => None
      | Some rs => build_rules (map in_id (n_inputs n)) y gy rs
      end
  end.

(** src/tensor_ops/mod.rs:94-114 [grad] and 131-153 [grad_with_default] on such graphs. *)
Fixpoint sum_alls (ys : list nat) : bld (list nat) :=
  match ys with
  | [] => ret []
  | y :: ys => bind (t_sum_all y) (fun t => bind (sum_alls ys) (fun l => ret (t :: l)))
  end.
(** src/tensor_ops/mod.rs:131-153. *)
Definition s_grad_with_default (pop : sgraph -> list nat -> option (nat * list nat)) (debug : bool) (fuel : nat)
  (ys xs : list nat) (gys : option (list nat)) (g : sgraph) : res (list (nat * bool) * sgraph * list nat) :=
  grad_with_default g (s_opgrad g) t_add_n (t_scalar 1) t_zeros_like (pop g) debug fuel ys xs gys g.
(** src/tensor_ops/mod.rs:94-114. *)
Definition s_grad (pop : sgraph -> list nat -> option (nat * list nat)) (debug : bool) (fuel : nat)
  (ys xs : list nat) (g : sgraph) : res (list (nat * bool) * sgraph * list nat) :=
  match sum_alls ys g with
  | None => Panic
  | Some (ys', g') => s_grad_with_default pop debug fuel ys' xs None g'
  end.
