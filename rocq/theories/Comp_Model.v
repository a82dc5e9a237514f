(** Operations of src/tensor_ops/mod.rs that are compositions of other
    operations, as expressions over their operands ([EIn 0], [EIn 1], ...). *)
From Coq Require Import List ZArith Reals.
Import ListNotations.
From Verif Require Import Scalar_Model Tens_Model.
Local Open Scope R_scope.

(** src/tensor_ops/mod.rs:1227-1242 [reduce_mean]: [axes.as_tensor(g)] makes a
    new constant. *)
Definition mean_expr (keep : bool) (e axes : expr) : expr := EOp2 (TReduceMean keep) SNone e axes.
(** src/tensor_ops/mod.rs:1173-1178 [mean_all]. *)
Definition mean_all_expr : expr := EBin Div (EOp1 TSumAll SNone (EIn 0)) (EOp1 TSize SNone (EIn 0)).
(** src/tensor_ops/mod.rs:1291-1302 [reduce_variance]. *)
Definition variance_expr (keep : bool) (axes : list Z) : expr :=
  mean_expr keep (EUn Square (EBin Sub (EIn 0) (mean_expr true (EIn 0) (EInts axes)))) (EInts axes).
(** src/tensor_ops/mod.rs:1695-1702 [leaky_relu]. *)
Definition leaky_relu_expr (alpha : R) : expr := EBin Maximum (EIn 0) (EBin Mul (EScalar alpha) (EIn 0)).
(** src/tensor_ops/mod.rs:1845-1851 [mean_squared_error]. *)
Definition mse_expr : expr := mean_expr false (EUn Square (EBin Sub (EIn 0) (EIn 1))) (EInts [(-1)%Z]).
(** src/tensor_ops/mod.rs:2325-2338 [normalize]: [EVar] 1 are the axes, 0 is [centered]. *)
Definition normalize_expr (axes : list Z) : expr :=
  ELet (EInts axes)
  (ELet (EBin Sub (EIn 0) (mean_expr true (EIn 0) (EVar 0)))
        (EBin Mul (EVar 0)
                  (EUn InvSqrt (EBin Add (mean_expr true (EUn Square (EVar 0)) (EVar 1)) (EScalar (1 / 100000)))))).
(** src/tensor_ops/mod.rs:2362-2369 [batch_norm]. *)
Definition batch_norm_expr : expr := EBin Add (EBin Mul (normalize_expr [0%Z]) (EIn 1)) (EIn 2).

(** Calls of the functions above, src/tensor_ops/mod.rs:1173-2369. *)
Inductive comp :=
| CMean (keep : bool) (axes : list Z)
| CMeanAll
| CVariance (keep : bool) (axes : list Z)
| CLeakyRelu (alpha : R)
| CMse
| CNormalize (axes : list Z)
| CBatchNorm.
(** src/tensor_ops/mod.rs:1173-2369, as cited above. *)
Definition comp_expr (c : comp) : expr :=
  match c with
  | CMean keep axes => mean_expr keep (EIn 0) (EInts axes)
  | CMeanAll => mean_all_expr
  | CVariance keep axes => variance_expr keep axes
  | CLeakyRelu alpha => leaky_relu_expr alpha
  | CMse => mse_expr
  | CNormalize axes => normalize_expr axes
  | CBatchNorm => batch_norm_expr
  end.
(** Calling the function on the tensors [ins]. src/tensor_ops/mod.rs:1173-2369. *)
Definition build_comp (c : comp) (ins : list nat) : tbld nat :=
  build_expr ins (hd O ins) (hd O ins) [] (comp_expr c).
