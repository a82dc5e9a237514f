(** The accuracy of a classifier as the examples compute it (examples/mlp_mnist.rs:99-100,
    examples/cnn_mnist.rs:128-133): [argmax], [equal] and [reduce_mean] in a graph with any
    other operations.  Elements are reals; the number of averaged elements is computed in
    single precision (Mean_Model). *)
From Coq Require Import String List Arith ZArith Bool Reals.
Import ListNotations.
From Verif Require Import Graph_Model Eval_Model Array_Model Argx_Model Mean_Model Scalar_Model Tens_Model Num_Model.
Local Open Scope R_scope.

(** The operations beside arbitrary others. *)
Inductive aop (Op : Type) :=
| AArgmax (lowest : R) (keep : bool) (axis : Z)  (* reduction_ops.rs:444-457; [lowest] is [T::min_value()] *)
| AEqual                                         (* math_ops.rs:86-175 *)
| AMean (keep : bool)                            (* reduction_ops.rs:187-239 *)
| AConst (a : arr R)                             (* const_gen_ops.rs:83-90 *)
| AOther (o : Op).
Arguments AArgmax {Op}. Arguments AEqual {Op}. Arguments AMean {Op}. Arguments AConst {Op}. Arguments AOther {Op}.

Section Acc.
  Context {Op Err : Type}.
  Variable other : Op -> list (opin (arr R)) -> cout (arr R) Err.

  (** What [compute] appends, or a panic: src/op.rs:300-303 [append_output]. *)
  Definition output (o : option (arr R)) : cout (arr R) Err :=
    match o with Some a => CRet [] [a] None | None => CPanic end.
  (** reduction_ops.rs:365-457, math_ops.rs:86-175, reduction_ops.rs:188-216,
      const_gen_ops.rs:83-90. *)
  Definition acc_compute (o : aop Op) (ins : list (opin (arr R))) : cout (arr R) Err :=
    match o, ins with
    | AArgmax lowest keep axis, x :: _ =>
        output (argx_helper 0 1 Rplus Rmult reqb INR Rmax lowest keep axis (opin_val x))
    | AEqual, x :: y :: _ => output (cmp_forward (bin Equal) (opin_val x) (opin_val y))
    | AMean keep, x :: axes :: _ => output (reduce_mean (map trunc (a_data (opin_val axes))) keep false (opin_val x))
    | AConst a, _ => CRet [] [a] None
    | AOther o, _ => other o ins
    | _, _ => CPanic
    end.

  (** src/tensor_ops/mod.rs:955-963 [argmax]. *)
  Definition argmax (g : graph (aop Op)) (lowest : R) (x : nat) (axis : Z) (keep : bool) : option (graph (aop Op) * nat) :=
    build g (append_input new_builder x false 0) (AArgmax lowest keep axis).
  (** src/tensor_ops/mod.rs:868-879 [equal]. *)
  Definition equal (g : graph (aop Op)) (a b : nat) : option (graph (aop Op) * nat) :=
    build g (append_input (append_input new_builder a false 0) b false 0) AEqual.
  (** src/tensor_ops/mod.rs:1227-1242 [reduce_mean]; the axes become a constant
      (mod.rs:2387-2401 [convert_to_tensor]; the attached shape tensor, which does not
      influence its value, is left out). *)
  Definition mean (g : graph (aop Op)) (x : nat) (axes : list Z) (keep : bool) : option (graph (aop Op) * nat) :=
    match build g new_builder (AConst (Arr [length axes] (map IZR axes))) with
    | Some (g, a) => build g (append_input (append_input new_builder x false 0) a false 0) (AMean keep)
    | None => None
    end.
  (** examples/mlp_mnist.rs:99-100: scores [z], labels [y]. *)
  Definition accuracy (g : graph (aop Op)) (lowest : R) (z y : nat) : option (graph (aop Op) * nat) :=
    match argmax g lowest z (-1)%Z true with
    | Some (g, p) =>
        match equal g p y with
        | Some (g, e) => mean g e [0%Z; 1%Z] false
        | None => None
        end
    | None => None
    end.
End Acc.
