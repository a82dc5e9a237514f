(** Hooks, [map] and [assign]: src/tensor_ops/hook_ops.rs,
    src/tensor_ops/higher_order_ops.rs, src/tensor_ops/array_ops.rs:92-105,
    src/tensor.rs:170-202, src/tensor_ops/mod.rs:2930-2989. *)
From Coq Require Import String List Arith ZArith Bool.
Import ListNotations.
From Verif Require Import Graph_Model Eval_Model Grad_Model Array_Model.

(** The three operations beside arbitrary others ([O]); [H] identifies hooks. *)
Inductive hop (H V O : Type) :=
| HHook (h : H)        (* hook_ops.rs:5-8 [HookOp] *)
| HMap (f : V -> V)    (* higher_order_ops.rs:5-8 [MapOp]; [f] is total: a panic inside it is not modelled *)
| HAssign              (* array_ops.rs:90 [Assign] *)
| HOther (o : O).
Arguments HHook {H V O}. Arguments HMap {H V O}. Arguments HAssign {H V O}. Arguments HOther {H V O}.

Section Hook.
  Context {H V O E : Type}.
  (** ndarray's [assign]: the left operand after the assignment, [None] if the
      right one cannot be broadcast to its shape. *)
  Variable assign_to : V -> V -> option V.
  (** op.rs:290-294 [append_empty_output]: a rank-0 array holding 0. *)
  Variable empty : V.
  Variable compute : O -> list (opin V) -> cout V E.

  (** op.rs:224-240 [ComputeContext::input]: panics for a mutable variable. *)
  Definition plain_input (x : opin V) : option V :=
    match x with NonVar v => Some v | RdOnly v => Some v | RdWr _ => None end.

  (** hook_ops.rs:21-26, higher_order_ops.rs:11-16, array_ops.rs:93-97.  Calling
      the hook is a side effect; the calls are read off the log of the
      evaluation ([hook_calls]). *)
  Definition hop_compute (o : hop H V O) (xs : list (opin V)) : cout V E :=
    match o with
    | HHook _ =>
        match xs with
        | x :: _ => match plain_input x with Some v => CRet [] [v] None | None => CPanic end
        | [] => CPanic
        end
    | HMap f =>
        match xs with
        | x :: _ => match plain_input x with Some v => CRet [] [f v] None | None => CPanic end
        | [] => CPanic
        end
    | HAssign =>
        match xs with
        | RdWr x :: y :: _ =>
            match plain_input y with
            | Some v => match assign_to x v with Some x' => CRet [(0, x')] [empty] None | None => CPanic end
            | None => CPanic
            end
        | _ => CPanic
        end
    | HOther o => compute o xs
    end.

  (** tensor.rs:198-202 [register_hook], also behind [show], [print], [raw_hook]
      (tensor.rs:205-330): a new tensor; [x] itself stays as it was. *)
  Definition register_hook (g : graph (hop H V O)) (x : nat) (h : H) : option (graph (hop H V O) * nat) :=
    build g (append_input new_builder x false 0) (HHook h).
  (** mod.rs:2931-2946 [map]. *)
  Definition map_tensor (g : graph (hop H V O)) (x : nat) (f : V -> V) : option (graph (hop H V O) * nat) :=
    build g (append_input new_builder x false 0) (HMap f).
  (** mod.rs:2975-2988 [assign]. *)
  Definition assign (g : graph (hop H V O)) (x y : nat) : option (graph (hop H V O) * nat) :=
    build g (append_input (append_input new_builder x true 0) y false 0) HAssign.

  (** The calls [self.hook.call(&ret)] of an evaluation, in order.
      src/tensor_ops/hook_ops.rs:23. *)
  Fixpoint hook_calls (g : graph (hop H V O)) (log : list (@event V)) : list (nat * H * V) :=
    match log with
    | [] => []
    | Ran i (x :: _) :: log =>
        match nth_error g i with
        | Some n => match n_op n, plain_input x with
                    | HHook h, Some v => (i, h, v) :: hook_calls g log
                    | _, _ => hook_calls g log
                    end
        | None => hook_calls g log
        end
    | _ :: log => hook_calls g log
    end.

  (** Gradient rules: hook_ops.rs:28-30, higher_order_ops.rs:17 (an empty body),
      array_ops.rs:99-102. *)
  Definition hop_opgrad {S T : Type} (g : graph (hop H V O))
    (opgrad : O -> nat -> T -> S -> option (list (option T) * S)) (t : nat) (gy : T) (s : S)
    : option (list (option T) * S) :=
    match nth_error g t with
    | None => None
    | Some n =>
        match n_op n with
        | HHook _ => Some ([Some gy], s)
        | HMap _ => Some ([], s)
        | HAssign => Some ([None; None], s)
        | HOther o => opgrad o t gy s
        end
    end.
End Hook.

(** ndarray's [ArrayBase::assign]: [zip_mut_with] copying the right element (broadcast
    to the left shape). Called at array_ops.rs:97. *)
Definition assign_arr {A} (d : A) (x y : arr A) : option (arr A) := zip_mut d d (fun _ b => b) x y.
