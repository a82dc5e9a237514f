(** Training steps: moving several parameters at once, the total loss, and the
    optimizer states from which a step goes downhill. *)
From Coq Require Import String List Arith ZArith Bool Reals.
Import ListNotations.
From Verif Require Import Array_Model Vjp_Spec Opt_Model Tens_Model Tens_Spec.
Local Open Scope R_scope.

(** Every leaf [x] of [xs] moves by [t * dir x]. *)
Definition move (rho : nat -> arr R) (xs : list nat) (dir : nat -> arr R) (t : R) : nat -> arr R :=
  fun i => if existsb (Nat.eqb i) xs then Vjp_Spec.step (rho i) (dir i) t else rho i.

(** The sum of all elements of the outputs [ys]. *)
Definition total_loss (rho : nat -> arr R) (g : tgraph) (ys : list nat) : R :=
  fold_right Rplus 0 (map (fun y => elements_sum (aval rho g y)) ys).

(** The optimizer with another learning rate. *)
Definition with_rate (opt : optimizer) (lr : R) : optimizer :=
  match opt with
  | SGD _ => SGD lr
  | MomentumSGD _ mu ns => MomentumSGD lr mu ns
  | AdaGrad _ ns => AdaGrad lr ns
  | Adam _ eps b1 b2 ns => Adam lr eps b1 b2 ns
  end.

(** States without momentum: SGD has no state; no velocity; AdaGrad's sums of
    squares are not negative (always the case); Adam's first moment is zero. *)
Definition all_elements (P : R -> Prop) (sh : list nat) (a : arr R) : Prop :=
  has_shape sh a /\ forall i, in_bounds sh i -> P (aget 0 a i).
Definition no_momentum (powf : R -> R -> R) (opt : optimizer) (sh : list nat) (sts : list (arr R)) : Prop :=
  match opt, sts with
  | SGD _, [] => True
  | MomentumSGD _ _ _, [v] => all_elements (fun a => a = 0) sh v
  | AdaGrad _ _, [h] => all_elements (fun a => 0 <= a) sh h
  | Adam _ eps b1 b2 _, [m; v; t] =>
      all_elements (fun a => a = 0) sh m /\ all_elements (fun a => 0 <= a) sh v /\
      0 <= b1 < 1 /\ 0 <= b2 < 1 /\ 0 < eps /\
      exists n, t = Arr [] [INR (S n)] /\ powf b1 (INR (S n)) = b1 ^ S n /\ powf b2 (INR (S n)) = b2 ^ S n
  | _, _ => False
  end.
