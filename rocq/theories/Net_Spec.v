(** What a convolutional classifier computes, as formulas on real numbers,
    independent of graphs and kernels. *)
From Coq Require Import List Arith ZArith NArith Bool Reals.
Import ListNotations.
From Verif Require Import Array_Model Vjp_Spec Dot_Spec Conv_Spec Shape_Model Tens_Model Tens_Spec Comp_Spec Net_Model.
From Verif Require Pool_Spec.
Local Open Scope R_scope.

(** ** Values *)

(** The places of [k] pixels, [s] apart, on [x] pixels with padding [p]. *)
Definition places (x p s k : nat) : nat := ((x + 2 * p - k) / s + 1)%nat.

(** Convolution plus bias (repeated along axes where it has size 1). *)
Definition filtered (k : block) (x w b : arr R) : arr R :=
  match a_shape x, a_shape w with
  | [n; ci; h; v], [co; _; kh; kw] =>
      tab [n; co; places h (k_pad k) (k_stride k) kh; places v (k_pad k) (k_stride k) kw]
        (fun ix => match ix with
                   | [i; o; r; q] => correlation ci kh kw (k_pad k) (k_stride k) 1 x w i o r q + aget 0 b (bc_idx (a_shape b) ix)
                   | _ => 0
                   end)
  | _, _ => Arr [] []
  end.
Definition positive (a : arr R) : arr R := tab (a_shape a) (fun i => Rmax (aget 0 a i) 0).
(** The largest number of a list. *)
Definition largest (l : list R) : R := fold_right Rmax (hd 0 l) l.
Definition window (size step r q : nat) : list (nat * nat) :=
  list_prod (seq (r * step) size) (seq (q * step) size).
Definition pooled (size step : nat) (a : arr R) : arr R :=
  match a_shape a with
  | [n; c; h; v] =>
      tab [n; c; places h 0 step size; places v 0 step size]
        (fun ix => match ix with
                   | [i; o; r; q] => largest (map (fun m => aget 0 a [i; o; fst m; snd m]) (window size step r q))
                   | _ => 0
                   end)
  | _ => Arr [] []
  end.
Definition block_value (k : block) (rho : nat -> arr R) (x : arr R) : arr R :=
  pooled (k_size k) (k_step k) (positive (filtered k x (rho (k_w k)) (rho (k_b k)))).
Fixpoint features (ks : list block) (rho : nat -> arr R) (x : arr R) : arr R :=
  match ks with [] => x | k :: ks => features ks rho (block_value k rho x) end.

(** The same elements in row-major order under other sizes. *)
Definition other_shape (l : list Z) (sh : list nat) : option (list nat) :=
  match reshape_dims (prod sh) l l with
  | Some out => if (prod sh =? prod out)%nat then Some out else None
  | None => None
  end.
Definition arranged (l : list Z) (x : arr R) : arr R :=
  match other_shape l (a_shape x) with Some sh => Arr sh (a_data x) | None => x end.

Definition logit (z w b : arr R) (i c : nat) : R :=
  sum_below (nth 1 (a_shape z) 0%nat) (fun j => aget 0 z [i; j] * aget 0 w [j; c]) + aget 0 b (bc_idx (a_shape b) [i; c]).
(** Average over the examples of the negative logarithm of the probability that
    the classifier gives to the label. *)
Definition nll (labels : list Z) (z w b : arr R) : R :=
  avg (map (fun i => ln (sum_below (nth 1 (a_shape w) 0%nat) (fun c => exp (logit z w b i c))) -
                     logit z w b i (Z.to_nat (nth i labels 0%Z))) (seq 0 (hd 0%nat (a_shape z)))).
Definition net_loss (ks : list block) (img flat labels : list Z) (x w b : nat) (rho : nat -> arr R) : R :=
  nll labels (arranged flat (features ks rho (arranged img (rho x)))) (rho w) (rho b).

(** ** Sizes for which the gradients are right *)

(** Convolutions and windows leave no pixel over; the bias has the shape of what
    it is added to, up to axes of size 1; sizes and positions are exact in the
    floats and integers that hold them. *)
Definition widens (y b : list nat) : bool := match arith_ty y b with Some r => shape_eqb r y | None => false end.
Definition block_shape (checked : bool) (bits : N) (k : block) (x w b : list nat) : option (list nat) :=
  match conv_ty (k_pad k) (k_stride k) 1 x w with
  | Some y =>
      if op_fit (TConv checked (k_pad k) (k_stride k) 1) [TyA x; TyA w] && widens y b && pool_exact bits (k_step k) (k_size k) y
      then pool_ty 0 (k_step k) (k_size k) y else None
  | None => None
  end.
Fixpoint blocks_shape (checked : bool) (bits : N) (ls : nat -> list nat) (ks : list block) (x : list nat) : option (list nat) :=
  match ks with
  | [] => Some x
  | k :: ks => match block_shape checked bits k x (ls (k_w k)) (ls (k_b k)) with
               | Some y => blocks_shape checked bits ls ks y
               | None => None
               end
  end.
Definition net_sizes (checked : bool) (bits : N) (ls : nat -> list nat) (ks : list block) (img flat labels : list Z) (x w b : nat) : bool :=
  match other_shape img (ls x) with
  | None => false
  | Some s0 =>
      match blocks_shape checked bits ls ks s0 with
      | None => false
      | Some s1 =>
          match other_shape flat s1, ls w with
          | Some [n; f], [f'; c] =>
              (f =? f')%nat && widens [n; c] (ls b) && labels_ok n c labels && nonempty [n; c] && (N.of_nat n <=? 2 ^ 24)%N
          | _, _ => false
          end
      end
  end.
(** The leaves of the network. *)
Definition net_leaves (ks : list block) (x w b : nat) : list nat :=
  x :: w :: b :: flat_map (fun k => [k_w k; k_b k]) ks.

(** ** Where the loss is differentiable *)

(** [u] is what relu is applied to: no element is 0, and in every window either one
    element is larger than the others and positive, or all are negative. *)
Definition regular_block (k : block) (u : arr R) : Prop :=
  match a_shape u with
  | [n; c; h; v] =>
      (forall i, in_bounds [n; c; h; v] i -> aget 0 u i <> 0) /\
      forall i o r q, in_bounds [n; c; places h 0 (k_step k) (k_size k); places v 0 (k_step k) (k_size k)] [i; o; r; q] ->
        (exists m, In m (window (k_size k) (k_step k) r q) /\ 0 < aget 0 u [i; o; fst m; snd m] /\
           forall m', In m' (window (k_size k) (k_step k) r q) -> m' <> m ->
             aget 0 u [i; o; fst m'; snd m'] < aget 0 u [i; o; fst m; snd m]) \/
        (forall m, In m (window (k_size k) (k_step k) r q) -> aget 0 u [i; o; fst m; snd m] < 0)
  | _ => True
  end.
Fixpoint regular (ks : list block) (rho : nat -> arr R) (x : arr R) : Prop :=
  match ks with
  | [] => True
  | k :: ks => regular_block k (filtered k x (rho (k_w k)) (rho (k_b k))) /\ regular ks rho (block_value k rho x)
  end.
