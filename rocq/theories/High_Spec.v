(** What repeated differentiation of a convolution may compute: three functions that are
    linear in each of their arguments, given by the formulas of Conv_Spec. *)
From Coq Require Import List Arith ZArith Reals.
Import ListNotations.
From Verif Require Import Array_Model Conv_Spec.
Local Open Scope R_scope.

(** A convolution of an image by a filter; a transposed convolution of a map by a
    filter; the correlation of an image and a map, which has the shape of a filter. *)
Inductive role := Convolved | Spread | Matched.

Section Roles.
  Variables (batch xch ych xh xw kh kw p s d yh yw : nat).
  Definition image_shape := [batch; xch; xh; xw].
  Definition filter_shape := [ych; xch; kh; kw].
  Definition map_shape := [batch; ych; yh; yw].
  (** Shapes of the two arguments and of the result. *)
  Definition first_shape (r : role) := match r with Convolved => image_shape | Spread => map_shape | Matched => image_shape end.
  Definition second_shape (r : role) := match r with Convolved => filter_shape | Spread => filter_shape | Matched => map_shape end.
  Definition result_shape (r : role) := match r with Convolved => map_shape | Spread => image_shape | Matched => filter_shape end.
  Definition meaning (r : role) (a b : arr R) : arr R :=
    match r with
    | Convolved => tab map_shape (fun i => match i with [n; o; i; j] => correlation xch kh kw p s d a b n o i j | _ => 0 end)
    | Spread => tab image_shape (fun i => match i with [n; c; y; x] => transposed ych kh kw yh yw p s d a b n c y x | _ => 0 end)
    | Matched => tab filter_shape (fun i => match i with [o; c; ki; kj] => filter_gradient batch yh yw p s d a b o c ki kj | _ => 0 end)
    end.
End Roles.
