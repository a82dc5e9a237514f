(** The remaining methods of [TensorBuilder], and building a tensor by a chain of calls. *)
From Coq Require Import String List Arith ZArith Bool.
Import ListNotations.
From Verif Require Import Graph_Model.

(** src/tensor.rs:690-693 [set_variable]. *)
Definition set_variable (b : builder) (vid : nat) : builder :=
  Builder (b_shape b) (b_inputs b) (b_diff b) (b_backprop b) (b_known b) (Some vid) (b_ph b).
(** src/tensor.rs:696-699 [set_known_shape]; [None]: the panic of [KnownShape::new]. *)
Definition set_known_shape (b : builder) (s : list Z) : option builder :=
  match known_shape_new s with
  | Some s => Some (Builder (b_shape b) (b_inputs b) (b_diff b) (b_backprop b) (Some s) (b_var b) (b_ph b))
  | None => None
  end.
(** src/tensor.rs:744-747 [set_placeholder_name]. *)
Definition set_placeholder_name (b : builder) (name : string) : builder :=
  Builder (b_shape b) (b_inputs b) (b_diff b) (b_backprop b) (b_known b) (b_var b) (Some name).

(** The methods of [TensorBuilder], src/tensor.rs:688-766. *)
Inductive method :=
| AppendInput (id : nat) (allow_mut : bool)
| AppendInputWithSelector (id : nat) (allow_mut : bool) (selector : nat)
| AppendBackpropInput (id : nat)
| SetShape (id : nat)
| SetDifferentiable (d : bool)
| SetKnownShape (s : list Z)
| SetVariable (vid : nat)
| SetPlaceholderName (name : string).
(** src/tensor.rs:688-766; line 721: [append_input] uses selector 0. *)
Definition call_method (b : builder) (m : method) : option builder :=
  match m with
  | AppendInput id mu => Some (append_input b id mu 0)
  | AppendInputWithSelector id mu sel => Some (append_input b id mu sel)
  | AppendBackpropInput id => Some (append_backprop_input b id)
  | SetShape id => Some (set_shape b id)
  | SetDifferentiable d => Some (set_differentiable b d)
  | SetKnownShape s => set_known_shape b s
  | SetVariable v => Some (set_variable b v)
  | SetPlaceholderName n => Some (set_placeholder_name b n)
  end.
(** A chain [Tensor::builder(g).m1().m2()….build(op)], src/tensor.rs:141-153, 688-802. [None]: a panic. *)
Fixpoint call_methods (b : builder) (ms : list method) : option builder :=
  match ms with
  | [] => Some b
  | m :: ms => match call_method b m with Some b => call_methods b ms | None => None end
  end.
(** src/tensor.rs:141-153, 769-802. *)
Definition build_by {O} (g : graph O) (ms : list method) (op : O) : option (graph O * nat) :=
  match call_methods new_builder ms with Some b => build g b op | None => None end.
