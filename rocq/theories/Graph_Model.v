(** Computation graphs: nodes, the tensor builder, variables and placeholders.
    Models src/graph.rs and the graph-building part of src/tensor.rs. *)
From Coq Require Import String List Arith ZArith Bool.
Import ListNotations.

(** src/tensor.rs:542-582 [IncomingTensor]: an edge to an input tensor. *)
Record incoming := Incoming {
  in_id  : nat;   (* tensor.rs:544  id *)
  in_mut : bool;  (* tensor.rs:546  allow_mut *)
  in_sel : nat    (* tensor.rs:549  array_selector *)
}.

(** src/tensor.rs:408-441 [TensorInternal].  The boxed trait object [op] is an
    element of an arbitrary type [O]; [id] is the position in the graph. *)
Record node (O : Type) := Node {
  n_op       : O;
  n_inputs   : list incoming;            (* incoming_nodes *)
  n_rank     : nat;                      (* topo_rank *)
  n_shape    : option nat;               (* shape: id of a shape tensor *)
  n_ph       : option string;            (* placeholder_name *)
  n_diff     : bool;                     (* is_differentiable *)
  n_backprop : option (list incoming);   (* backprop_inputs *)
  n_known    : option (list Z);          (* known_shape *)
  n_var      : option nat                (* variable_id *)
}.
Arguments Node {O}. Arguments n_op {O}. Arguments n_inputs {O}.
Arguments n_rank {O}. Arguments n_shape {O}. Arguments n_ph {O}.
Arguments n_diff {O}. Arguments n_backprop {O}. Arguments n_known {O}.
Arguments n_var {O}.

(** src/graph.rs:17-20 [Graph]: the node list (node_set). *)
Definition graph (O : Type) := list (node O).

(** src/tensor.rs:456-460 [is_source]. *)
Definition is_source {O} (n : node O) : bool :=
  match n_inputs n with [] => true | _ => false end.

(** src/tensor.rs:462-466 [is_variable]. *)
Definition is_variable {O} (n : node O) : bool :=
  match n_var n with Some _ => true | None => false end.

(** src/tensor.rs:363-366 [is_placeholder]. *)
Definition is_placeholder {O} (n : node O) : bool :=
  match n_ph n with Some _ => true | None => false end.

(** src/tensor.rs:481-490 [get_backprop_inputs]. *)
Definition get_backprop_inputs {O} (n : node O) : list incoming :=
  match n_backprop n with Some l => l | None => n_inputs n end.

(** src/tensor.rs:629-644 [KnownShape::new]: [None] models the panic on a
    dimension that is 0 or below -1. *)
Definition known_shape_new (s : list Z) : option (list Z) :=
  if forallb (fun a => (a =? -1)%Z || (0 <? a)%Z) s then Some s else None.

(** src/tensor.rs:651-661 [KnownShape::validate]. *)
Fixpoint known_shape_zip (known : list Z) (target : list nat) : bool :=
  match known, target with
  | i :: ks, u :: us =>
      if (0 <? i)%Z && negb (Z.to_nat i =? u)%nat then false
      else known_shape_zip ks us
  | _, _ => true
  end.
(** src/tensor.rs:651-661: ranks, then dimensions. *)
Definition known_shape_validate (known : list Z) (target : list nat) : bool :=
  if negb (length known =? length target)%nat then false
  else known_shape_zip known target.

(** src/graph.rs:22-23. *)
Definition NUM_NODES_CRITICAL : N := 500000%N.

(** src/graph.rs:27-47 [Graph::install]; [None] is the panic at line 37.
    The warning printed at 50_000 nodes is not modelled. *)
Definition install {O} (g : graph O) (n : node O) : option (graph O * nat) :=
  let id := length g in
  if (NUM_NODES_CRITICAL <? N.of_nat id)%N then None
  else Some (g ++ [n], id).

(** src/tensor.rs:609-618 [TensorBuilder]: the data a builder has collected. *)
Record builder := Builder {
  b_shape    : option nat;
  b_inputs   : list incoming;
  b_diff     : bool;
  b_backprop : option (list incoming);
  b_known    : option (list Z);
  b_var      : option nat;
  b_ph       : option string
}.

(** src/tensor.rs:141-153 [Tensor::builder]. *)
Definition new_builder : builder :=
  Builder None [] true None None None None.

(** src/tensor.rs:717-741 [append_input], [append_input_with_selector]. *)
Definition append_input (b : builder) (id : nat) (m : bool) (sel : nat) : builder :=
  Builder (b_shape b) (b_inputs b ++ [Incoming id m sel]) (b_diff b)
          (b_backprop b) (b_known b) (b_var b) (b_ph b).

(** src/tensor.rs:753-766 [append_backprop_input]. *)
Definition append_backprop_input (b : builder) (id : nat) : builder :=
  Builder (b_shape b) (b_inputs b) (b_diff b)
          (Some (match b_backprop b with Some l => l | None => [] end
                   ++ [Incoming id false 0]))
          (b_known b) (b_var b) (b_ph b).

(** src/tensor.rs:702-711 [set_shape], [set_differentiable]. *)
Definition set_shape (b : builder) (s : nat) : builder :=
  Builder (Some s) (b_inputs b) (b_diff b) (b_backprop b) (b_known b) (b_var b) (b_ph b).
(** src/tensor.rs:708-711. *)
Definition set_differentiable (b : builder) (d : bool) : builder :=
  Builder (b_shape b) (b_inputs b) d (b_backprop b) (b_known b) (b_var b) (b_ph b).

(** src/tensor.rs:774-783: the rank of a new node.  Out-of-range ids cannot be
    expressed in Rust (tensors come from the graph); here they count as 0. *)
Definition rank_of {O} (g : graph O) (id : nat) : nat :=
  match nth_error g id with Some n => n_rank n | None => 0 end.
(** src/tensor.rs:774-783. *)
Definition new_rank {O} (g : graph O) (ins : list incoming) : nat :=
  match ins with
  | [] => 0
  | _ => S (list_max (map (fun a => rank_of g (in_id a)) ins))
  end.

(** src/tensor.rs:769-802 [TensorBuilder::build]. *)
Definition build {O} (g : graph O) (b : builder) (op : O) : option (graph O * nat) :=
  install g (Node op (b_inputs b) (new_rank g (b_inputs b)) (b_shape b) (b_ph b)
                  (b_diff b) (b_backprop b) (b_known b) (b_var b)).

(** src/tensor_ops/mod.rs:2951-2971 [control_dependencies]:
    a new node with inputs [x_input :: deps] is built, then the first input of
    [x] is redirected to it (only the [id] field of the edge changes).
    [None]: [x] has no inputs (panic) or the graph is full. *)
Definition redirect_first {O} (n : node O) (new_id : nat) : node O :=
  match n_inputs n with
  | [] => n
  | i :: rest =>
      Node (n_op n) (Incoming new_id (in_mut i) (in_sel i) :: rest) (n_rank n)
           (n_shape n) (n_ph n) (n_diff n) (n_backprop n) (n_known n) (n_var n)
  end.
(** In-place change of one node, src/tensor_ops/mod.rs:2962-2969. *)
Fixpoint update_nth {A} (l : list A) (i : nat) (f : A -> A) : list A :=
  match l, i with
  | [], _ => []
  | x :: l, 0 => f x :: l
  | x :: l, S i => x :: update_nth l i f
  end.
(** src/tensor_ops/mod.rs:2951-2971. *)
Definition control_dependencies {O} (ctrl_op : O) (g : graph O) (x : nat) (deps : list nat)
  : option (graph O) :=
  match nth_error g x with
  | None => None
  | Some n =>
    match n_inputs n with
    | [] => None
    | i0 :: _ =>
      let b := fold_left (fun b d => append_input b d false 0) deps
                 (append_input new_builder (in_id i0) false 0) in
      match build g b ctrl_op with
      | None => None
      | Some (g', new_id) => Some (update_nth g' x (fun n => redirect_first n new_id))
      end
    end
  end.

(** ** Contexts: a graph with its variable cache *)

(** src/graph.rs:17-20: [node_set] and [variable2node] (as an association list). *)
Record context (O : Type) := Context {
  c_graph : graph O;
  c_vars  : list (nat * nat)      (* variable id, tensor id *)
}.
Arguments Context {O}. Arguments c_graph {O}. Arguments c_vars {O}.

(** src/graph.rs:91-98, src/variable.rs:674-681: a new context. *)
Definition new_context {O} : context O := Context [] [].

(** src/graph.rs:141-144 [Context::clear]. *)
Definition clear {O} (c : context O) : context O := Context [] [].

(** src/variable.rs:711: lookup in [variable2node]. *)
Definition find_var (vid : nat) (m : list (nat * nat)) : option nat :=
  option_map snd (find (fun p => (fst p =? vid)%nat) m).

(** src/variable.rs:709-726 [variable_by_id]; [None]: the graph is full. *)
Definition variable_by_id {O} (var_op : O) (c : context O) (vid : nat)
  : option (context O * nat) :=
  match find_var vid (c_vars c) with
  | Some tid => Some (c, tid)
  | None =>
      match build (c_graph c) (Builder None [] true None None (Some vid) None) var_op with
      | None => None
      | Some (g', tid) => Some (Context g' ((vid, tid) :: c_vars c), tid)
      end
  end.

(** src/graph.rs:178-199 [Context::placeholder]: for rank 0 or a first dimension
    other than -1 a constant holding the declared shape is created first
    (line 182; that constant's operation is [const_op shape]).
    [None]: invalid declared shape, or the graph is full. *)
Definition placeholder {O} (ph_op : O) (const_op : list Z -> O) (c : context O)
  (name : string) (shape : list Z) : option (context O * nat) :=
  let static := match shape with [] => true | d :: _ => negb (d =? -1)%Z end in
  let finish (g : graph O) (sh : option nat) :=
    match known_shape_new shape with
    | None => None
    | Some k =>
        match build g (Builder sh [] true None (Some k) None (Some name)) ph_op with
        | None => None
        | Some (g', id) => Some (Context g' (c_vars c), id)
        end
    end in
  if static then
    match build (c_graph c) new_builder (const_op shape) with
    | None => None
    | Some (g', sid) => finish g' (Some sid)
    end
  else finish (c_graph c) None.

(** What user code can do to a context. [CBuild]: a builder filled through its public
    methods (inputs, shape, differentiability, backprop inputs). The methods cited above
    (src/tensor.rs:609-802, src/graph.rs:141-199, src/variable.rs:709-726). *)
Inductive cmd (O : Type) :=
| CBuild (sh : option nat) (ins : list incoming) (diff : bool) (bp : option (list incoming)) (op : O)
| CVariable (vid : nat)
| CPlaceholder (name : string) (shape : list Z)
| CDependsOn (x : nat) (deps : list nat)
| CClear.
Arguments CBuild {O}. Arguments CVariable {O}. Arguments CPlaceholder {O}.
Arguments CDependsOn {O}. Arguments CClear {O}.

Section Commands.
  Context {O : Type}.
  Variables (var_op ph_op ctrl_op : O) (const_op : list Z -> O).

  (** Rust's types guarantee that tensors handed to these methods belong to the
      graph (src/graph.rs:230-236 [assert_same_graph], lifetimes): other calls
      are [None]. *)
  Definition ids_ok (g : graph O) (ids : list nat) : bool :=
    forallb (fun i => (i <? length g)%nat) ids.

  (** One call of a method cited above (src/tensor.rs:769-802, src/graph.rs:141-199,
      src/variable.rs:709-726). *)
  Definition run_cmd (c : context O) (k : cmd O) : option (context O * option nat) :=
    match k with
    | CBuild sh ins diff bp op =>
        if ids_ok (c_graph c) (map in_id ins) then
          match build (c_graph c) (Builder sh ins diff bp None None None) op with
          | None => None
          | Some (g', id) => Some (Context g' (c_vars c), Some id)
          end
        else None
    | CVariable vid =>
        match variable_by_id var_op c vid with
        | None => None
        | Some (c', id) => Some (c', Some id)
        end
    | CPlaceholder name shape =>
        match placeholder ph_op const_op c name shape with
        | None => None
        | Some (c', id) => Some (c', Some id)
        end
    | CDependsOn x deps =>
        if ids_ok (c_graph c) (x :: deps) then
          match control_dependencies ctrl_op (c_graph c) x deps with
          | None => None
          | Some g' => Some (Context g' (c_vars c), Some x)
          end
        else None
    | CClear => Some (clear c, None)
    end.

  (** Successive calls by user code such as examples/mlp_mnist.rs:74-85. *)
  Fixpoint run_cmds (c : context O) (ks : list (cmd O)) : option (context O) :=
    match ks with
    | [] => Some c
    | k :: ks =>
        match run_cmd c k with
        | None => None
        | Some (c', _) => run_cmds c' ks
        end
    end.
End Commands.
