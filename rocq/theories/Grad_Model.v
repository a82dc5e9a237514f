(** Reverse-mode differentiation.  Models src/gradient.rs and the callers
    [grad], [grad_with_default] of src/tensor_ops/mod.rs.

    The gradient rules of the operations ([Op::grad]) and the tensors they build
    are parameters: [T] is the type of tensor handles, [S] the state of the graph
    under construction.  Only the structure of tensors that existed before the
    call is read by the algorithm, so the graph [g] it walks over is fixed. *)
From Coq Require Import String List Arith ZArith Bool.
Import ListNotations.
From Verif Require Import Graph_Model Eval_Model.

Section Grad.
  Context {O S T : Type}.
  Variable g : graph O.
  (** src/op.rs:365-380 [compute_input_grads]: calls [Op::grad] of a tensor with
      its output gradient; [None] is a panic inside the rule. *)
  Variable opgrad : nat -> T -> S -> option (list (option T) * S).
  (** src/tensor_ops/mod.rs:831-847 [add_n], for two or more tensors. *)
  Variable addn : list T -> S -> option (T * S).
  (** src/gradient.rs:39 [scalar(1)]. *)
  Variable one : S -> option (T * S).
  (** src/tensor_ops/mod.rs:111,150 [zeros(&x.shape())]. *)
  Variable zeros_like : nat -> S -> option (T * S).
  (** [BinaryHeap::pop] on the queued tensor ids: some entry of maximal rank;
      which of several is not specified by the standard library. *)
  Variable pop : list nat -> option (nat * list nat).
  Variable debug : bool.

  (** ** The tensors between ys and xs *)

  (** src/gradient.rs:188-199 [is_given_xs]. *)
  Definition is_given_xs (i : nat) (xs : list nat) : bool := existsb (fun x => (x =? i)%nat) xs.

  (** src/gradient.rs:126-129: the map of [GradientInfo]s, here only their [on_path]
      flags. *)
  Definition pathmap := nat -> option bool.
  (** src/gradient.rs:223, 241: [insert] into the map. *)
  Definition pm_insert (m : pathmap) (k : nat) (b : bool) : pathmap :=
    fun i => if (i =? k)%nat then Some b else m i.

  (** src/gradient.rs:177-185 [has_child_on_path]; [None]: the unwrap fails. *)
  Fixpoint has_child_on_path (children : list incoming) (m : pathmap) : option bool :=
    match children with
    | [] => Some false
    | c :: rest =>
        match m (in_id c) with
        | None => None
        | Some true => Some true
        | Some false => has_child_on_path rest m
        end
    end.

  (** src/gradient.rs:229-244: the loop over the children of [curr]. *)
  Fixpoint push_path_children (xs : list nat) (curr : nat) (children : list incoming)
    (stack : list (nat * bool)) (m : pathmap) : res (list (nat * bool) * pathmap) :=
    match children with
    | [] => Ok (stack, m)
    | c :: rest =>
        match nth_error g (in_id c) with
        | None => Panic
        | Some n =>
            match m curr with
            | Some _ => push_path_children xs curr rest stack m
            | None =>
                if is_source n || negb (n_diff n)
                then push_path_children xs curr rest stack
                       (pm_insert m (in_id c) (n_diff n && is_given_xs (in_id c) xs))
                else push_path_children xs curr rest ((in_id c, false) :: stack) m
            end
        end
    end.

  (** src/gradient.rs:218-246: one iteration; the stack is listed top first. *)
  Definition path_step (xs : list nat) (stack : list (nat * bool)) (m : pathmap)
    : res (option (list (nat * bool) * pathmap)) :=
    match stack with
    | [] => Ok None
    | (i, visit) :: rest =>
        match nth_error g i with
        | None => Panic
        | Some n =>
            if visit then
              let on_path :=
                if n_diff n then
                  if is_given_xs i xs then Some true
                  else has_child_on_path (get_backprop_inputs n) m
                else Some false in
              match on_path with
              | None => Panic
              | Some b => Ok (Some (rest, pm_insert m i b))
              end
            else
              match push_path_children xs i (get_backprop_inputs n) ((i, true) :: rest) m with
              | Ok r => Ok (Some r)
              | Panic => Panic
              | OutOfFuel => OutOfFuel
              end
        end
    end.

  (** src/gradient.rs:218-246: the loop, with fuel. *)
  Fixpoint path_loop (xs : list nat) (fuel : nat) (stack : list (nat * bool)) (m : pathmap) : res pathmap :=
    match fuel with
    | 0 => OutOfFuel
    | Datatypes.S fuel =>
        match path_step xs stack m with
        | Ok None => Ok m
        | Ok (Some (stack', m')) => path_loop xs fuel stack' m'
        | Panic => Panic
        | OutOfFuel => OutOfFuel
        end
    end.

  (** src/gradient.rs:203-248 [init_gradient_map]. *)
  Definition init_path_map (fuel : nat) (ys xs : list nat) : res pathmap :=
    path_loop xs fuel (rev (map (fun y => (y, false)) ys)) (fun _ => None).

  (** ** Accumulation *)

  (** src/gradient.rs:126-156 [GradientMap], [GradientInfo]. *)
  Record info := Info { on_path : bool; grads : list T }.
  (** src/gradient.rs:126-129 [GradientMap]. *)
  Definition gradmap := nat -> option info.
  (** src/gradient.rs:147-173: changing an entry. *)
  Definition gm_set (m : gradmap) (k : nat) (x : info) : gradmap :=
    fun i => if (i =? k)%nat then Some x else m i.
  (** src/gradient.rs:160-166 [GradientInfo::new]: no gradients yet. *)
  Definition gm_init (m : pathmap) : gradmap := fun i => option_map (fun b => Info b []) (m i).

  (** src/gradient.rs:147-149 [push_grad]; [None]: the unwrap fails. *)
  Definition push_grad (m : gradmap) (k : nat) (t : T) : option gradmap :=
    match m k with
    | None => None
    | Some x => Some (gm_set m k (Info (on_path x) (grads x ++ [t])))
    end.

  (** src/gradient.rs:168-173 [GradientInfo::gradient]: note that the summands
      stay in the list. *)
  Definition gradient (l : list T) (s : S) : option (T * list T * S) :=
    match l with
    | [] => None
    | [t] => Some (t, [t], s)
    | _ :: rest =>
        match addn l s with
        | None => None
        | Some (t, s') => Some (t, t :: rest, s')
        end
    end.

  (** src/gradient.rs:45-51: the variables of the main loop. *)
  Record gstate := GState {
    gs_map  : gradmap;
    gs_heap : list nat;
    gs_s    : S;
    gs_log  : list nat     (* tensors whose rule was called, latest first; not in the code *)
  }.

  (** src/gradient.rs:67-80: registering the input gradients of one tensor. *)
  Fixpoint register (children : list incoming) (gxs : list (option T)) (m : gradmap) (heap : list nat)
    : option (gradmap * list nat) :=
    match children, gxs with
    | c :: children, gx :: gxs =>
        match nth_error g (in_id c), m (in_id c) with
        | Some n, Some x =>
            if on_path x then
              match gx with
              | None => register children gxs m heap
              | Some t =>
                  match push_grad m (in_id c) t with
                  | None => None
                  | Some m' =>
                      register children gxs m'
                        (if negb (is_source n) && match grads x with [] => true | _ => false end
                         then in_id c :: heap else heap)
                  end
              end
            else register children gxs m heap
        | _, _ => None
        end
    | _, _ => Some (m, heap)
    end.

  (** src/gradient.rs:52-81: one iteration of the main loop.  The two debug
      assertions (op.rs:375, gradient.rs:61) fire when [debug] is set. *)
  Definition back_step (st : gstate) : res (option gstate) :=
    match pop (gs_heap st) with
    | None => Ok None
    | Some (y, heap) =>
        match nth_error g y, gs_map st y with
        | Some n, Some x =>
            match gradient (grads x) (gs_s st) with
            | None => Panic
            | Some (gy, l', s1) =>
                match opgrad y gy s1 with
                | None => Panic
                | Some (gxs, s2) =>
                    if debug && (negb (length (get_backprop_inputs n) =? length gxs)%nat
                                 || match gxs with [] => true | _ => false end)
                    then Panic
                    else
                      match register (get_backprop_inputs n) gxs
                              (gm_set (gs_map st) y (Info (on_path x) l')) heap with
                      | None => Panic
                      | Some (m', heap') => Ok (Some (GState m' heap' s2 (y :: gs_log st)))
                      end
                end
            end
        | _, _ => Panic
        end
    end.

  (** src/gradient.rs:52-81: the main loop, with fuel. *)
  Fixpoint back_loop (fuel : nat) (st : gstate) : res gstate :=
    match fuel with
    | 0 => OutOfFuel
    | Datatypes.S fuel =>
        match back_step st with
        | Ok None => Ok st
        | Ok (Some st') => back_loop fuel st'
        | Panic => Panic
        | OutOfFuel => OutOfFuel
        end
    end.

  (** src/gradient.rs:33-43: the default gradients. *)
  Fixpoint push_seeds (ys : list nat) (gys : list T) (m : gradmap) : option gradmap :=
    match ys, gys with
    | y :: ys, gy :: gys =>
        match push_grad m y gy with
        | None => None
        | Some m' => push_seeds ys gys m'
        end
    | _, _ => Some m
    end.

  (** src/gradient.rs:20-84 [compute_gradients]. *)
  Definition compute_gradients (fuel : nat) (ys xs : list nat) (gys : option (list T)) (s : S)
    : res gstate :=
    match init_path_map fuel ys xs with
    | Ok pm =>
        let seeds :=
          match gys with
          | Some l => if (length ys =? length l)%nat then Some (l, s) else None
          | None =>
              match one s with
              | Some (t, s') => Some (map (fun _ => t) ys, s')
              | None => None
              end
          end in
        match seeds with
        | None => Panic
        | Some (l, s1) =>
            match push_seeds ys l (gm_init pm) with
            | None => Panic
            | Some m => back_loop fuel (GState m ys s1 [])
            end
        end
    | Panic => Panic
    | OutOfFuel => OutOfFuel
    end.

  (** src/gradient.rs:131-139 [extract_grad]: outer [None] is a panic. *)
  Definition extract_grad (m : gradmap) (x : nat) (s : S) : option (option T * gradmap * S) :=
    match m x with
    | None => Some (None, m, s)
    | Some inf =>
        if on_path inf then
          match gradient (grads inf) s with
          | None => None
          | Some (t, l', s') => Some (Some t, gm_set m x (Info true l'), s')
          end
        else Some (None, m, s)
    end.

  (** src/tensor_ops/mod.rs:104-113, 142-151: the loop over xs.  Besides the
      tensors, which of them came from [extract_grad] is returned. *)
  Fixpoint extract_all (xs : list nat) (m : gradmap) (s : S) : option (list (T * bool) * S) :=
    match xs with
    | [] => Some ([], s)
    | x :: xs =>
        match extract_grad m x s with
        | None => None
        | Some (Some t, m', s') =>
            match extract_all xs m' s' with
            | None => None
            | Some (l, s2) => Some ((t, true) :: l, s2)
            end
        | Some (None, m', s') =>
            match zeros_like x s' with
            | None => None
            | Some (t, s1) =>
                match extract_all xs m' s1 with
                | None => None
                | Some (l, s2) => Some ((t, false) :: l, s2)
                end
            end
        end
    end.

  (** src/tensor_ops/mod.rs:101, 141: [ys[0]] panics when there is none. *)
  Definition no_outputs (ys : list nat) : bool := match ys with [] => true | _ => false end.
  (** src/tensor_ops/mod.rs:94-153 [grad] (with [gys = None], on the
      [sum_all]-wrapped ys) and [grad_with_default]. *)
  Definition grad_with_default (fuel : nat) (ys xs : list nat) (gys : option (list T)) (s : S)
    : res (list (T * bool) * S * list nat) :=
    if no_outputs ys then Panic else
    match compute_gradients fuel ys xs gys s with
    | Ok st =>
        match extract_all xs (gs_map st) (gs_s st) with
        | Some (l, s') => Ok (l, s', gs_log st)
        | None => Panic
        end
    | Panic => Panic
    | OutOfFuel => OutOfFuel
    end.
End Grad.
Arguments Info {T}. Arguments on_path {T}. Arguments grads {T}.
Arguments GState {S T}. Arguments gs_map {S T}. Arguments gs_heap {S T}.
Arguments gs_s {S T}. Arguments gs_log {S T}.

(** src/tensor_ops/mod.rs:242-252 [stop_gradient]; [stop_op] is
    src/tensor_ops/gradient_ops.rs:4-16 [StopGradient]. *)
Definition stop_gradient {O} (stop_op : O) (g : graph O) (x : nat) : option (graph O * nat) :=
  build g (set_differentiable (append_input new_builder x false 0) false) stop_op.
