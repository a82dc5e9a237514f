(** What an evaluation is supposed to do, stated without the traversal, the
    stack or the result cache of the implementation. *)
From Coq Require Import String List Arith ZArith Bool Relations.
Import ListNotations.
From Verif Require Import Graph_Model Eval_Model.

Section EvalSpec.
  Context {O V E : Type}.
  Variable shape_of : V -> list nat.
  Variable compute : O -> list (opin V) -> cout V E.
  Variable debug : bool.
  Variable g : graph O.
  Variable feeds : list (ph_key * V).

  (** ** Graph notions *)

  (** A computed tensor: neither a variable nor a placeholder. *)
  Definition op_node (i : nat) (n : node O) : Prop :=
    nth_error g i = Some n /\ n_ph n = None /\ n_var n = None.
  Definition computed (i : nat) : Prop := exists n, op_node i n.

  (** [reads_from i j]: tensor [i] has tensor [j] among its inputs. *)
  Definition reads_from (i j : nat) : Prop :=
    exists n inc, nth_error g i = Some n /\ In inc (n_inputs n) /\ in_id inc = j.
  (** [depends_on i j]: reflexive and transitive closure. *)
  Definition depends : nat -> nat -> Prop := clos_refl_trans nat reads_from.
  (** Acyclic: no tensor depends on itself through one or more edges. *)
  Definition acyclic : Prop := forall i, ~ clos_trans nat reads_from i i.

  (** The tensors whose operations an evaluation of [targets] needs. *)
  Definition needed (targets : list nat) (i : nat) : Prop :=
    computed i /\ exists t, In t targets /\ depends t i.

  (** Well-formed graphs: edges point to existing tensors; variables and
      placeholders have no inputs. *)
  Definition wf_graph : Prop :=
    (forall i j, reads_from i j -> j < length g) /\
    (forall i n, nth_error g i = Some n -> is_variable n || is_placeholder n = true ->
                 n_inputs n = []).

  (** ** Placeholders *)
  Definition feed_matches (id : nat) (name : string) (k : ph_key) : Prop :=
    match k with KId j => id = j | KName s => name = s end.
  (** A shape fits a declaration: same rank, and every positive declared
      dimension is met. *)
  Definition shape_fits (declared : list Z) (shape : list nat) : Prop :=
    length declared = length shape /\
    forall p d u, nth_error declared p = Some d -> nth_error shape p = Some u ->
                  (0 < d)%Z -> d = Z.of_nat u.
  (** [fed id n v]: the first feed for the placeholder carries [v], and [v]
      has an acceptable shape. *)
  Definition fed (id : nat) (n : node O) (v : V) : Prop :=
    exists name pre k post declared,
      n_ph n = Some name /\
      feeds = pre ++ (k, v) :: post /\
      feed_matches id name k /\
      (forall k' v', In (k', v') pre -> ~ feed_matches id name k') /\
      n_known n = Some declared /\
      shape_fits declared (shape_of v).

  (** ** Sequential executions *)
  Definition results := nat -> option (list V + E).

  (** Reading one input when [s] holds the finished results and [env] the variables. *)
  Inductive read (s : results) (env : list V) (inc : incoming) : opin V -> Prop :=
  | read_ph n v : nth_error g (in_id inc) = Some n -> fed (in_id inc) n v ->
      read s env inc (NonVar v)
  | read_var n vid v : nth_error g (in_id inc) = Some n -> n_ph n = None -> n_var n = Some vid ->
      nth_error env vid = Some v ->
      read s env inc (if in_mut inc then RdWr v else RdOnly v)
  | read_op n ys v : op_node (in_id inc) n -> s (in_id inc) = Some (inl ys) ->
      nth_error ys (in_sel inc) = Some v ->
      read s env inc (NonVar v).
  (** An input that failed. *)
  Definition failed (s : results) (inc : incoming) (e : E) : Prop :=
    exists n, op_node (in_id inc) n /\ s (in_id inc) = Some (inr e).

  (** The variable an in-place write to input position [p] of [n] changes. *)
  Definition inplace_operand (n : node O) (p vid : nat) : Prop :=
    exists inc m, nth_error (n_inputs n) p = Some inc /\ in_mut inc = true /\
                  nth_error g (in_id inc) = Some m /\ n_ph m = None /\ n_var m = Some vid.
  (** [updated n ws env env']: [env'] is [env] after the in-place writes [ws], in order. *)
  Inductive updated (n : node O) : list (nat * V) -> list V -> list V -> Prop :=
  | upd_nil env : updated n [] env env
  | upd_write p v ws vid env env1 env2 :
      inplace_operand n p vid ->
      length env1 = length env ->
      (forall k, nth_error env1 k = if (k =? vid)%nat
                                    then option_map (fun _ => v) (nth_error env k)
                                    else nth_error env k) ->
      updated n ws env1 env2 -> updated n ((p, v) :: ws) env env2
  | upd_other p v ws env env2 :
      (forall vid, ~ inplace_operand n p vid) ->
      updated n ws env env2 -> updated n ((p, v) :: ws) env env2.

  Definition set_result (s : results) (i : nat) (r : list V + E) : results :=
    fun k => if (k =? i)%nat then Some r else s k.

  (** Executing tensors one after the other, each at most once, starting from
      the variables [env0]. *)
  Inductive execution (env0 : list V) : list (@event V) -> results -> list V -> Prop :=
  | ex_start : execution env0 [] (fun _ => None) env0
  | ex_run log s env i n xs ws ys status env' :
      execution env0 log s env -> s i = None -> op_node i n ->
      Forall2 (read s env) (n_inputs n) xs ->
      compute (n_op n) xs = CRet ws ys status ->
      (debug = true -> ys <> []) ->
      updated n ws env env' ->
      execution env0 (log ++ [Ran i xs])
        (set_result s i (match status with None => inl ys | Some e => inr e end)) env'
  | ex_skip log s env i n pre inc post e :
      execution env0 log s env -> s i = None -> op_node i n ->
      n_inputs n = pre ++ inc :: post ->
      (forall a, In a pre -> exists x, read s env a x) ->
      failed s inc e ->
      execution env0 (log ++ [Skipped i]) (set_result s i (inr e)) env.

  (** What is returned for one target, given the final results and variables. *)
  Inductive target_result (s : results) (env : list V) (t : nat) : V + E -> Prop :=
  | tr_var n vid v : nth_error g t = Some n -> n_var n = Some vid -> nth_error env vid = Some v ->
      target_result s env t (inl v)
  | tr_ph n v : nth_error g t = Some n -> n_var n = None -> fed t n v ->
      target_result s env t (inl v)
  | tr_ok n y ys : op_node t n -> s t = Some (inl (y :: ys)) -> target_result s env t (inl y)
  | tr_err n e : op_node t n -> s t = Some (inr e) -> target_result s env t (inr e).

  (** ** The mathematical value of a tensor, for graphs without in-place updates *)
  Definition no_inplace (targets : list nat) : Prop :=
    forall i n p vid, needed targets i -> nth_error g i = Some n -> ~ inplace_operand n p vid.

  Section Pure.
    Variable env : list V.
    (** [value i r]: recursively applying operations gives [r] at computed tensor [i]. *)
    Inductive value : nat -> list V + E -> Prop :=
    | value_run i n xs ws ys status :
        op_node i n -> Forall2 arg (n_inputs n) xs ->
        compute (n_op n) xs = CRet ws ys status ->
        (debug = true -> ys <> []) ->
        value i (match status with None => inl ys | Some e => inr e end)
    | value_fail i n pre inc post m e :
        op_node i n -> n_inputs n = pre ++ inc :: post ->
        (forall a, In a pre -> exists x, arg a x) ->
        op_node (in_id inc) m -> value (in_id inc) (inr e) ->
        value i (inr e)
    with arg : incoming -> opin V -> Prop :=
    | arg_ph inc n v : nth_error g (in_id inc) = Some n -> fed (in_id inc) n v -> arg inc (NonVar v)
    | arg_var inc n vid v : nth_error g (in_id inc) = Some n -> n_ph n = None -> n_var n = Some vid ->
        nth_error env vid = Some v -> arg inc (if in_mut inc then RdWr v else RdOnly v)
    | arg_op inc n ys v : op_node (in_id inc) n -> value (in_id inc) (inl ys) ->
        nth_error ys (in_sel inc) = Some v -> arg inc (NonVar v).

    (** The value of a requested tensor. *)
    Inductive tensor_value (t : nat) : V + E -> Prop :=
    | tv_var n vid v : nth_error g t = Some n -> n_var n = Some vid -> nth_error env vid = Some v ->
        tensor_value t (inl v)
    | tv_ph n v : nth_error g t = Some n -> n_var n = None -> fed t n v -> tensor_value t (inl v)
    | tv_ok y ys : value t (inl (y :: ys)) -> tensor_value t (inl y)
    | tv_err e : value t (inr e) -> tensor_value t (inr e).
  End Pure.
End EvalSpec.
