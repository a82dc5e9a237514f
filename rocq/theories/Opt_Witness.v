(** Two parameters multiplied together, and their update. *)
From Coq Require Import String List Arith ZArith Bool Reals Lia Lra.
Import ListNotations.
From Verif Require Import Graph_Model Eval_Model Eval_Spec Eval_Proofs Eval_Proofs2 Graph_Proofs Eval_Examples Var_Model Array_Model Arith_Model Opt_Model Opt_Proofs Joint_Model.

(** The operations of the model [y = w1 * w2]: variables, constants, the shape
    and the product, the sum [add_n], the reduction of a gradient to its operand's shape (the
    shape tensor only delays it, see Arith_Model.v), and the optimizers' own. *)
Inductive wop := WVar | WConst (a : arr R) | WShape | WMul | WAddN | WReduce (sh : list nat) | WOpt (o : opt_op).
Definition w_ret (o : option (arr R)) : cout (arr R) unit :=
  match o with None => CPanic | Some a => CRet [] [a] None end.
Definition w_at (a : arr R) : option R := match a_data a with x :: _ => Some x | [] => None end.
Definition w_compute (powf : R -> R -> R) (o : wop) (xs : list (opin (arr R))) : cout (arr R) unit :=
  match o with
  | WVar => CPanic
  | WConst a => CRet [] [a] None
  | WShape => w_ret (bind (input xs 0) (fun x => Some (Arr [length (a_shape x)] (map INR (a_shape x)))))
  | WMul => w_ret (bind (input xs 0) (fun a => bind (input xs 1) (fun b => mul_forward 0%R Rmult w_at a b)))
  | WAddN => addn_compute xs
  | WReduce sh => w_ret (bind (input xs 0) (fun g => bind (input xs 1) (fun _ => maybe_reduce 0%R Rplus sh g)))
  | WOpt o => opt_compute powf o xs
  end.

(** 0: w1, 1: w2, 2: y = w1 * w2, then what [grad_with_default(&[y], &[w1, w2],
    &[one])] adds: 3: one, 4: shape w1, 5: shape w2, 6: one * w2, 7: one * w1,
    8, 9: the gradients of w1 and w2. *)
Definition w_read (ids : list nat) : list incoming := map (fun i => Incoming i false 0) ids.
Definition w_build (ids : list nat) (o : wop) : cmd wop := CBuild None (w_read ids) true None o.
Definition w_cmds : list (cmd wop) :=
  [CVariable 0; CVariable 1; w_build [0; 1] WMul; w_build [] (WConst (Arr [] [1%R]));
   w_build [0] WShape; w_build [1] WShape; w_build [3; 1] WMul; w_build [3; 0] WMul;
   w_build [6; 4] (WReduce []); w_build [7; 5] (WReduce [])].
Definition w_ctx : context wop :=
  match run_cmds WVar WVar WVar (fun _ => WVar) new_context w_cmds with Some c => c | None => new_context end.
Lemma w_reachable : run_cmds WVar WVar WVar (fun _ => WVar) new_context w_cmds = Some w_ctx.
Proof. vm_compute. reflexivity. Qed.
Lemma w_good : good w_ctx.
Proof. split; [exact (reachable_ok _ _ _ _ _ _ w_reachable) | exact (reachable_plain _ _ _ _ _ _ w_reachable)]. Qed.
Lemma w_acyclic : acyclic (c_graph w_ctx).
Proof. apply acyclic_b. vm_compute. reflexivity. Qed.

Lemma w_plain i n p vid : nth_error (c_graph w_ctx) i = Some n -> ~ inplace_operand (c_graph w_ctx) n p vid.
Proof.
  assert (H : forallb (fun n => forallb (fun inc => negb (in_mut inc)) (n_inputs n)) (c_graph w_ctx) = true) by (vm_compute; reflexivity).
  rewrite forallb_forall in H. intros Hn (inc & m & Hp & Hm & _).
  apply nth_error_In in Hn. specialize (H n Hn). rewrite forallb_forall in H.
  apply nth_error_In in Hp. specialize (H inc Hp). rewrite Hm in H. discriminate.
Qed.

Section Run.
  Local Open Scope R_scope.
  Variables (powf : R -> R -> R) (lr w1 w2 : R).
  Definition w_env : env (arr R) := Env [Arr [] [w1]; Arr [] [w2]] [].
  Notation update := (update WVar WOpt (w_compute powf) false).

  Lemma w_update : exists c' e', update 100%nat (SGD lr) w_env w_ctx [0; 1]%nat [8; 9]%nat [] = Ok (c', e') /\
    array_list e' = [Arr [] [w1 - lr * (1 * (w2 - lr * (1 * w1)))]; Arr [] [w2 - lr * (1 * w1)]].
  Proof.
    eexists _, _. split.
    - cbv -[Rplus Rmult Rminus Ropp Rinv IZR INR]. reflexivity.
    - reflexivity.
  Qed.
  Lemma w_grads : exists c' oc, compute_updates WVar WOpt (SGD lr) w_env w_ctx [0; 1]%nat [8; 9]%nat = Some c' /\
    eval a_shape (w_compute powf) false (c_graph w_ctx) [] 100 [8; 9]%nat (array_list w_env) = Ok oc /\
    oc_results oc = [inl (Arr [] [1 * w2]); inl (Arr [] [1 * w1])].
  Proof.
    eexists _, _. split; [|split].
    - cbv -[Rplus Rmult Rminus Ropp Rinv IZR INR]. reflexivity.
    - cbv -[Rplus Rmult Rminus Ropp Rinv IZR INR]. reflexivity.
    - reflexivity.
  Qed.
End Run.

(** ** A training history in this graph *)
(** Parameter w1 (gradient: w2) is updated alone, twice. *)
Definition w_opts : list optimizer :=
  [SGD (1/2); MomentumSGD (1/2) (1/2) "opt"; AdaGrad (1/2) "opt"; Adam (1/2) (1/8) (1/2) (1/4) "opt"]%R.
Definition w_start : env (arr R) := w_env 3 2.
Definition w_created (opt : optimizer) : env (arr R) :=
  match opt_new opt [0; 1] w_start with Some e => e | None => w_start end.
Definition w_after (opt : optimizer) (e : env (arr R)) : env (arr R) :=
  match update WVar WOpt (w_compute Rpower) false 100 opt e w_ctx [0] [8] [] with Ok (_, e') => e' | _ => e end.
Lemma w_trained opt : In opt w_opts ->
  opt_new opt [0; 1] w_start = Some (w_created opt) /\
  update WVar WOpt (w_compute Rpower) false 100 opt (w_created opt) w_ctx [0] [8] [] =
    Ok (match compute_updates WVar WOpt opt (w_created opt) w_ctx [0] [8] with Some (c, _) => c | None => w_ctx end, w_after opt (w_created opt)) /\
  update WVar WOpt (w_compute Rpower) false 100 opt (w_after opt (w_created opt)) w_ctx [0] [8] [] =
    Ok (match compute_updates WVar WOpt opt (w_created opt) w_ctx [0] [8] with Some (c, _) => c | None => w_ctx end, w_after opt (w_after opt (w_created opt))).
Proof.
  intros H. simpl in H. repeat destruct H as [<-|H]; [| | | |destruct H];
    (split; [reflexivity|]; split; cbv -[Rplus Rmult Rminus Ropp Rinv IZR INR sqrt Rpower]; reflexivity).
Qed.
