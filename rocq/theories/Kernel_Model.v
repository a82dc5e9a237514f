(** The memory that the convolution kernels read and write through raw pointers
    (src/tensor_ops/conv_ops).  The kernels' control flow does not depend on the
    elements, so a kernel is modelled as the list of memory instructions it
    performs. *)
From Coq Require Import List Arith ZArith Bool.
Import ListNotations.
From Verif Require Import Array_Model.

(** Buffer number and position in the buffer. Pointers such as those of
    conv2d.rs:115-211, conv_ops/mod.rs:93-123. *)
Definition addr := (nat * Z)%type.

(** [*d = *s], [*d = 0], [*d += *s], and one entry of an external matrix product: [*d =
    sum of *a * *b], or [*d += ...] with beta = 1. conv_ops/mod.rs:106-109, 114, 210;
    conv2d.rs:178-203. *)
Inductive instr :=
| Copy (d s : addr)
| Zero (d : addr)
| Accum (d s : addr)
| Gemm (d : addr) (beta : bool) (l : list (addr * addr)).

(** The written pointer of conv_ops/mod.rs:104-113, 203-207. *)
Definition dest (i : instr) : addr :=
  match i with Copy d _ => d | Zero d => d | Accum d _ => d | Gemm d _ _ => d end.

Section Machine.
  Context {A : Type} (zero : A) (add mul : A -> A -> A).
  (** The vectors of conv2d.rs:143-148. *)
  Definition mem := list (list A).

  (** [None]: outside the buffer (undefined behaviour in Rust). Reads such as
      conv_ops/mod.rs:107, 210. *)
  Definition load (m : mem) (a : addr) : option A :=
    if (snd a <? 0)%Z then None
    else match nth_error m (fst a) with None => None | Some l => nth_error l (Z.to_nat (snd a)) end.
  (** Writes such as conv_ops/mod.rs:106, 109, 114, 210. *)
  Definition store (m : mem) (a : addr) (v : A) : option mem :=
    match load m a with
    | None => None
    | Some _ => Some (set_at (fst a) (set_at (Z.to_nat (snd a)) v (nth (fst a) m [])) m)
    end.

  (** One entry of the products called at conv2d.rs:178-203. *)
  Fixpoint products (m : mem) (l : list (addr * addr)) (s : A) : option A :=
    match l with
    | [] => Some s
    | (a, b) :: l =>
        match load m a, load m b with
        | Some x, Some y => products m l (add s (mul x y))
        | _, _ => None
        end
    end.
  (** The value an instruction stores. conv_ops/mod.rs:106-109, 114, 210;
      conv2d.rs:178-203. *)
  Definition value (m : mem) (i : instr) : option A :=
    match i with
    | Copy _ s => load m s
    | Zero _ => Some zero
    | Accum d s => match load m d, load m s with Some x, Some y => Some (add x y) | _, _ => None end
    | Gemm d false l => products m l zero
    | Gemm d true l => match load m d with Some x => products m l x | None => None end
    end.
  (** One instruction of conv_ops/mod.rs:104-113. *)
  Definition exec1 (m : mem) (i : instr) : option mem :=
    match value m i with Some v => store m (dest i) v | None => None end.
  (** A sequence of instructions, e.g. conv_ops/mod.rs:93-123. *)
  Fixpoint exec (m : mem) (l : list instr) : option mem :=
    match l with
    | [] => Some m
    | i :: l => match exec1 m i with Some m => exec m l | None => None end
    end.
End Machine.

(** A counted loop with loop-carried variables [S]; the body emits instructions. The
    [for] loops of conv_ops/mod.rs:94-122, 198-221. *)
Fixpoint loop {S : Type} (n i : nat) (body : nat -> S -> list instr * S) (s : S) : list instr * S :=
  match n with
  | 0 => ([], s)
  | S n => let (l, s) := body i s in let (l', s) := loop n (i + 1) body s in (l ++ l', s)
  end.

(** matrixmultiply::sgemm/dgemm (m, k, n, alpha = 1, a, rsa, csa, b, rsb, csb, beta, c,
    rsc, csc); cblas_sgemm/dgemm in row-major order are the same with the strides given
    by the leading dimensions and the transposition flags. External code: assumed to
    store the products' sums in the entries of c. Called at conv2d.rs:178-203, 308-323,
    705-720, conv2d_transpose.rs:198-213. *)
Definition gemm_call (m k n : nat) (a : addr) (rsa csa : Z) (b : addr) (rsb csb : Z) (beta : bool)
  (c : addr) (rsc csc : Z) : list instr :=
  flat_map (fun i => map (fun j =>
    Gemm (fst c, snd c + Z.of_nat i * rsc + Z.of_nat j * csc)%Z beta
      (map (fun l => ((fst a, snd a + Z.of_nat i * rsa + Z.of_nat l * csa)%Z,
                      (fst b, snd b + Z.of_nat l * rsb + Z.of_nat j * csb)%Z)) (seq 0 k)))
    (seq 0 n)) (seq 0 m).

(** What the batch items of a parallel loop can do together: any merge of their
    instruction lists that keeps each item's own order. The rayon loops of
    conv2d.rs:150-152, conv2d_transpose.rs:154-236. *)
Inductive interleaving : list (list instr) -> list instr -> Prop :=
| il_done items : Forall (fun l => l = []) items -> interleaving items []
| il_step pre i l post r :
    interleaving (pre ++ l :: post) r -> interleaving (pre ++ (i :: l) :: post) (i :: r).
