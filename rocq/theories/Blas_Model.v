(** The builds with the cargo features [blas] and [intel-mkl] (Cargo.toml:37-41): matrix
    products through cblas (src/tensor_ops/dot_ops.rs, conv_ops/*.rs) and elementwise
    functions through Intel's vector math library (src/tensor_ops/math_ops.rs). Both hand
    raw pointers to foreign code, so operands are views here: memory, pointer, shape and
    strides.

    Simplifications: elements are numbers of any kind with [add] and [mul] (no rounding);
    element types other than [f32] and [f64] are not considered (the trait [Float] has no
    other instances in use). The feature [mkl] that some [cfg]s name does not exist
    in Cargo.toml, so the code behind it is never compiled. *)
From Coq Require Import List Arith ZArith Bool.
Import ListNotations.
From Verif Require Import Array_Model Dot_Model Batch_Model.

(** [as i32] (BlasIF, src/tensor_ops/blas_ffi.rs:15). *)
Definition wrap32 (z : Z) : Z := ((z + 2147483648) mod 4294967296 - 2147483648)%Z.

(** dot_ops.rs:106-129 is_blas_2d with [MemoryOrder::C]. The body of is_blas_nd
    (dot_ops.rs:82-103) is the same; see [is_blas_nd] for its arguments. *)
Definition is_blas_2d (m n : nat) (s0 s1 : Z) : bool :=
  ((s1 =? 1)%Z || (n =? 1)) &&
  negb ((s0 <? 1)%Z || (s1 <? 1)%Z) &&
  negb ((2147483647 <? s0)%Z || (s0 <? -2147483648)%Z || (2147483647 <? s1)%Z || (s1 <? -2147483648)%Z) &&
  negb ((2147483647 <? Z.of_nat m)%Z || (2147483647 <? Z.of_nat n)%Z).

(** dot_ops.rs:82-103 is_blas_nd as called at dot_ops.rs:33-48, 64-79: the strides are those of
    the last two axes, the dimensions (line 83) those of the first two. *)
Definition is_blas_nd (sh : list nat) (s0 s1 : Z) : bool := is_blas_2d (nth 0 sh 0) (nth 1 sh 0) s0 s1.

Section Blas.
  Context {A : Type} (zero : A) (add mul : A -> A -> A).

  (** [ArrayView2] (dot_ops.rs:13): strides may be negative. *)
  Record mview := MView { m_mem : Z -> A; m_ptr : Z; m_rows : nat; m_cols : nat; m_rs : Z; m_cs : Z }.

  (** ndarray indexing of a 2-D view (dot_ops.rs:390-392 takes the pointer apart). *)
  Definition melem (v : mview) (i j : nat) : A := m_mem v (m_ptr v + Z.of_nat i * m_rs v + Z.of_nat j * m_cs v)%Z.
  (** [reversed_axes] and [swap_axes(0, 1)], dot_ops.rs:169-181, 574-579. *)
  Definition mrev (v : mview) : mview := MView (m_mem v) (m_ptr v) (m_cols v) (m_rows v) (m_cs v) (m_rs v).

  (** Writing to memory, by the foreign kernels called at dot_ops.rs:206-222, 399-414. *)
  Definition write (mem : Z -> A) (a : Z) (x : A) : Z -> A := fun b => if (b =? a)%Z then x else mem b.
  (** Foreign code (dot_ops.rs:206-222, 399-414): all entries of the product stored, added to
      the old contents if beta is 1 ([acc]). *)
  Definition store (acc : bool) (mem : Z -> A) (base rs cs : Z) (m n : nat) (f : nat -> nat -> A) : Z -> A :=
    fold_left (fun mem ij =>
                 let a := (base + Z.of_nat (fst ij) * rs + Z.of_nat (snd ij) * cs)%Z in
                 write mem a (if acc then add (mem a) (f (fst ij) (snd ij)) else f (fst ij) (snd ij)))
              (list_prod (seq 0 m) (seq 0 n)) mem.

  (** [matrixmultiply::sgemm]/[dgemm] with alpha = 1 and beta = 0 or 1 ([acc]), called at
      dot_ops.rs:399-414. *)
  Definition mm_gemm (m k n : nat) (am : Z -> A) (ap rsa csa : Z) (bm : Z -> A) (bp rsb csb : Z)
    (acc : bool) (cm : Z -> A) (cp rsc csc : Z) : Z -> A :=
    store acc cm cp rsc csc m n
      (gemm zero add mul k (fun i l => am (ap + Z.of_nat i * rsa + Z.of_nat l * csa)%Z)
                           (fun l j => bm (bp + Z.of_nat l * rsb + Z.of_nat j * csb)%Z)).

  (** [cblas_sgemm]/[cblas_dgemm] with [CblasRowMajor], called at dot_ops.rs:206-222, 350-367: [ta], [tb] for
      [CblasTrans]; [None]: a parameter is illegal, which the library reports. *)
  Definition cblas_gemm (ta tb : bool) (m n k : Z) (am : Z -> A) (ap lda : Z) (bm : Z -> A) (bp ldb : Z)
    (acc : bool) (cm : Z -> A) (cp ldc : Z) : option (Z -> A) :=
    if ((0 <=? m) && (0 <=? n) && (0 <=? k) && (Z.max 1 (if ta then m else k) <=? lda)
        && (Z.max 1 (if tb then k else n) <=? ldb) && (Z.max 1 n <=? ldc))%Z
    then Some (store acc cm cp ldc 1 (Z.to_nat m) (Z.to_nat n)
           (gemm zero add mul (Z.to_nat k)
              (fun i l => am (if ta then ap + Z.of_nat l * lda + Z.of_nat i else ap + Z.of_nat i * lda + Z.of_nat l)%Z)
              (fun l j => bm (if tb then bp + Z.of_nat j * ldb + Z.of_nat l else bp + Z.of_nat l * ldb + Z.of_nat j)%Z)))
    else None.

  (** dot_ops.rs:383-422 mat_mul_impl_slow; [c] with its memory; the new memory. *)
  Definition mat_mul_slow (lhs rhs c : mview) : Z -> A :=
    mm_gemm (m_rows lhs) (m_cols lhs) (m_cols rhs)
      (m_mem lhs) (m_ptr lhs) (m_rs lhs) (m_cs lhs) (m_mem rhs) (m_ptr rhs) (m_rs rhs) (m_cs rhs)
      false (m_mem c) (m_ptr c) (m_rs c) (m_cs c).

  (** dot_ops.rs:184-227: the checks and the call of the kernel; [lt], [rt] are the
      flags [lhs_trans], [rhs_trans]; outer [None]: not row-major, no call. *)
  Definition blas_call (lhs rhs c : mview) (lt rt : bool) : option (option (Z -> A)) :=
    if is_blas_2d (m_rows lhs) (m_cols lhs) (m_rs lhs) (m_cs lhs)
       && is_blas_2d (m_rows rhs) (m_cols rhs) (m_rs rhs) (m_cs rhs)
       && is_blas_2d (m_rows c) (m_cols c) (m_rs c) (m_cs c)
    then
      let m := if lt then m_cols lhs else m_rows lhs in
      let k := if lt then m_rows lhs else m_cols lhs in
      let n := if rt then m_rows rhs else m_cols rhs in
      let ld (v : mview) (x : nat) := Z.max (wrap32 (m_rs v)) (wrap32 (Z.of_nat x)) in
      Some (cblas_gemm lt rt (wrap32 (Z.of_nat m)) (wrap32 (Z.of_nat n)) (wrap32 (Z.of_nat k))
              (m_mem lhs) (m_ptr lhs) (ld lhs k) (m_mem rhs) (m_ptr rhs) (ld rhs n)
              false (m_mem c) (m_ptr c) (ld c n))
    else None.

  (** dot_ops.rs:142-234 mat_mul_impl_blas. *)
  Definition mat_mul_blas (lhs rhs c : mview) : option (Z -> A) :=
    let m := m_rows lhs in let a := m_cols lhs in let n := m_cols rhs in
    if negb ((7 <? m) || (7 <? n) || (7 <? a)) then Some (mat_mul_slow lhs rhs c)
    else
      let call :=
        if (m_rs lhs =? 1)%Z && (m_rs rhs =? 1)%Z then blas_call (mrev rhs) (mrev lhs) (mrev c) false false
        else if (m_rs lhs =? 1)%Z && (m =? a) then blas_call (mrev lhs) rhs c true false
        else if (m_rs rhs =? 1)%Z && (a =? n) then blas_call lhs (mrev rhs) c false true
        else blas_call lhs rhs c false false in
      match call with
      | Some r => r
      | None => Some (mat_mul_slow lhs rhs c)
      end.

  (** dot_ops.rs:565-606 MatMul::compute on 2-D views; [blas]: the cargo feature; [junk]: the contents of the
      new array before it is written. Overflow of m*n is not modelled. *)
  Definition matmul_views (blas ta tb : bool) (junk : Z -> A) (a b : mview) : res (arr A) :=
    let a := if ta then mrev a else a in
    let b := if tb then mrev b else b in
    let m := m_rows a in let n := m_cols b in
    if negb (m_cols a =? m_rows b) then OpErr
    else
      let column_major := (m_rs a =? 1)%Z && (m_rs b =? 1)%Z in
      let '(rs, cs) := if m * n =? 0 then (0, 0)%Z
                       else if column_major then (1, Z.of_nat m)%Z else (Z.of_nat n, 1)%Z in
      let c := MView junk 0%Z m n rs cs in
      match (if blas then mat_mul_blas a b c else Some (mat_mul_slow a b c)) with
      | None => Panic
      | Some mem => Ok (tab [m; n] (fun i => melem (MView mem 0%Z m n rs cs) (nth 0 i 0) (nth 1 i 0)))
      end.

  (** ** Batches of matrices *)

  (** src/ndarray_ext.rs:107-111 deep_copy. *)
  Definition deep_copy (x : view A) : view A :=
    View (a_data (contents zero x)) 0 (v_shape x) (std_strides (v_shape x)).

  (** dot_ops.rs:309-322: a batch of matrices as the kernel sees it: shape, last two strides. *)
  Definition nd_ok (sh strides : list nat) : bool :=
    is_blas_nd sh (Z.of_nat (nth (length strides - 2) strides 0)) (Z.of_nat (nth (length strides - 1) strides 0)).

  (** The length of rayon's [par_iter().step_by(size)], dot_ops.rs:345-347. *)
  Definition steps (len size : nat) : nat := (len + (size - 1)) / size.

  (** dot_ops.rs:238-380 batch_mat_mul_impl_fast, called with the shapes that BatchMatMul::compute
      has checked. Batch [b] of an operand starts [b * (size of one matrix)] elements
      after the pointer, here the pointer of the copy if there is one. The result is
      the row-major array [c]; [junk] is what it holds before. *)
  Definition batch_fast (junk : nat -> A) (x0 x1 : view A) : res (arr A) :=
    match requires_copy (v_strides x0), requires_copy (v_strides x1) with
    | Some c0, Some c1 =>
        let r := length (v_shape x0) in
        let m := nth (r - 2) (v_shape x0) 0 in
        let a := nth (r - 1) (v_shape x0) 0 in
        let n := nth (r - 1) (v_shape x1) 0 in
        let ret := firstn (r - 2) (v_shape x0) ++ [m; n] in
        let size0 := prod (skipn (r - 2) (v_shape x0)) in
        let size1 := prod (skipn (r - 2) (v_shape x1)) in
        let size2 := prod (skipn (r - 2) ret) in
        let l := if c0 then deep_copy x0 else x0 in
        let h := if c1 then deep_copy x1 else x1 in
        let ls0 := nth (r - 2) (v_strides l) 0 in
        let hs0 := nth (r - 2) (v_strides h) 0 in
        let both := (ls0 =? 1) && (hs0 =? 1) in
        let lt := negb both && (ls0 =? 1) && (m =? a) in
        let ht := negb both && negb lt && (hs0 =? 1) && (a =? n) in
        let l' := if both then vswap h else if lt then vswap l else l in
        let h' := if both then vswap l else if ht then vswap h else h in
        let csh := if both then swap_last ret else ret in
        let cst := if both then swap_last (std_strides ret) else std_strides ret in
        if nd_ok (v_shape l') (v_strides l') && nd_ok (v_shape h') (v_strides h') && nd_ok csh cst then
          let m' := if lt then nth (r - 1) (v_shape l') 0 else nth (r - 2) (v_shape l') 0 in
          let k' := if lt then nth (r - 2) (v_shape l') 0 else nth (r - 1) (v_shape l') 0 in
          let n' := if ht then nth (r - 2) (v_shape h') 0 else nth (r - 1) (v_shape h') 0 in
          let ld (s x : nat) := Z.max (wrap32 (Z.of_nat s)) (wrap32 (Z.of_nat x)) in
          let lda := ld (nth (r - 2) (v_strides l') 0) k' in
          let ldb := ld (nth (r - 2) (v_strides h') 0) n' in
          let ldc := ld (nth (r - 2) cst 0) n' in
          (* if both: the operands have been exchanged, but not the sizes of the steps, lines 256-257, 345-346 *)
          if (size0 =? 0) || (size1 =? 0) || (size2 =? 0) then Panic
          else
            let nl := steps (prod (v_shape l')) size0 in
            let nh := steps (prod (v_shape h')) size1 in
            if negb ((nl =? nh) && (nl =? steps (prod csh) size2)) then Panic (* zip_eq, line 349 *)
            else
              let mem (v : view A) (p : Z) := nth (Z.to_nat p) (v_mem v) zero in
              let step (cm : option (Z -> A)) (b : nat) :=
                match cm with
                | None => None
                | Some cm =>
                    cblas_gemm lt ht (wrap32 (Z.of_nat m')) (wrap32 (Z.of_nat n')) (wrap32 (Z.of_nat k'))
                      (mem l') (Z.of_nat (v_off l' + b * size0)) lda
                      (mem h') (Z.of_nat (v_off h' + b * size1)) ldb
                      false cm (Z.of_nat (b * size2)) ldc
                end in
              match fold_left step (seq 0 nl) (Some (fun p => junk (Z.to_nat p))) with
              | None => Panic
              | Some cm => Ok (Arr ret (map (fun p => cm (Z.of_nat p)) (seq 0 (prod ret))))
              end
        else batch_kernel zero add mul x0 x1
    | _, _ => Panic
    end.

  (** dot_ops.rs:632-695 BatchMatMul::compute with the feature [blas]. *)
  Definition batch_matmul_blas (junk : nat -> A) (ta tb : bool) (x0 x1 : view A) : res (arr A) :=
    let r0 := length (v_shape x0) in let r1 := length (v_shape x1) in
    if (r0 <? 2) || (r1 <? 2) then OpErr
    else let x0 := if ta then vswap x0 else x0 in
         let x1 := if tb then vswap x1 else x1 in
         if (r0 =? r1) && shape_eqb (firstn (r0 - 2) (v_shape x0)) (firstn (r0 - 2) (v_shape x1))
         then batch_fast junk x0 x1
         else OpErr.

  (** dot_ops.rs:697-717 BatchMatMul::grad with the feature [blas]. *)
  Definition batch_blas_grad_a (junk : nat -> A) (x1 gy : view A) : res (arr A) := batch_matmul_blas junk false true gy x1.
  (** dot_ops.rs:697-717: the gradient of the second operand. *)
  Definition batch_blas_grad_b (junk : nat -> A) (x0 gy : view A) : res (arr A) := batch_matmul_blas junk true false x0 gy.

  (** ** Convolutions: the call of gemm for one image *)

  (** conv2d.rs:79-103 (fast_im2col_gemm_fused_kernel) and 226-228, 240-264 (fast_col_x_filter_kernel):
      filter times columns. *)
  Definition conv_call_blas (m n k : nat) (w : Z -> A) (cols : Z -> A) (cp : Z) (y : Z -> A) (yp : Z) : option (Z -> A) :=
    let m := wrap32 (Z.of_nat m) in let n := wrap32 (Z.of_nat n) in let k := wrap32 (Z.of_nat k) in
    cblas_gemm false false m n k w 0 k cols cp n false y yp n.
  (** conv2d.rs:175-201 (slow_im2col_gemm_fused_kernel) and 292-297, 306-323 (slow_col_x_filter_kernel). *)
  Definition conv_call_std (m n k : nat) (w : Z -> A) (cols : Z -> A) (cp : Z) (y : Z -> A) (yp : Z) : Z -> A :=
    mm_gemm m k n w 0 (Z.of_nat k) 1 cols cp (Z.of_nat n) 1 false y yp (Z.of_nat n) 1.
  (** conv2d.rs:661-692: the gradient of the filter, added up over the images. *)
  Definition filter_call_blas (m n k : nat) (gy : Z -> A) (gp : Z) (cols : Z -> A) (cp : Z) (acc : bool) (gw : Z -> A) : option (Z -> A) :=
    let m := wrap32 (Z.of_nat m) in let n := wrap32 (Z.of_nat n) in let k := wrap32 (Z.of_nat k) in
    cblas_gemm false true m n k gy gp k cols cp k acc gw 0 n.
  (** conv2d.rs:696-727. *)
  Definition filter_call_std (m n k : nat) (gy : Z -> A) (gp : Z) (cols : Z -> A) (cp : Z) (acc : bool) (gw : Z -> A) : Z -> A :=
    mm_gemm m k n gy gp (Z.of_nat k) 1 cols cp 1 (Z.of_nat k) acc gw 0 (Z.of_nat n) 1.
  (** conv2d_transpose.rs:162-187: the transposed filter times the gradient. *)
  Definition transpose_call_blas (m n k : nat) (w : Z -> A) (gy : Z -> A) (gp : Z) (cols : Z -> A) (cp : Z) : option (Z -> A) :=
    let m := wrap32 (Z.of_nat m) in let n := wrap32 (Z.of_nat n) in let k := wrap32 (Z.of_nat k) in
    cblas_gemm true false m n k w 0 m gy gp n false cols cp n.
  (** conv2d_transpose.rs:190-217. *)
  Definition transpose_call_std (m n k : nat) (w : Z -> A) (gy : Z -> A) (gp : Z) (cols : Z -> A) (cp : Z) : Z -> A :=
    mm_gemm m k n w 0 1 (Z.of_nat m) gy gp (Z.of_nat n) 1 false cols cp (Z.of_nat n) 1.

  (** ** Elementwise functions through the vector math library *)

  (** math_ops.rs:211-240 elem_wise_vm_or_std and 242-275 elem_wise_vm_with_param_or_std (the
      parameter is part of [f]), used by Abs, Square, Inv, InvSqrt, Floor, Ceil, Pow, Sqrt,
      Log10, Log2, Ln, Exp, Exp2, Exp10 and the (inverse) trigonometric and hyperbolic functions
      (math_ops.rs:277-1020): the library gets a pointer and a number of elements ([as i32]) and
      stores the results one after another in a new vector, of which a row-major array with
      the operand's shape is made. [junk]: what the vector holds before. Reading outside the buffer
      is [zero] here. *)
  Definition vm_map (junk : nat -> A) (f : A -> A) (x : view A) : arr A :=
    let len := prod (v_shape x) in
    Arr (v_shape x)
        (map (fun p => if (Z.of_nat p <? wrap32 (Z.of_nat len))%Z then f (nth (v_off x + p) (v_mem x) zero) else junk p)
             (seq 0 len)).
  (** The other builds: [map] or [mapv], e.g. math_ops.rs:286, 318. *)
  Definition std_map (f : A -> A) (x : view A) : arr A := tab (v_shape x) (fun i => f (vget zero x i)).
End Blas.
