(** Convolutions (src/tensor_ops/conv_ops/{mod,conv2d,conv2d_transpose}.rs).
    i32 values are integers; where a product does not fit, [fits32] makes the
    operation panic (this is what a build with overflow checks does).  The
    conversion [as u32] in the bounds tests is modelled as it is. *)
From Coq Require Import List Arith ZArith Bool.
Import ListNotations.
From Verif Require Import Array_Model Kernel_Model.

(** Done; [Err(OpError)]; panic; access outside a buffer. What the kernels of
    src/tensor_ops/conv_ops do (errors: conv2d.rs:349-404, conv2d_transpose.rs:29-87).
    *)
Inductive kres (X : Type) := KOk (x : X) | KErr | KPanic | KFault.
Arguments KOk {X}. Arguments KErr {X}. Arguments KPanic {X}. Arguments KFault {X}.
(** Reading a result; the callers use [?], conv2d.rs:532-554. *)
Definition kok {X} (r : kres X) : option X := match r with KOk x => Some x | _ => None end.
(** The [?] and the panics of conv2d.rs:532-554. *)
Definition kbind {X Y} (r : kres X) (f : X -> kres Y) : kres Y :=
  match r with KOk x => f x | KErr => KErr | KPanic => KPanic | KFault => KFault end.

Local Open Scope Z_scope.
(** The casts of conv_ops/mod.rs:101, 105 and 205, 209. *)
Definition u32 (z : Z) : Z := z mod 2 ^ 32.
(** The casts [as i32] of conv2d.rs:407-487. *)
Definition fits32 (z : Z) : bool := (- 2 ^ 31 <=? z) && (z <? 2 ^ 31).

(** The output size; [/] on i32 rounds towards zero. conv_ops/mod.rs:89-90, 193-194. *)
Definition out_size (x p s d k : Z) : Z := (x + 2 * p - (d * (k - 1) + 1)) ÷ s + 1.

(** mod.rs:73-124 im2col.  Note that the horizontal start subtracts [ph], not
    [pw]; every caller passes the same padding for both. *)
Definition im2col (x ret : addr) (xch xh xw kh kw ph pw sh sw dh dw : Z) : list instr :=
  let yh := out_size xh ph sh dh kh in
  let yw := out_size xw pw sw dw kw in
  let channel_size := xh * xw in
  fst (loop (Z.to_nat xch) 0 (fun _ '(x_ptr, ret_ptr) =>
    let '(l, ret_ptr) := loop (Z.to_nat kh) 0 (fun cur_kh ret_ptr =>
      let y_start := Z.of_nat cur_kh * dh - ph in
      loop (Z.to_nat kw) 0 (fun cur_kw ret_ptr =>
        let x_start := Z.of_nat cur_kw * dw - ph in
        let '(l, (ret_ptr, _)) := loop (Z.to_nat yh) 0 (fun _ '(ret_ptr, y_offset) =>
          (if u32 y_offset <? u32 xh
           then let cache := y_offset * xw in
                fst (loop (Z.to_nat yw) 0 (fun j x_offset =>
                  ([if u32 x_offset <? u32 xw
                    then Copy (fst ret, ret_ptr + Z.of_nat j) (fst x, x_ptr + (cache + x_offset))
                    else Zero (fst ret, ret_ptr + Z.of_nat j)], x_offset + sw)) x_start)
           else map (fun j => Zero (fst ret, ret_ptr + Z.of_nat j)) (seq 0 (Z.to_nat yw)),
           (ret_ptr + yw, y_offset + sh))) (ret_ptr, y_start) in
        (l, ret_ptr)) ret_ptr) ret_ptr in
    (l, (x_ptr + channel_size, ret_ptr))) (snd x, snd ret)).

(** mod.rs:178-223 col2im *)
Definition col2im (x ret : addr) (xch xh xw kh kw ph pw sh sw dh dw : Z) : list instr :=
  let yh := out_size xh ph sh dh kh in
  let yw := out_size xw pw sw dw kw in
  let channel_size := xh * xw in
  fst (loop (Z.to_nat xch) 0 (fun _ '(x_ptr, ret_ptr) =>
    let '(l, x_ptr) := loop (Z.to_nat kh) 0 (fun ky x_ptr =>
      let y_start := Z.of_nat ky * dh - ph in
      loop (Z.to_nat kw) 0 (fun kx x_ptr =>
        let x_start := Z.of_nat kx * dw - pw in
        let '(l, (x_ptr, _)) := loop (Z.to_nat yh) 0 (fun _ '(x_ptr, y_offset) =>
          (if u32 y_offset <? u32 xh
           then let cache := y_offset * xw in
                fst (loop (Z.to_nat yw) 0 (fun j x_offset =>
                  (if u32 x_offset <? u32 xw
                   then [Accum (fst ret, ret_ptr + (cache + x_offset)) (fst x, x_ptr + Z.of_nat j)]
                   else [], x_offset + sw)) x_start)
           else [],
           (x_ptr + yw, y_offset + sh))) (x_ptr, y_start) in
        (l, x_ptr)) x_ptr) x_ptr in
    (l, (x_ptr, ret_ptr + channel_size))) (snd x, snd ret)).
Local Close Scope Z_scope.

(** usize subtraction in a build with overflow checks. conv2d.rs:387-388,
    conv2d_transpose.rs:55-56. *)
Definition usub (a b : nat) : kres nat := if b <=? a then KOk (a - b) else KPanic.
(** usize division, conv2d.rs:387-388. *)
Definition udiv (a b : nat) : kres nat := if b =? 0 then KPanic else KOk (a / b).
(** [(x + 2*p - (d*(k-1)+1)) / s + 1] on usize (conv2d.rs:387-388). *)
Definition u_out_size (x p s d k : nat) : kres nat :=
  kbind (usub k 1) (fun k1 => kbind (usub (x + 2 * p) (d * k1 + 1)) (fun r => kbind (udiv r s) (fun q => KOk (q + 1)))).
(** [s*(y-1) - 2*p + (d*(k-1)+1)] on usize (conv2d_transpose.rs:54-55).  With
    [checked = false] (release builds) subtraction wraps around. *)
Definition u_in_size (checked : bool) (y p s d k : nat) : kres nat :=
  if checked
  then kbind (usub y 1) (fun y1 => kbind (usub (s * y1) (2 * p)) (fun a => kbind (usub k 1) (fun k1 => KOk (a + (d * k1 + 1)))))
  else KOk (Z.to_nat ((Z.of_nat s * (Z.of_nat y - 1) - 2 * Z.of_nat p + (Z.of_nat d * (Z.of_nat k - 1) + 1)) mod 2 ^ 64)).

(** Of several casts, conv2d.rs:407-487. *)
Definition all_fit (l : list Z) : bool := forallb fits32 l.
(** The steps given to [step_by] in the rayon loops, conv2d.rs:150-152. *)
Definition any0 (l : list nat) : bool := existsb (Nat.eqb 0) l.

Section Conv.
  Context {A : Type} (zero : A) (add mul : A -> A -> A).
  (** Contents of uninitialised memory ([Vec::set_len]). *)
  Context (uninit : nat -> A).
  (** conv2d.rs:143-148: vectors whose length is set before they are written. *)
  Definition fresh (n : nat) : list A := map uninit (seq 0 n).

  (** Buffers of the kernels below. conv2d.rs:115-211: the pointers of the kernel. *)
  Definition IN := 0. Definition FILTER := 1. Definition COLS := 2. Definition OUT := 3.

  (** conv2d.rs:111-199 slow_im2col_gemm_fused_kernel (and 24-108 fast_..., which
      makes the same calls through cblas): the work of batch item [b]. *)
  Definition conv2d_item (xch ych xh xw kh kw p s d : nat) (yh yw : nat) (b : nat) : list instr :=
    let z := Z.of_nat in
    let m := ych in let n := yh * yw in let k := xch * kh * kw in
    let col_size := xch * kw * kh * yh * yw in
    let y_size := ych * yh * yw in
    im2col (IN, z (b * (xch * (xh * xw)))) (COLS, z (b * col_size))
      (z xch) (z xh) (z xw) (z kh) (z kw) (z p) (z p) (z s) (z s) (z d) (z d) ++
    gemm_call m k n (FILTER, 0%Z) (z k) 1%Z (COLS, z (b * col_size)) (z n) 1%Z false (OUT, z (b * y_size)) (z n) 1%Z.

  (** conv2d.rs:355-484 conv2d_extract_params, conv2d_impl.  The rayon loop
      ([step_by] panics for a step of 0) visits the items [0 .. batch-1]; here in
      this order, see [interleaving].  The second result is the im2col array. *)
  Definition conv2d (p s d : nat) (x w : arr A) : kres (arr A * arr A) :=
    match a_shape x, a_shape w with
    | [batch; xch; xh; xw], [ych; wch; kh; kw] =>
        if negb (xch =? wch) then KErr else
        kbind (u_out_size xh p s d kh) (fun yh => kbind (u_out_size xw p s d kw) (fun yw =>
          let z := Z.of_nat in
          if negb (all_fit [z (xh + 2 * p + s); z (xw + 2 * p + s); z (xh * xw); z (xch * kw * kh * yh * yw); z (ych * yh * yw)])
          then KPanic else
          if any0 [xch * (xh * xw); xch * kw * kh * yh * yw; ych * yh * yw] then KPanic else
          match exec zero add mul
                  [a_data x; a_data w; fresh (batch * (xch * kw * kh * yh * yw)); fresh (batch * (ych * yh * yw))]
                  (flat_map (conv2d_item xch ych xh xw kh kw p s d yh yw) (seq 0 batch)) with
          | Some m => KOk (Arr [batch; ych; yh; yw] (nth OUT m []), Arr [batch; xch; kw; kh; yh; yw] (nth COLS m []))
          | None => KFault
          end))
    | _, _ => KErr
    end.

  (** conv2d.rs:260-330, 486-529 conv2d_with_cols_impl *)
  Definition conv2d_with_cols (cols w : arr A) : kres (arr A) :=
    match a_shape cols, a_shape w with
    | [batch; _; _; _; yh; yw], [ych; xch; kh; kw] =>
        let z := Z.of_nat in
        let n := yh * yw in let k := xch * kh * kw in
        let col_size := xch * kw * kh * yh * yw in
        let y_size := ych * yh * yw in
        if any0 [col_size; y_size] then KPanic else
        match exec zero add mul [[]; a_data w; a_data cols; fresh (batch * y_size)]
          (flat_map (fun b => gemm_call ych k n (FILTER, 0%Z) (z k) 1%Z (COLS, z (b * col_size)) (z n) 1%Z false (OUT, z (b * y_size)) (z n) 1%Z)
             (seq 0 batch)) with
        | Some m => KOk (Arr [batch; ych; yh; yw] (nth OUT m []))
        | None => KFault
        end
    | _, _ => KPanic
    end.

  (** conv2d.rs:627-728 conv2d_filter_grad_impl; buffers: gy, (unused), cols, gw. *)
  Definition conv2d_filter_grad (cols gy w : arr A) : kres (arr A) :=
    match a_shape cols, a_shape gy, a_shape w with
    | [c0; c1; c2; c3; c4; c5], [batch; ych; yh; yw], [w0; xch; kh; kw] =>
        let z := Z.of_nat in
        let size_g := ych * yh * yw in
        let size_c := c1 * c2 * c3 * c4 * c5 in
        let n := kh * kw * xch in let k := yh * yw in
        match exec zero add mul [a_data gy; []; a_data cols; fresh (ych * xch * kh * kw)]
          (flat_map (fun i => gemm_call ych k n (IN, z (i * size_g)) (z k) 1%Z (COLS, z (i * size_c)) 1%Z (z k) (negb (i =? 0)) (OUT, 0%Z) (z n) 1%Z)
             (seq 0 batch)) with
        | Some m => KOk (Arr [w0; xch; kh; kw] (nth OUT m []))
        | None => KFault
        end
    | _, _, _ => KPanic
    end.

  (** conv2d_transpose.rs:149-240: batch item [b]; buffers: gy, w, cols, gx. *)
  Definition conv2d_transpose_item (xch ych xh xw kh kw p s d : nat) (yh yw : nat) (b : nat) : list instr :=
    let z := Z.of_nat in
    let k := ych in let n := yh * yw in let m := kh * kw * xch in
    let col_size := xch * kh * kw * yh * yw in
    gemm_call m k n (FILTER, 0%Z) 1%Z (z m) (IN, z (b * (ych * yh * yw))) (z n) 1%Z false (COLS, z (b * col_size)) (z n) 1%Z ++
    col2im (COLS, z (b * col_size)) (OUT, z (b * (xch * xh * xw)))
      (z xch) (z xh) (z xw) (z kh) (z kw) (z p) (z p) (z s) (z s) (z d) (z d).

  (** conv2d_transpose.rs:28-250 conv2d_transpose_extract_params,
      conv2d_transpose_impl.  Operands of lower rank panic before the check. *)
  Definition conv2d_transpose (checked : bool) (p s d : nat) (gy w : arr A) : kres (arr A) :=
    match a_shape gy, a_shape w with
    | [batch; ych; yh; yw], [wch; xch; kh; kw] =>
        kbind (u_in_size checked yh p s d kh) (fun xh => kbind (u_in_size checked yw p s d kw) (fun xw =>
          if negb (ych =? wch) then KErr else
          let z := Z.of_nat in
          if negb (all_fit [z (xh + 2 * p + s); z (xw + 2 * p + s); z (xh * xw); z (xch * kw * kh * yh * yw)]) then KPanic else
          if (batch =? 0) || (s =? 0) || any0 [ych * yh * yw; xch * kh * kw * yh * yw; xch * xh * xw] then KPanic else
          match exec zero add mul
                  [a_data gy; a_data w; fresh (batch * (xch * kh * kw * yh * yw)); repeat zero (batch * (xch * xh * xw))]
                  (flat_map (conv2d_transpose_item xch ych xh xw kh kw p s d yh yw) (seq 0 batch)) with
          | Some m => KOk (Arr [batch; xch; xh; xw] (nth OUT m []))
          | None => KFault
          end))
    | _, _ => if (length (a_shape gy) <? 4) || (length (a_shape w) <? 4) then KPanic else KErr
    end.

  (** mod.rs:126-176 im2col_batch followed by conv2d_transpose.rs:300-430
      conv2d_transpose_filter_grad_impl.  [size_cols] is the code's
      [yh * yh * kh * kw * xch].  Buffers: gy, x, cols, gw; the slice indexing
      [&gy_cols[i * size]] is bounds checked (a panic), the reads of the product
      are not. *)
  Definition im2col_batch (xch xh xw kh kw p s d yh yw batch : nat) : list (list instr) :=
    let z := Z.of_nat in
    map (fun b => im2col (IN, z (b * (xch * (xh * xw)))) (COLS, z (b * (xch * kw * kh * yh * yw)))
          (z xch) (z xh) (z xw) (z kh) (z kw) (z p) (z p) (z s) (z s) (z d) (z d)) (seq 0 batch).
  (** conv2d_transpose.rs:303-431 (see above). *)
  Definition conv2d_transpose_filter_grad (p s d : nat) (gy x w : arr A) : kres (arr A) :=
    match a_shape gy, a_shape x, a_shape w with
    | [gb; xch; xh; xw], [batch; ych; x2; x3], [w0; w1; kh; kw] =>
        kbind (u_out_size xh p s d kh) (fun yh => kbind (u_out_size xw p s d kw) (fun yw =>
          let z := Z.of_nat in
          let size_cols := yh * yh * kh * kw * xch in
          let size_x := ych * x2 * x3 in
          let n := kh * kw * xch in let k := yh * yw in
          let col_size := xch * kw * kh * yh * yw in
          if negb (all_fit [z (xh + 2 * p + s); z (xw + 2 * p + s); z (xh * xw); z col_size]) then KPanic else
          if any0 [xch * (xh * xw); col_size] then KPanic else
          if negb (gb =? batch) then KPanic else
          match exec zero add mul [a_data gy; a_data x; fresh (batch * col_size); fresh (w0 * w1 * kh * kw)]
                  (concat (im2col_batch xch xh xw kh kw p s d yh yw batch)) with
          | None => KFault
          | Some m =>
              if forallb (fun i => (i * size_x <? length (a_data x)) && (i * size_cols <? batch * col_size)) (seq 0 batch) then
                match exec zero add mul m
                  (flat_map (fun i => gemm_call ych k n (FILTER, z (i * size_x)) (z k) 1%Z (COLS, z (i * size_cols)) 1%Z (z k) (negb (i =? 0)) (OUT, 0%Z) (z n) 1%Z)
                     (seq 0 batch)) with
                | Some m => KOk (Arr [w0; w1; kh; kw] (nth OUT m []))
                | None => KFault
                end
              else KPanic
          end))
    | _, _, _ => KPanic
    end.

  (** conv2d.rs:556-592 Conv2D::grad *)
  Definition conv2d_grad_x (checked : bool) (p s d : nat) (gy w : arr A) : kres (arr A) := conv2d_transpose checked p s d gy w.
  (** conv2d.rs:556-586 Conv2D::grad: the filter gradient. *)
  Definition conv2d_grad_w (p s d : nat) (x w gy : arr A) : kres (arr A) :=
    kbind (conv2d p s d x w) (fun r => conv2d_filter_grad (snd r) gy w).
  (** conv2d_transpose.rs:274-300 Conv2DTranspose::grad *)
  Definition conv2d_transpose_grad_x (p s d : nat) (gy w : arr A) : kres (arr A) :=
    kbind (conv2d p s d gy w) (fun r => KOk (fst r)).
  (** conv2d_transpose.rs:274-300 Conv2DTranspose::grad: the filter gradient. *)
  Definition conv2d_transpose_grad_w (p s d : nat) (x w gy : arr A) : kres (arr A) := conv2d_transpose_filter_grad p s d gy x w.
End Conv.
