(** Vdsp.v: the code that calls Apple's vDSP library, compiled with cfg(apple_vdsp) and
    without neon_simd.  The routines are foreign code (declared in
    src/acceleration/vdsp.rs) and are described by their documentation.  vDSP_vfill has the
    same effect as the portable loop of src/ops/fill.rs 27-32, and vDSP_dotpr is cblas_dot of
    Vendor.v without its conversion to i32; they have no definitions of their own. *)
From Coq Require Import List Arith Lia Bool ZArith.
From Verif Require Import Base Layout Views Kernels Access Reduce Simd.
Import ListNotations.
Open Scope res_scope.

Section Vdsp.
  Context {T : Type}.
  (** the element operation of the library; it never panics *)
  Variable f : T -> T -> T.

  (** [A[n * IA] for n < N] *)
  Definition vdsp_read (h : heap T) (a : src T) (ia n : nat) : res (list T) :=
    mapM (fun i => src_ld h (src_add a (i * ia))) (seq 0 n).

  (** vDSP_vadd, vDSP_vmul and their D and i variants (vdsp.rs 14-24, 37-43):
      C[n] = A[n * IA] op B[n * IB].  All inputs are read before the first output is written;
      the documentation leaves the order open. *)
  Definition vdsp_bin (h : heap T) (a : src T) (ia : nat) (b : src T) (ib : nat) (c : ptr) (n : nat) : res (heap T) :=
    xs <- vdsp_read h a ia n ;; ys <- vdsp_read h b ib n ;; vstore h c (map2 f xs ys).

  (** vDSP_vsub, vDSP_vdiv (27-33, 47-57): the first operand is the subtrahend or divisor B,
      C[n] = A[n * IA] op B[n * IB] *)
  Definition vdsp_rev (h : heap T) (b : src T) (ib : nat) (a : src T) (ia : nat) (c : ptr) (n : nat) : res (heap T) :=
    vdsp_bin h a ia b ib c n.

  (** vDSP_vsadd, vDSP_vsmul, vDSP_vsdiv (61-111): C[n] = A[n * IA] op *B *)
  Definition vdsp_scal (h : heap T) (a : src T) (ia : nat) (b : src T) (c : ptr) (n : nat) : res (heap T) :=
    y <- src_ld h b ;; xs <- vdsp_read h a ia n ;; vstore h c (map (fun x => f x y) xs).

  (** Which kernels are replaced: add and mul have n_n, n_0 and 0_n (binary_op_add.rs 14-121
      for f32, f64, i32, u32; binary_op_mul.rs 13-65), sub has n_n (binary_op_sub.rs 15-36),
      div has n_n and n_0 (binary_op_div.rs 13-47). *)
  Inductive vop := VAddMul | VSub | VDiv.
  Variable k : vop.
  Definition v_n_n (h : heap T) (lhs : src T) (ls : nat) (rhs : src T) (rs : nat) (dst : ptr) (n : nat) : res (heap T) :=
    match k with
    | VAddMul => vdsp_bin h lhs ls rhs rs dst n
    | VSub | VDiv => vdsp_rev h rhs rs lhs ls dst n
    end.
  Definition v_n_0 (h : heap T) (lhs : src T) (ls : nat) (rhs : src T) (dst : ptr) (n : nat) : res (heap T) :=
    match k with
    | VAddMul | VDiv => vdsp_scal h lhs ls rhs dst n
    | VSub => v_n_n h lhs ls rhs 0 dst n
    end.
  Definition v_0_n (h : heap T) (lhs rhs : src T) (rs : nat) (dst : ptr) (n : nat) : res (heap T) :=
    match k with
    | VAddMul => vdsp_scal h rhs rs lhs dst n
    | VSub | VDiv => v_n_n h lhs 0 rhs rs dst n
    end.

  (** the kernels for other layouts, and scalars, use the operator of the language, which may
      panic *)
  Variable pf : T -> T -> res T.

  (** <op>_scalar: src/ops/binary_ops.rs 135-160; stride_1_0 (24-27) calls n_n *)
  Definition vk_scalar (h : heap T) (lhs : ptr) (lsh lst : list nat) (c : T) (dst : ptr) : res (heap T) :=
    match lst with
    | [] => x <- ld h lhs ;; v <- pf x c ;; st h dst v
    | _ =>
        let '(sh, str) := collapse lsh lst in
        inner <- last_of str ;;
        if length sh =? 1 then
          n <- vget sh 0 ;;
          if inner =? 1 then v_n_n h (Mem lhs) 1 (Val c) 0 dst n
          else v_n_0 h (Mem lhs) inner (Val c) dst n
        else k_xn pf h (Mem lhs) sh str (Val c) 0 dst (prod sh)
    end.

  (** <op>: src/ops/binary_ops.rs 162-249 *)
  Definition vk_binary (h : heap T) (lhs : ptr) (lst0 : list nat) (rhs : ptr) (rst0 : list nat)
      (dst : ptr) (shape : list nat) : res (heap T) :=
    if (length lst0 =? 0) && (length rst0 =? 0) then
      x <- ld h lhs ;; y <- ld h rhs ;; v <- pf x y ;; st h dst v
    else
      let '(lsh, lst) := collapse shape lst0 in
      let '(rsh, rst) := collapse shape rst0 in
      li <- last_of lst ;;
      ri <- last_of rst ;;
      ln <- vget lsh 0 ;;
      rn <- vget rsh 0 ;;
      let ld1 := length lsh =? 1 in
      let rd1 := length rsh =? 1 in
      if ld1 && rd1 then
        if ri =? 0 then
          if li =? 1 then v_n_n h (Mem lhs) 1 (Mem rhs) 0 dst ln
          else v_n_0 h (Mem lhs) li (Mem rhs) dst ln
        else if li =? 0 then
          if ri =? 1 then v_n_n h (Mem lhs) 0 (Mem rhs) 1 dst rn
          else v_0_n h (Mem lhs) (Mem rhs) ri dst rn
        else if (li =? 1) && (ri =? 1) then v_n_n h (Mem lhs) 1 (Mem rhs) 1 dst ln
        else if li =? 1 then v_n_n h (Mem lhs) 1 (Mem rhs) ri dst ln
        else if ri =? 1 then v_n_n h (Mem lhs) li (Mem rhs) 1 dst rn
        else v_n_n h (Mem lhs) li (Mem rhs) ri dst ln
      else if rd1 && (ri =? 0) then k_xn pf h (Mem lhs) lsh lst (Mem rhs) 0 dst rn
      else if ld1 && (li =? 0) then k_nx pf h (Mem lhs) 0 (Mem rhs) rsh rst dst ln
      else if rd1 && (ri =? 1) then k_xn pf h (Mem lhs) lsh lst (Mem rhs) 1 dst rn
      else if ld1 && (li =? 1) then k_nx pf h (Mem lhs) 1 (Mem rhs) rsh rst dst ln
      else if rd1 then k_xn pf h (Mem lhs) lsh lst (Mem rhs) ri dst rn
      else if ld1 then k_nx pf h (Mem lhs) li (Mem rhs) rsh rst dst ln
      else k_xx pf h (Mem lhs) lsh lst (Mem rhs) rsh rst dst.

  (** the operators, as in Kernels.v: src/ndarray/binary_ops.rs 37-51, 64-73 *)
  Definition vnd_binary (dflt : T) (h : heap T) (a b : arr) : res (heap T * arr) :=
    shape <- broadcast_shapes (a_shape a) (a_shape b) ;;
    ls <- broadcast_stride (a_stride a) shape (a_shape a) ;;
    rs <- broadcast_stride (a_stride b) shape (a_shape b) ;;
    let '(h1, blk) := alloc h (repeat dflt (prod shape)) in
    h2 <- vk_binary h1 (a_ptr a) ls (a_ptr b) rs (blk, 0) shape ;;
    Ok (h2, fresh_arr blk (prod shape) shape).
  Definition vnd_scalar_op (dflt : T) (h : heap T) (a : arr) (c : T) : res (heap T * arr) :=
    let '(h1, blk) := alloc h (repeat dflt (prod (a_shape a))) in
    h2 <- vk_scalar h1 (a_ptr a) (a_shape a) (a_stride a) c (blk, 0) ;;
    Ok (h2, fresh_arr blk (prod (a_shape a)) (a_shape a)).
  (** a op= &b, a op= scalar: src/ndarray/assign_ops.rs 23-46, 50-59 *)
  Definition vnd_assign (h : heap T) (a b : arr) : res (heap T) :=
    _ <- guard (f_write (a_fl a)) ;;
    if list_eqb (a_shape b) (a_shape a) then
      vk_binary h (a_ptr a) (a_stride a) (a_ptr b) (a_stride b) (a_ptr a) (a_shape a)
    else
      b' <- nd_broadcast_to b (a_shape a) ;;
      vk_binary h (a_ptr a) (a_stride a) (a_ptr b') (a_stride b') (a_ptr a) (a_shape a).
  Definition vnd_assign_scalar (h : heap T) (a : arr) (c : T) : res (heap T) :=
    _ <- guard (f_write (a_fl a)) ;;
    vk_scalar h (a_ptr a) (a_shape a) (a_stride a) c (a_ptr a).
End Vdsp.

(** ** Reductions: f32 and f64 only *)
Section Red.
  Context {T : Type}.
  (** The routine: vDSP_sve, vDSP_maxv, vDSP_minv, vDSP_maxmgv, vDSP_minmgv and their D
      variants (vdsp.rs 141-172), as a function of the N elements it reads. *)
  Variable lib : list T -> T.
  (** sum_uniform_stride: src/ops/reduce_sum.rs 69-76, 93-100; reduce_max.rs, reduce_min.rs
      68-75, 92-99; reduce_max_magnitude.rs, reduce_min_magnitude.rs 63-70, 75-82.  The start
      value stored in the output variable is overwritten. *)
  Definition vdsp_red (h : heap T) (p : ptr) (count s : nat) : res T :=
    xs <- vdsp_read h (Mem p) s count ;; Ok (lib xs).
  (** sum and so on: reduce_sum.rs 42-56 with sum_contiguous calling sum_uniform_stride (13-15) *)
  Definition vnd_reduce (g : T -> T -> res T) (dflt : T) (h : heap T) (a : arr) : res (heap T * arr) :=
    v <- sk_reduce (fun h p n => vdsp_red h p n 1) vdsp_red g dflt h (a_ptr a) (a_shape a) (a_stride a) ;;
    nd_scalar h v.
End Red.
