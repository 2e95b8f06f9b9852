(** Vendor.v: the code that calls a BLAS library, compiled with cfg(blas) for f32 and f64
    (without neon_simd and apple_vdsp).  The library routines themselves are foreign code;
    they are described here by what the BLAS standard says about them. *)
From Coq Require Import List Arith Lia Bool ZArith.
From Verif Require Import Base Layout Views Kernels Access Reduce Einsum.
Import ListNotations.
Open Scope res_scope.

(** usize as i32: the low 32 bits, read as a signed number *)
Definition as_i32 (n : nat) : Z := ((Z.of_nat n + 2 ^ 31) mod 2 ^ 32 - 2 ^ 31)%Z.

Section Blas.
  Context {T : Type}.
  Variable zero one : T.
  Variable add mul : T -> T -> res T.
  Variable fma : T -> T -> T -> res T.
  (** What the library does about an illegal parameter: the reference library stops the
      program, OpenBLAS reports it and returns without computing anything. *)
  Variable bad : heap T -> res (heap T).

  (** ** The foreign routines (declared in src/acceleration/cblas.rs) *)
  (** cblas_sdot, cblas_ddot (26-28): the products are added in order here, while the library
      may choose any order; a negative increment is not modelled. *)
  Definition cblas_dot (h : heap T) (n : Z) (x : ptr) (incx : Z) (y : ptr) (incy : Z) : res T :=
    if (n <=? 0)%Z then Ok zero
    else if (incx <? 0)%Z || (incy <? 0)%Z then Oob
    else dot_go add mul h x (Z.to_nat incx) y (Z.to_nat incy) (Z.to_nat n) zero.

  (** cblas_sgemv, cblas_dgemv (31-55) for row-major order, no transposition, alpha = 1,
      beta = 0 and incy = 1: y[i] = sum of A[i * lda + j] * x[j * incx]; y is not read.
      Legal parameters: m, n >= 0, lda >= max(1, n), incx <> 0. *)
  Definition cblas_gemv (h : heap T) (m n : Z) (a : ptr) (lda : Z) (x : ptr) (incx : Z) (y : ptr) : res (heap T) :=
    if ((0 <=? m) && (0 <=? n) && (Z.max 1 n <=? lda) && negb (incx =? 0))%Z then
      if (incx <? 0)%Z then Oob
      else
        for_each (fun i h =>
          s <- dot_go add mul h (padd a (i * Z.to_nat lda)) 1 x (Z.to_nat incx) (Z.to_nat n) zero ;;
          v <- mul one s ;; st h (padd y i) v) (seq 0 (Z.to_nat m)) h
    else bad h.

  (** cblas_sgemm, cblas_dgemm (58-88) for row-major order, no transposition, alpha = 1,
      beta = 0: C[i * ldc + j] = sum of A[i * lda + t] * B[t * ldb + j]; C is not read.
      Legal parameters: m, n, k >= 0, lda >= max(1, k), ldb, ldc >= max(1, n). *)
  Definition cblas_gemm (h : heap T) (m n k : Z) (a : ptr) (lda : Z) (b : ptr) (ldb : Z) (c : ptr) (ldc : Z)
      : res (heap T) :=
    if ((0 <=? m) && (0 <=? n) && (0 <=? k) && (Z.max 1 k <=? lda) && (Z.max 1 n <=? ldb) && (Z.max 1 n <=? ldc))%Z then
      for_each (fun i h =>
        for_each (fun j h =>
          s <- dot_go add mul h (padd a (i * Z.to_nat lda)) 1 (padd b j) (Z.to_nat ldb) (Z.to_nat k) zero ;;
          v <- mul one s ;; st h (padd c (i * Z.to_nat ldc + j)) v)
          (seq 0 (Z.to_nat n)) h)
        (seq 0 (Z.to_nat m)) h
    else bad h.

  (** ** The callers *)
  (** strided_dot_product: src/ops/dot_product.rs 86-91 (f32), 130-135 (f64) *)
  Definition b_strided_dot (h : heap T) (p0 : ptr) (s0 : nat) (p1 : ptr) (s1 : nat) (dst : ptr) (count : nat)
      : res (heap T) :=
    s <- cblas_dot h (as_i32 count) p0 (as_i32 s0) p1 (as_i32 s1) ;;
    y <- ld h dst ;; v <- add y s ;; st h dst v.

  (** dot: src/linalg/matrix_ops.rs 111-126 *)
  Definition b_dot (h : heap T) (a b : arr) : res (heap T * arr) :=
    match a_shape a, a_shape b, a_stride a, a_stride b with
    | [n], [m], [s], [t] =>
        _ <- guard (n =? m) ;;
        r <- nd_scalar h zero ;;
        let '(h1, r) := r in
        h2 <- b_strided_dot h1 (a_ptr a) s (a_ptr b) t (a_ptr r) n ;; Ok (h2, r)
    | _, _, _, _ => Panic
    end.

  (** matrix_matrix_product: matrix_ops.rs 424-446 (f32), 477-499 (f64).  In the einsum it
      falls back to, the dot products of rows are the portable ones (there they may call
      cblas_dot, dot_product.rs 66-70, 111-115, which has the same value). *)
  Definition b_matrix_matrix (h : heap T) (a b : arr) (rstride : list nat) (dst : ptr) : res (heap T) :=
    s1 <- vget (a_stride a) 1 ;; t1 <- vget (a_stride b) 1 ;;
    if negb (s1 =? 1) || negb (t1 =? 1) then matrix_matrix zero one add mul fma h a b rstride dst
    else
      m <- vget (a_shape a) 0 ;; n <- vget (a_shape b) 1 ;; k <- vget (a_shape a) 1 ;;
      lda <- vget (a_stride a) 0 ;; ldb <- vget (a_stride b) 0 ;;
      cblas_gemm h (as_i32 m) (as_i32 n) (as_i32 k) (a_ptr a) (as_i32 lda) (a_ptr b) (as_i32 ldb) dst (as_i32 n).

  (** "ij", "j", "i" *)
  Definition matvec_subs : list (list Z) := [[105; 106]; [106]]%Z.
  Definition matvec_out : list Z := [105]%Z.

  (** matrix_vector_product: matrix_ops.rs 449-472 (f32), 502-525 (f64) *)
  Definition b_matrix_vector (h : heap T) (a b : arr) : res (heap T * arr) :=
    s1 <- vget (a_stride a) 1 ;;
    if negb (s1 =? 1) then nd_einsum zero one add mul fma h [a; b] matvec_subs matvec_out
    else
      rows <- vget (a_shape a) 0 ;; cols <- vget (a_shape a) 1 ;;
      lda <- vget (a_stride a) 0 ;; incx <- vget (a_stride b) 0 ;;
      let '(h1, blk) := alloc h (repeat zero rows) in
      h2 <- cblas_gemv h1 (as_i32 rows) (as_i32 cols) (a_ptr a) (as_i32 lda) (a_ptr b) (as_i32 incx) (blk, 0) ;;
      Ok (h2, fresh_arr blk rows [rows]).

  (** matmul: matrix_ops.rs 39-62 *)
  Definition b_matmul (h : heap T) (a b : arr) : res (heap T * arr) :=
    match a_shape a, a_shape b with
    | [_], [_] => b_dot h a b
    | [_; cols], [m] => _ <- guard (cols =? m) ;; b_matrix_vector h a b
    | [n; k], [k'; m] =>
        _ <- guard (k =? k') ;;
        r <- nd_full h zero [n; m] ;;
        let '(h1, r) := r in
        h2 <- b_matrix_matrix h1 a b (a_stride r) (a_ptr r) ;; Ok (h2, r)
    | _, _ => Panic
    end.

  (** the loop of batch_matrix_matrix_product: lines 369-375 *)
  Fixpoint b_bmm_go (h : heap T) (a b : arr) (sa sb : nat) (rstride : list nat) (rs : nat) (dst : ptr) (n : nat)
      : res (heap T) :=
    match n with
    | O => Ok h
    | S n' =>
        h' <- b_matrix_matrix h a b rstride dst ;;
        b_bmm_go h' (shift_arr a sa) (shift_arr b sb) sa sb rstride rs (padd dst rs) n'
    end.

  (** bmm: lines 82-93; batch_matrix_matrix_product: 362-376 *)
  Definition b_bmm (h : heap T) (a b : arr) : res (heap T * arr) :=
    match a_shape a, a_shape b with
    | [n; i; _], [n'; _; k] =>
        _ <- guard (n =? n') ;;
        r <- nd_full h zero [n; i; k] ;;
        let '(h1, r) := r in
        la <- nd_slice_along a 0 (IUsize 0) ;;
        lb <- nd_slice_along b 0 (IUsize 0) ;;
        sa <- vget (a_stride a) 0 ;;
        sb <- vget (a_stride b) 0 ;;
        rs <- vget (a_stride r) 0 ;;
        h2 <- b_bmm_go h1 la lb sa sb (tl (a_stride r)) rs (a_ptr r) n ;; Ok (h2, r)
    | _, _ => Panic
    end.
End Blas.
