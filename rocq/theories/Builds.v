(** Builds.v: the crate compiled with any combination of the features neon_simd, blas and
    apple_vdsp, for f32 and f64.  A feature replaces some functions by others, modelled in
    Simd.v, Vendor.v and Vdsp.v; here the cfg attributes choose between them. *)
From Coq Require Import List Arith Lia Bool ZArith.
From Verif Require Import Base Layout Views Kernels Access Reduce Einsum Simd Vendor Vdsp PropsEinsum Prog.
Import ListNotations.
Open Scope res_scope.

(** the four operators with a kernel of their own (src/ops/binary_op_*.rs) *)
Inductive arith := AAdd | ASub | AMul | ADiv.

Section Builds.
  Context {T : Type}.
  Variable zero one : T.
  Variable op : arith -> T -> T -> T.
  Variable neg : T -> T.
  Variable eqb : T -> T -> bool.
  Local Notation add := (op AAdd).
  Local Notation mul := (op AMul).
  (** a.mul_add(b, c), without the single rounding of floating point *)
  Definition muladd (x y z : T) : T := add (mul x y) z.

  (** the features of a build: the number of lanes with neon_simd, the reaction of the BLAS
      library to an illegal parameter with blas, the summation of the vDSP library with
      apple_vdsp; and whether the element type is f64 *)
  Record build := mkBuild {
    neon : option nat;
    blas : option (heap T -> res (heap T));
    vdsp : option (list T -> T);
    double : bool }.
  Definition portable : build := mkBuild None None None false.

  Variable B : build.
  Local Notation addM := (okadd add).
  Local Notation mulM := (okadd mul).
  Local Notation fmaM := (okfma add mul).

  (** vDSP_dotpr, vDSP_dotprD (src/acceleration/vdsp.rs): the sum of the products, in an order
      of the library's choosing; *dst += sum: src/ops/dot_product.rs 50-58, 73-83 (f32),
      93-102, 117-127 (f64) *)
  Definition v_dot (lib : list T -> T) (h : heap T) (p0 : ptr) (s0 : nat) (p1 : ptr) (s1 : nat) (dst : ptr) (n : nat) : res (heap T) :=
    xs <- vdsp_read h (Mem p0) s0 n ;; ys <- vdsp_read h (Mem p1) s1 n ;; add_to addM h dst (lib (map2 mul xs ys)).

  (** dot_product: src/ops/dot_product.rs 12-22 and 49-70 (f32), 93-115 (f64) *)
  Definition bk_dot (h : heap T) (p0 p1 dst : ptr) (n : nat) : res (heap T) :=
    match vdsp B, neon B, blas B with
    | Some lib, _, _ => v_dot lib h p0 1 p1 1 dst n
    | None, Some L, _ => sdot L zero add mul muladd h p0 p1 dst n
    | None, None, Some _ => b_strided_dot zero addM mulM h p0 1 p1 1 dst n
    | None, None, None => strided_dot zero addM mulM h p0 1 p1 1 dst n
    end.

  (** strided_dot_product: dot_product.rs 32-45, 73-91 (f32), 117-135 (f64).  The f64 version
      calls BLAS also when neon_simd is on (line 129), the f32 version does not (line 85). *)
  Definition bk_sdot (h : heap T) (p0 : ptr) (s0 : nat) (p1 : ptr) (s1 : nat) (dst : ptr) (n : nat) : res (heap T) :=
    match vdsp B, neon B, blas B with
    | Some lib, _, _ => v_dot lib h p0 s0 p1 s1 dst n
    | None, None, Some _ => b_strided_dot zero addM mulM h p0 s0 p1 s1 dst n
    | None, Some _, Some _ => if double B then b_strided_dot zero addM mulM h p0 s0 p1 s1 dst n else strided_dot zero addM mulM h p0 s0 p1 s1 dst n
    | None, _, None => strided_dot zero addM mulM h p0 s0 p1 s1 dst n
    end.

  (** sum_of_products_muladd, sum_of_scaled_array: src/linalg/sum_of_products.rs 100-130, 237-267 *)
  Definition bk_muladd (h : heap T) (p0 p1 dst : ptr) (n : nat) : res (heap T) :=
    match neon B with Some L => ssop_muladd L muladd h p0 p1 dst n | None => sop_muladd fmaM h p0 p1 dst n end.
  Definition bk_scaled (h : heap T) (p0 p1 dst : ptr) (n : nat) : res (heap T) :=
    match neon B with Some L => ssop_scaled L zero add muladd h p0 p1 dst n | None => sop_scaled zero addM fmaM h p0 p1 dst n end.

  (** sop_two to bmm_go of Einsum.v with these kernels *)
  Definition bk_sop_two (h : heap T) (p0 : ptr) (s0 : nat) (p1 : ptr) (s1 : nat) (dst : ptr) (ds count : nat) : res (heap T) :=
    let code := (if s0 =? 0 then 0 else if s0 =? 1 then 4 else 8) +
                (if s1 =? 0 then 0 else if s1 =? 1 then 2 else 8) +
                (if ds =? 0 then 0 else if ds =? 1 then 1 else 8) in
    match code with
    | 2 => bk_scaled h p0 p1 dst count
    | 3 => bk_muladd h p0 p1 dst count
    | 4 => bk_scaled h p1 p0 dst count
    | 5 => bk_muladd h p1 p0 dst count
    | 6 => _ <- uassert (0 <? count) ;; bk_dot h p0 p1 dst count
    | 7 => sop_111 addM mulM h p0 p1 dst count
    | _ =>
        if ds =? 0 then sop_out0 zero one addM mulM h [p0; p1] [s0; s1] dst count
        else sop_generic one addM mulM h [p0; p1] [s0; s1] dst ds count
    end.
  Definition bk_sop_fixed (h : heap T) (ps : list ptr) (ss : list nat) (dst : ptr) (ds count : nat) : res (heap T) :=
    match ps, ss with
    | [p0; p1], [s0; s1] => bk_sop_two h p0 s0 p1 s1 dst ds count
    | _, _ => if ds =? 0 then sop_out0 zero one addM mulM h ps ss dst count else sop_generic one addM mulM h ps ss dst ds count
    end.
  Definition bk_einsum_2labels (h : heap T) (bases : list ptr) (d0 d1 : list nat) (n0 n1 : nat) (dst : ptr) : res (heap T) :=
    _ <- uassert (0 <? n0) ;; _ <- uassert (0 <? n1) ;;
    for_each (fun i h => call_sop bk_sop_fixed h bases dst (scale i d1) d0 n0) (seq 0 n1) h.
  Definition bk_einsum_3labels (h : heap T) (bases : list ptr) (d0 d1 d2 : list nat) (n0 n1 n2 : nat) (dst : ptr) : res (heap T) :=
    _ <- uassert (0 <? n0) ;; _ <- uassert (0 <? n1) ;; _ <- uassert (0 <? n2) ;;
    for_each (fun i h =>
      for_each (fun j h => call_sop bk_sop_fixed h bases dst (add_lists (scale i d2) (scale j d1)) d0 n0)
        (seq 0 n1) h) (seq 0 n2) h.
  Definition bk_run_einsum (h : heap T) (bases : list ptr) (strides : list (list nat)) (iter_shape : list nat) (dst : ptr) : res (heap T) :=
    if (length bases =? 1) || (length bases =? 2) then
      match strides, iter_shape with
      | [d0; d1], [n0; n1] => bk_einsum_2labels h bases d0 d1 n0 n1 dst
      | [d0; d1; d2], [n0; n1; n2] => bk_einsum_3labels h bases d0 d1 d2 n0 n1 n2 dst
      | _, _ => unspecialized zero one addM mulM h bases strides iter_shape dst
      end
    else unspecialized zero one addM mulM h bases strides iter_shape dst.
  Definition bk_einsum (h : heap T) (ops : list arr) (subs : list (list Z)) (out : list Z) : res (heap T * arr) :=
    r <- prepare_einsum ops subs out ;;
    let '(strides, iter_shape, out_shape) := r in
    let '(h1, b) := alloc h (repeat zero (prod out_shape)) in
    h2 <- bk_run_einsum h1 (map a_ptr ops) strides iter_shape (b, 0) ;;
    Ok (h2, fresh_arr b (prod out_shape) out_shape).
  Definition bk_einsum_into (h : heap T) (ops : list arr) (subs : list (list Z)) (out : list Z) (rstride : list nat) (dst : ptr) : res (heap T) :=
    r <- prepare_einsum ops subs out ;;
    let '(strides, iter_shape, out_shape) := r in
    _ <- match has_uniform_stride out_shape rstride with Some s => guard (s =? 1) | None => Ok tt end ;;
    h1 <- k_fill h dst out_shape rstride (prod out_shape) zero ;;
    bk_run_einsum h1 (map a_ptr ops) strides iter_shape dst.

  (** dot: src/linalg/matrix_ops.rs 111-126 *)
  Definition bk_nd_dot (h : heap T) (a b : arr) : res (heap T * arr) :=
    match a_shape a, a_shape b, a_stride a, a_stride b with
    | [n], [m], [s], [t] =>
        _ <- guard (n =? m) ;;
        r <- nd_scalar h zero ;;
        let '(h1, r) := r in
        h2 <- bk_sdot h1 (a_ptr a) s (a_ptr b) t (a_ptr r) n ;; Ok (h2, r)
    | _, _, _, _ => Panic
    end.
  (** the row loop of matrix_vector_product: 410-414 *)
  Fixpoint bk_matvec_go (h : heap T) (row : ptr) (rs s : nat) (v : ptr) (t : nat) (dst : ptr) (cols rows : nat) : res (heap T) :=
    match rows with
    | O => Ok h
    | S r => h' <- bk_sdot h row s v t dst cols ;; bk_matvec_go h' (padd row rs) rs s v t (padd dst 1) cols r
    end.
  (** matrix_vector_product: 399-417; with blas and without neon_simd 448-472 (f32), 501-525 (f64) *)
  Definition bk_matrix_vector (h : heap T) (a b : arr) : res (heap T * arr) :=
    let rows_loop :=
      match a_shape a, a_stride a, a_stride b with
      | [rows; cols], [rs; s], [t] =>
          let '(h1, blk) := alloc h (repeat zero rows) in
          h2 <- bk_matvec_go h1 (a_ptr a) rs s (a_ptr b) t (blk, 0) cols rows ;;
          Ok (h2, fresh_arr blk rows [rows])
      | _, _, _ => Panic
      end in
    match blas B, neon B with
    | Some bad, None =>
        s1 <- vget (a_stride a) 1 ;;
        if negb (s1 =? 1) then bk_einsum h [a; b] matvec_subs matvec_out
        else
          rows <- vget (a_shape a) 0 ;; cols <- vget (a_shape a) 1 ;;
          lda <- vget (a_stride a) 0 ;; incx <- vget (a_stride b) 0 ;;
          let '(h1, blk) := alloc h (repeat zero rows) in
          h2 <- cblas_gemv zero one addM mulM bad h1 (as_i32 rows) (as_i32 cols) (a_ptr a) (as_i32 lda) (a_ptr b) (as_i32 incx) (blk, 0) ;;
          Ok (h2, fresh_arr blk rows [rows])
    | _, _ => rows_loop
    end.
  (** matrix_matrix_product: 386-392; with blas 423-446 (f32), 476-499 (f64) *)
  Definition bk_matrix_matrix (h : heap T) (a b : arr) (rstride : list nat) (dst : ptr) : res (heap T) :=
    match blas B with
    | Some bad =>
        s1 <- vget (a_stride a) 1 ;; t1 <- vget (a_stride b) 1 ;;
        if negb (s1 =? 1) || negb (t1 =? 1) then bk_einsum_into h [a; b] matmul_subs matmul_out rstride dst
        else
          m <- vget (a_shape a) 0 ;; n <- vget (a_shape b) 1 ;; k <- vget (a_shape a) 1 ;;
          lda <- vget (a_stride a) 0 ;; ldb <- vget (a_stride b) 0 ;;
          cblas_gemm zero one addM mulM bad h (as_i32 m) (as_i32 n) (as_i32 k) (a_ptr a) (as_i32 lda) (a_ptr b) (as_i32 ldb) dst (as_i32 n)
    | None => bk_einsum_into h [a; b] matmul_subs matmul_out rstride dst
    end.
  (** matmul: 39-62 *)
  Definition bk_matmul (h : heap T) (a b : arr) : res (heap T * arr) :=
    match a_shape a, a_shape b with
    | [_], [_] => bk_nd_dot h a b
    | [_; cols], [m] => _ <- guard (cols =? m) ;; bk_matrix_vector h a b
    | [n; k], [k'; m] =>
        _ <- guard (k =? k') ;;
        r <- nd_full h zero [n; m] ;;
        let '(h1, r) := r in
        h2 <- bk_matrix_matrix h1 a b (a_stride r) (a_ptr r) ;; Ok (h2, r)
    | _, _ => Panic
    end.
  (** batch_matrix_matrix_product: 362-376; bmm: 82-93 *)
  Fixpoint bk_bmm_go (h : heap T) (a b : arr) (sa sb : nat) (rstride : list nat) (rs : nat) (dst : ptr) (n : nat) : res (heap T) :=
    match n with
    | O => Ok h
    | S n' =>
        h' <- bk_matrix_matrix h a b rstride dst ;;
        bk_bmm_go h' (shift_arr a sa) (shift_arr b sb) sa sb rstride rs (padd dst rs) n'
    end.
  Definition bk_bmm (h : heap T) (a b : arr) : res (heap T * arr) :=
    match a_shape a, a_shape b with
    | [n; i; _], [n'; _; k] =>
        _ <- guard (n =? n') ;;
        r <- nd_full h zero [n; i; k] ;;
        let '(h1, r) := r in
        la <- nd_slice_along a 0 (IUsize 0) ;;
        lb <- nd_slice_along b 0 (IUsize 0) ;;
        sa <- vget (a_stride a) 0 ;;
        sb <- vget (a_stride b) 0 ;;
        rs <- vget (a_stride r) 0 ;;
        h2 <- bk_bmm_go h1 la lb sa sb (tl (a_stride r)) rs (a_ptr r) n ;; Ok (h2, r)
    | _, _ => Panic
    end.

  (** the elementwise operators: neon_simd takes precedence over apple_vdsp
      (binary_op_add.rs 15-65 and the same in the other three; simd_binary_ops.rs 322-350) *)
  Definition kind_of (o : arith) : Vdsp.vop := match o with AAdd | AMul => VAddMul | ASub => VSub | ADiv => VDiv end.
  Definition opM (o : arith) : T -> T -> res T := fun x y => Ok (op o x y).
  Definition bk_binary (o : arith) (h : heap T) (a b : arr) : res (heap T * arr) :=
    match neon B, vdsp B with
    | Some L, _ => snd_binary L (op o) zero h a b
    | None, Some _ => vnd_binary (op o) (kind_of o) (opM o) zero h a b
    | None, None => nd_binary (opM o) zero h a b
    end.
  Definition bk_scalar_op (o : arith) (h : heap T) (a : arr) (c : T) : res (heap T * arr) :=
    match neon B, vdsp B with
    | Some L, _ => snd_scalar_op L (op o) zero h a c
    | None, Some _ => vnd_scalar_op (op o) (kind_of o) (opM o) zero h a c
    | None, None => nd_scalar_op (opM o) zero h a c
    end.
  Definition bk_assign (o : arith) (h : heap T) (a b : arr) : res (heap T) :=
    match neon B, vdsp B with
    | Some L, _ => snd_assign L (op o) h a b
    | None, Some _ => vnd_assign (op o) (kind_of o) (opM o) h a b
    | None, None => nd_assign (opM o) h a b
    end.
  Definition bk_assign_scalar (o : arith) (h : heap T) (a : arr) (c : T) : res (heap T) :=
    match neon B, vdsp B with
    | Some L, _ => snd_assign_scalar L (op o) h a c
    | None, Some _ => vnd_assign_scalar (op o) (kind_of o) (opM o) h a c
    | None, None => nd_assign_scalar (opM o) h a c
    end.
  (** negation: src/ops/unary_ops.rs 67-77 *)
  Definition bk_neg (h : heap T) (a : arr) : res (heap T * arr) :=
    match neon B with Some L => snd_unary L neg zero h a | None => nd_unary (fun x => Ok (neg x)) zero h a end.
  (** sum: src/ops/reduce_sum.rs 61-107, apple_vdsp takes precedence; product:
      reduce_product.rs 61-88, which has no vDSP version *)
  Definition gsum (v acc : T) : res T := Ok (add acc v).
  Definition gproduct (v acc : T) : res T := Ok (mul acc v).
  Definition bk_sum (h : heap T) (a : arr) : res (heap T * arr) :=
    match vdsp B, neon B with
    | Some lib, _ => vnd_reduce lib gsum zero h a
    | None, Some L => snd_sum L add zero h a
    | None, None => nd_reduce gsum zero h a
    end.
  Definition bk_product (h : heap T) (a : arr) : res (heap T * arr) :=
    match neon B with Some L => snd_product L mul one h a | None => nd_reduce gproduct one h a end.

  (** programs.  [BPlain] stands for the commands of Prog.v that no feature replaces, among them
      % and the bitwise operators, and reductions of integers.  nd_fill calls vDSP_vfill with
      apple_vdsp, which stores the same value in the same places.  The maximum and minimum of
      floats have their own versions (Simd.v, Vdsp.v) and are not commands here. *)
  Inductive bcmd :=
  | BPlain (c : @cmd T)
  | BBinary (o : arith) (k1 k2 : nat)
  | BScalarOp (o : arith) (k : nat) (c : T)
  | BNeg (k : nat)
  | BAssign (o : arith) (k1 k2 : nat)
  | BAssignScalar (o : arith) (k : nat) (c : T)
  | BSum (k : nat)
  | BProduct (k : nat)
  | BDot (k1 k2 : nat)
  | BMatmul (k1 k2 : nat)
  | BBmm (k1 k2 : nat)
  | BEinsum (ks : list nat) (subs : list (list Z)) (out : list Z).

  Definition plain (c : @cmd T) : bool :=
    match c with CDot _ _ | CMatmul _ _ | CBmm _ _ | CEinsum _ _ _ => false | _ => true end.

  (** the command without features *)
  Definition erase (c : bcmd) : @cmd T :=
    match c with
    | BPlain c => c
    | BBinary o k1 k2 => CBinary (opM o) k1 k2
    | BScalarOp o k c => CScalarOp (opM o) k c
    | BNeg k => CUnary (fun x => Ok (neg x)) k
    | BAssign o k1 k2 => CAssign (opM o) k1 k2
    | BAssignScalar o k c => CAssignScalar (opM o) k c
    | BSum k => CReduce gsum zero k
    | BProduct k => CReduce gproduct one k
    | BDot k1 k2 => CDot k1 k2
    | BMatmul k1 k2 => CMatmul k1 k2
    | BBmm k1 k2 => CBmm k1 k2
    | BEinsum ks subs out => CEinsum ks subs out
    end.

  Definition run (c : bcmd) (s : @state T) : res state :=
    let h := s_heap s in
    match c with
    | BPlain c => exec zero one add mul eqb c s
    | BBinary o k1 k2 => a <- nth_arr s k1 ;; b <- nth_arr s k2 ;; made s (bk_binary o h (fst a) (fst b))
    | BScalarOp o k c => a <- nth_arr s k ;; made s (bk_scalar_op o h (fst a) c)
    | BNeg k => a <- nth_arr s k ;; made s (bk_neg h (fst a))
    | BAssign o k1 k2 => a <- nth_arr s k1 ;; b <- nth_arr s k2 ;; stored s (bk_assign o h (fst a) (fst b))
    | BAssignScalar o k c => a <- nth_arr s k ;; stored s (bk_assign_scalar o h (fst a) c)
    | BSum k => a <- nth_arr s k ;; made s (bk_sum h (fst a))
    | BProduct k => a <- nth_arr s k ;; made s (bk_product h (fst a))
    | BDot k1 k2 => a <- nth_arr s k1 ;; b <- nth_arr s k2 ;; made s (bk_nd_dot h (fst a) (fst b))
    | BMatmul k1 k2 => a <- nth_arr s k1 ;; b <- nth_arr s k2 ;; made s (bk_matmul h (fst a) (fst b))
    | BBmm k1 k2 => a <- nth_arr s k1 ;; b <- nth_arr s k2 ;; made s (bk_bmm h (fst a) (fst b))
    | BEinsum ks subs out => l <- mapM (nth_arr s) ks ;; made s (bk_einsum h (map fst l) subs out)
    end.
  Fixpoint run_all (cs : list bcmd) (s : state) : res state :=
    match cs with [] => Ok s | c :: cs' => s' <- run c s ;; run_all cs' s' end.
End Builds.
