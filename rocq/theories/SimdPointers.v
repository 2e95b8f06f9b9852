(** SimdPointers.v: the vectorised loops of Simd.v with the rule of Rust for moving pointers, as
    Pointers.v has it for the portable loops.  A load or store at ptr.add(k) needs no check of its
    own: its first element is the result of the move.  The moves at the end of each iteration do. *)
From Coq Require Import List Arith Lia Bool ZArith.
From Verif Require Import Base Layout Views Kernels Access Reduce Einsum Pointers Simd.
Import ListNotations.
Open Scope res_scope.

Section Vec.
  Context {T : Type}.
  (** LANES: src/acceleration/simd.rs 105, 220 *)
  Variable L : nat.
  Variable f : T -> T -> T.

  (** the moves at the end of an unrolled iteration: src/ops/simd_binary_ops.rs 28-30, 62-64,
      101-104, 137-139, 171-173, 210-213, 251-254, 294-297; a constant operand is not moved *)
  Definition omove4 (h : heap T) (o : opnd T) : res (opnd T) :=
    match o with
    | OConst v p => Ok (OConst v p)
    | OUnit p => q <- src_move h p (4 * L) ;; Ok (OUnit q)
    | OStride p s => q <- src_move h p (4 * s * L) ;; Ok (OStride q s)
    end.
  (** the moves of the scalar loop, e.g. lines 36-38 *)
  Definition omove1 (h : heap T) (o : opnd T) : res (opnd T) :=
    match o with
    | OConst v p => Ok (OConst v p)
    | OUnit p => q <- src_move h p 1 ;; Ok (OUnit q)
    | OStride p s => q <- src_move h p s ;; Ok (OStride q s)
    end.

  (** the scalar loop, e.g. lines 33-39 *)
  Fixpoint ps_tail (h : heap T) (a b : opnd T) (dst : ptr) (count : nat) : res (heap T) :=
    match count with
    | O => Ok h
    | S c =>
        x <- oelt h a ;; y <- oelt h b ;; h' <- st h dst (f x y) ;;
        a' <- omove1 h' a ;; b' <- omove1 h' b ;; dst' <- move h' dst 1 ;; ps_tail h' a' b' dst' c
    end.
  (** the unrolled loop, e.g. lines 12-31; fuel as in Simd.v *)
  Fixpoint ps_main (fuel : nat) (h : heap T) (a b : opnd T) (dst : ptr) (count : nat) : res (heap T) :=
    if 4 * L <=? count then
      match fuel with
      | O => Panic
      | S fuel' =>
          a0 <- ovec L h a 0 ;; b0 <- ovec L h b 0 ;;
          a1 <- ovec L h a 1 ;; b1 <- ovec L h b 1 ;;
          a2 <- ovec L h a 2 ;; b2 <- ovec L h b 2 ;;
          a3 <- ovec L h a 3 ;; b3 <- ovec L h b 3 ;;
          h0 <- vstore h (padd dst (0 * L)) (map2 f a0 b0) ;;
          h1 <- vstore h0 (padd dst (1 * L)) (map2 f a1 b1) ;;
          h2 <- vstore h1 (padd dst (2 * L)) (map2 f a2 b2) ;;
          h3 <- vstore h2 (padd dst (3 * L)) (map2 f a3 b3) ;;
          a' <- omove4 h3 a ;; b' <- omove4 h3 b ;; dst' <- move h3 dst (4 * L) ;;
          ps_main fuel' h3 a' b' dst' (count - 4 * L)
      end
    else ps_tail h a b dst count.

  (** simd_<op>_stride_0_1 and so on: src/ops/simd_binary_ops.rs 9-308 *)
  Definition ps_0_n (h : heap T) (lhs : src T) (b : opnd T) (dst : ptr) (n : nat) : res (heap T) :=
    x <- src_ld h lhs ;; ps_main (S n) h (OConst x lhs) b dst n.
  Definition ps_n_0 (h : heap T) (a : opnd T) (rhs : src T) (dst : ptr) (n : nat) : res (heap T) :=
    y <- src_ld h rhs ;; ps_main (S n) h a (OConst y rhs) dst n.
  Definition ps_n_n (h : heap T) (a b : opnd T) (dst : ptr) (n : nat) : res (heap T) := ps_main (S n) h a b dst n.

  Let pf : T -> T -> res T := fun x y => Ok (f x y).

  (** <op>_scalar: src/ops/binary_ops.rs 135-160 with the replaced kernels *)
  Definition ps_scalar (h : heap T) (lhs : ptr) (lsh lst : list nat) (c : T) (dst : ptr) : res (heap T) :=
    match lst with
    | [] => x <- ld h lhs ;; v <- pf x c ;; st h dst v
    | _ =>
        let '(sh, str) := collapse lsh lst in
        inner <- last_of str ;;
        if length sh =? 1 then
          n <- vget sh 0 ;;
          if inner =? 1 then ps_n_0 h (OUnit (Mem lhs)) (Val c) dst n
          else ps_n_0 h (OStride (Mem lhs) inner) (Val c) dst n
        else p_xn pf h (Mem lhs) sh str (Val c) 0 dst (prod sh)
    end.

  (** <op>: src/ops/binary_ops.rs 162-249 with the replaced kernels *)
  Definition ps_binary (h : heap T) (lhs : ptr) (lst0 : list nat) (rhs : ptr) (rst0 : list nat) (dst : ptr) (shape : list nat) : res (heap T) :=
    if (length lst0 =? 0) && (length rst0 =? 0) then
      x <- ld h lhs ;; y <- ld h rhs ;; v <- pf x y ;; st h dst v
    else
      let '(lsh, lst) := collapse shape lst0 in
      let '(rsh, rst) := collapse shape rst0 in
      li <- last_of lst ;;
      ri <- last_of rst ;;
      ln <- vget lsh 0 ;;
      rn <- vget rsh 0 ;;
      let ld1 := length lsh =? 1 in
      let rd1 := length rsh =? 1 in
      if ld1 && rd1 then
        if ri =? 0 then
          if li =? 1 then ps_n_0 h (OUnit (Mem lhs)) (Mem rhs) dst ln
          else ps_n_0 h (OStride (Mem lhs) li) (Mem rhs) dst ln
        else if li =? 0 then
          if ri =? 1 then ps_0_n h (Mem lhs) (OUnit (Mem rhs)) dst rn
          else ps_0_n h (Mem lhs) (OStride (Mem rhs) ri) dst rn
        else if (li =? 1) && (ri =? 1) then ps_n_n h (OUnit (Mem lhs)) (OUnit (Mem rhs)) dst ln
        else if li =? 1 then ps_n_n h (OUnit (Mem lhs)) (OStride (Mem rhs) ri) dst ln
        else if ri =? 1 then ps_n_n h (OStride (Mem lhs) li) (OUnit (Mem rhs)) dst rn
        else ps_n_n h (OStride (Mem lhs) li) (OStride (Mem rhs) ri) dst ln
      else if rd1 && (ri =? 0) then p_xn pf h (Mem lhs) lsh lst (Mem rhs) 0 dst rn
      else if ld1 && (li =? 0) then p_nx pf h (Mem lhs) 0 (Mem rhs) rsh rst dst ln
      else if rd1 && (ri =? 1) then p_xn pf h (Mem lhs) lsh lst (Mem rhs) 1 dst rn
      else if ld1 && (li =? 1) then p_nx pf h (Mem lhs) 1 (Mem rhs) rsh rst dst ln
      else if rd1 then p_xn pf h (Mem lhs) lsh lst (Mem rhs) ri dst rn
      else if ld1 then p_nx pf h (Mem lhs) li (Mem rhs) rsh rst dst ln
      else p_xx pf h (Mem lhs) lsh lst (Mem rhs) rsh rst dst.

  (** &a op &b, &a op scalar: src/ndarray/binary_ops.rs 37-51, 64-73 *)
  Definition psd_binary (dflt : T) (h : heap T) (a b : arr) : res (heap T * arr) :=
    shape <- broadcast_shapes (a_shape a) (a_shape b) ;;
    ls <- broadcast_stride (a_stride a) shape (a_shape a) ;;
    rs <- broadcast_stride (a_stride b) shape (a_shape b) ;;
    let '(h1, blk) := alloc h (repeat dflt (prod shape)) in
    h2 <- ps_binary h1 (a_ptr a) ls (a_ptr b) rs (blk, 0) shape ;;
    Ok (h2, fresh_arr blk (prod shape) shape).
  Definition psd_scalar_op (dflt : T) (h : heap T) (a : arr) (c : T) : res (heap T * arr) :=
    let '(h1, blk) := alloc h (repeat dflt (prod (a_shape a))) in
    h2 <- ps_scalar h1 (a_ptr a) (a_shape a) (a_stride a) c (blk, 0) ;;
    Ok (h2, fresh_arr blk (prod (a_shape a)) (a_shape a)).
  (** a op= &b, a op= scalar: src/ndarray/assign_ops.rs 23-46, 50-59 *)
  Definition psd_assign (h : heap T) (a b : arr) : res (heap T) :=
    _ <- guard (f_write (a_fl a)) ;;
    if list_eqb (a_shape b) (a_shape a) then
      ps_binary h (a_ptr a) (a_stride a) (a_ptr b) (a_stride b) (a_ptr a) (a_shape a)
    else
      b' <- nd_broadcast_to b (a_shape a) ;;
      ps_binary h (a_ptr a) (a_stride a) (a_ptr b') (a_stride b') (a_ptr a) (a_shape a).
  Definition psd_assign_scalar (h : heap T) (a : arr) (c : T) : res (heap T) :=
    _ <- guard (f_write (a_fl a)) ;;
    ps_scalar h (a_ptr a) (a_shape a) (a_stride a) c (a_ptr a).
End Vec.

(** Negation: src/ops/simd_neg.rs *)
Section Neg.
  Context {T : Type}.
  Variable L : nat.
  Variable g : T -> T.

  (** lines 28-34, 61-67 *)
  Fixpoint ps_neg_tail (h : heap T) (a : opnd T) (dst : ptr) (count : nat) : res (heap T) :=
    match count with
    | O => Ok h
    | S c =>
        x <- oelt h a ;; h' <- st h dst (g x) ;;
        a' <- omove1 h' a ;; dst' <- move h' dst 1 ;; ps_neg_tail h' a' dst' c
    end.
  (** lines 6-35 on [OUnit], 38-68 on [OStride] *)
  Fixpoint ps_neg (fuel : nat) (h : heap T) (a : opnd T) (dst : ptr) (count : nat) : res (heap T) :=
    if 4 * L <=? count then
      match fuel with
      | O => Panic
      | S fuel' =>
          a0 <- ovec L h a 0 ;; a1 <- ovec L h a 1 ;; a2 <- ovec L h a 2 ;; a3 <- ovec L h a 3 ;;
          h0 <- vstore h (padd dst (0 * L)) (map g a0) ;;
          h1 <- vstore h0 (padd dst (1 * L)) (map g a1) ;;
          h2 <- vstore h1 (padd dst (2 * L)) (map g a2) ;;
          h3 <- vstore h2 (padd dst (3 * L)) (map g a3) ;;
          a' <- omove4 L h3 a ;; dst' <- move h3 dst (4 * L) ;;
          ps_neg fuel' h3 a' dst' (count - 4 * L)
      end
    else ps_neg_tail h a dst count.
  (** neg: src/ops/unary_ops.rs 38-60 with the kernels of lines 68-76 *)
  Definition ps_unary (h : heap T) (op : ptr) (shape stride : list nat) (dst : ptr) : res (heap T) :=
    match shape with
    | [] => x <- ld h op ;; st h dst (g x)
    | _ =>
        let '(sh, str) := collapse shape stride in
        if length sh =? 1 then
          n <- vget sh 0 ;;
          s <- vget str 0 ;;
          if s =? 0 then ps_neg (S n) h (OStride (Mem op) 0) dst n
          else if s =? 1 then ps_neg (S n) h (OUnit (Mem op)) dst n
          else ps_neg (S n) h (OStride (Mem op) s) dst n
        else is <- fig_list sh str ;; p_ux_go (fun x => Ok (g x)) h op is dst
    end.
  (** -&a: src/ndarray/unary_ops.rs 14-21 *)
  Definition psd_unary (dflt : T) (h : heap T) (a : arr) : res (heap T * arr) :=
    let '(h1, blk) := alloc h (repeat dflt (prod (a_shape a))) in
    h2 <- ps_unary h1 (a_ptr a) (a_shape a) (a_stride a) (blk, 0) ;;
    Ok (h2, fresh_arr blk (prod (a_shape a)) (a_shape a)).
End Neg.

(** Reductions: src/ops/simd_reduce_ops.rs *)
Section RedVec.
  Context {T : Type}.
  Variable L : nat.
  Variable op : T -> T -> T.
  Variable hor : list T -> res T.
  Variable step : T -> T -> T.

  (** e.g. lines 20-23, 49-52 *)
  Fixpoint ps_red_tail (h : heap T) (p : ptr) (count s : nat) (out : T) : res T :=
    match count with
    | O => Ok out
    | S c => x <- ld h p ;; p' <- move h p s ;; ps_red_tail h p' c s (step out x)
    end.
  (** lines 7-26, 58-77, 108-126, 158-176 *)
  Fixpoint ps_uniform_go (fuel : nat) (h : heap T) (p : ptr) (count s : nat) (acc : list T) : res T :=
    if L <=? count then
      match fuel with
      | O => Panic
      | S fuel' =>
          v <- vgather L h (Mem p) s ;; p' <- move h p (s * L) ;;
          ps_uniform_go fuel' h p' (count - L) s (map2 op acc v)
      end
    else out <- hor acc ;; ps_red_tail h p count s out.
  Definition ps_uniform (init : T) (h : heap T) (p : ptr) (count s : nat) : res T :=
    ps_uniform_go (S count) h p count s (repeat init L).
  (** lines 29-55, 129-155, 179-205 *)
  Fixpoint ps_contig_go (fuel : nat) (h : heap T) (p : ptr) (count : nat) (acc : list T) : res T :=
    if 4 * L <=? count then
      match fuel with
      | O => Panic
      | S fuel' =>
          a <- vload L h (Mem (padd p (0 * L))) ;; b <- vload L h (Mem (padd p (1 * L))) ;;
          c <- vload L h (Mem (padd p (2 * L))) ;; d <- vload L h (Mem (padd p (3 * L))) ;;
          p' <- move h p (4 * L) ;;
          ps_contig_go fuel' h p' (count - 4 * L) (map2 op acc (map2 op (map2 op a b) (map2 op c d)))
      end
    else out <- hor acc ;; ps_red_tail h p count 1 out.
  Definition ps_contig (init : T) (h : heap T) (p : ptr) (count : nat) : res T :=
    ps_contig_go (S count) h p count (repeat init L).
  (** simd_product_contiguous: lines 80-105 *)
  Fixpoint ps_each_go (fuel : nat) (h : heap T) (p : ptr) (count : nat) (out : T) : res T :=
    if 4 * L <=? count then
      match fuel with
      | O => Panic
      | S fuel' =>
          a <- vload L h (Mem (padd p (0 * L))) ;; b <- vload L h (Mem (padd p (1 * L))) ;;
          c <- vload L h (Mem (padd p (2 * L))) ;; d <- vload L h (Mem (padd p (3 * L))) ;;
          p' <- move h p (4 * L) ;; x <- hor (map2 op (map2 op a b) (map2 op c d)) ;;
          ps_each_go fuel' h p' (count - 4 * L) (step out x)
      end
    else ps_red_tail h p count 1 out.
  Definition ps_each (init : T) (h : heap T) (p : ptr) (count : nat) : res T :=
    ps_each_go (S count) h p count init.
End RedVec.

(** sum, product, min, max: src/ops/reduce_sum.rs 42-56 and 62-76, reduce_product.rs 42-56 and
    62-75, reduce_min.rs and reduce_max.rs 41-55 and 61-83; the dispatch is [sk_reduce] of Simd.v *)
Section Reds.
  Context {T : Type}.
  Variable L : nat.
  Definition psd_sum (add : T -> T -> T) (zero : T) (h : heap T) (a : arr) : res (heap T * arr) :=
    v <- sk_reduce (ps_contig L add (hor_pairs add) add zero) (ps_uniform L add (hor_pairs add) add zero) (fun v acc => Ok (add acc v)) zero
           h (a_ptr a) (a_shape a) (a_stride a) ;;
    nd_scalar h v.
  Definition psd_product (mul : T -> T -> T) (one : T) (h : heap T) (a : arr) : res (heap T * arr) :=
    v <- sk_reduce (ps_each L mul (hor_halves mul) mul one) (ps_uniform L mul (hor_halves mul) mul one) (fun v acc => Ok (mul acc v)) one
           h (a_ptr a) (a_shape a) (a_stride a) ;;
    nd_scalar h v.
  Variable ltb : T -> T -> bool.
  Definition psd_min (vmin : T -> T -> T) (top : T) (h : heap T) (a : arr) : res (heap T * arr) :=
    v <- sk_reduce (ps_contig L vmin (hor_pairs vmin) (pmin ltb) top) (ps_uniform L vmin (hor_pairs vmin) (pmin ltb) top) (partial_min ltb) top
           h (a_ptr a) (a_shape a) (a_stride a) ;;
    nd_scalar h v.
  Definition psd_max (vmax : T -> T -> T) (bot : T) (h : heap T) (a : arr) : res (heap T * arr) :=
    v <- sk_reduce (ps_contig L vmax (hor_pairs vmax) (pmax ltb) bot) (ps_uniform L vmax (hor_pairs vmax) (pmax ltb) bot) (partial_max ltb) bot
           h (a_ptr a) (a_shape a) (a_stride a) ;;
    nd_scalar h v.
End Reds.

(** Sums of products: src/ops/simd_sum_of_products.rs *)
Section SopVec.
  Context {T : Type}.
  Variable L : nat.
  Variable zero one : T.
  Variable add mul : T -> T -> T.
  Variable fma : T -> T -> T -> T.

  (** simd_sum_of_products_muladd: 12-62, its three loops *)
  Fixpoint psma_tail (h : heap T) (scalar : T) (src dst : ptr) (count : nat) : res (heap T) :=
    match count with
    | O => Ok h
    | S c =>
        x <- ld h src ;; y <- ld h dst ;; h' <- st h dst (fma scalar x y) ;;
        dst' <- move h' dst 1 ;; src' <- move h' src 1 ;; psma_tail h' scalar src' dst' c
    end.
  Fixpoint psma_one (fuel : nat) (h : heap T) (scalar : T) (src dst : ptr) (count : nat) : res (heap T) :=
    if L <=? count then
      match fuel with
      | O => Panic
      | S fuel' =>
          a <- vload L h (Mem src) ;; d <- vload L h (Mem dst) ;;
          h' <- vstore h dst (vmuladd fma d (repeat scalar L) a) ;;
          dst' <- move h' dst L ;; src' <- move h' src L ;; psma_one fuel' h' scalar src' dst' (count - L)
      end
    else psma_tail h scalar src dst count.
  Fixpoint psma_four (fuel : nat) (h : heap T) (scalar : T) (src dst : ptr) (count : nat) : res (heap T) :=
    if 4 * L <=? count then
      match fuel with
      | O => Panic
      | S fuel' =>
          a <- vload L h (Mem (padd src (0 * L))) ;; b <- vload L h (Mem (padd src (1 * L))) ;;
          c <- vload L h (Mem (padd src (2 * L))) ;; d <- vload L h (Mem (padd src (3 * L))) ;;
          a' <- vload L h (Mem (padd dst (0 * L))) ;; b' <- vload L h (Mem (padd dst (1 * L))) ;;
          c' <- vload L h (Mem (padd dst (2 * L))) ;; d' <- vload L h (Mem (padd dst (3 * L))) ;;
          let s := repeat scalar L in
          h0 <- vstore h (padd dst (0 * L)) (vmuladd fma a' s a) ;;
          h1 <- vstore h0 (padd dst (1 * L)) (vmuladd fma b' s b) ;;
          h2 <- vstore h1 (padd dst (2 * L)) (vmuladd fma c' s c) ;;
          h3 <- vstore h2 (padd dst (3 * L)) (vmuladd fma d' s d) ;;
          dst' <- move h3 dst (4 * L) ;; src' <- move h3 src (4 * L) ;;
          psma_four fuel' h3 scalar src' dst' (count - 4 * L)
      end
    else psma_one (S count) h scalar src dst count.
  (** sum_of_products_muladd: src/linalg/sum_of_products.rs 237-267 *)
  Definition pssop_muladd (h : heap T) (p0 p1 dst : ptr) (count : nat) : res (heap T) :=
    _ <- uassert (0 <? count) ;; scalar <- ld h p0 ;; psma_four (S count) h scalar p1 dst count.

  (** the summing loops of simd_sum_of_scaled_array: 75-107; the last one reads *src.add(i) *)
  Fixpoint pssa_one (fuel : nat) (h : heap T) (src : ptr) (count : nat) (sum : list T) : res T :=
    if L <=? count then
      match fuel with
      | O => Panic
      | S fuel' => a <- vload L h (Mem src) ;; src' <- move h src L ;; pssa_one fuel' h src' (count - L) (map2 add sum a)
      end
    else s <- hor_pairs add sum ;; red_tail add h src count 1 s.
  Fixpoint pssa_four (fuel : nat) (h : heap T) (src : ptr) (count : nat) (sum : list T) : res T :=
    if 4 * L <=? count then
      match fuel with
      | O => Panic
      | S fuel' =>
          a <- vload L h (Mem (padd src (0 * L))) ;; b <- vload L h (Mem (padd src (1 * L))) ;;
          c <- vload L h (Mem (padd src (2 * L))) ;; d <- vload L h (Mem (padd src (3 * L))) ;;
          src' <- move h src (4 * L) ;;
          pssa_four fuel' h src' (count - 4 * L) (map2 add sum (map2 add (map2 add a b) (map2 add c d)))
      end
    else pssa_one (S count) h src count sum.
  (** simd_sum_of_scaled_array: 71-110 *)
  Definition pssop_scaled (h : heap T) (p0 p1 dst : ptr) (count : nat) : res (heap T) :=
    _ <- uassert (0 <? count) ;;
    scalar <- ld h p0 ;;
    sum <- pssa_four (S count) h p1 count (repeat zero L) ;;
    y <- ld h dst ;; st h dst (fma scalar sum y).

  (** simd_dot_product: 114-166 *)
  Fixpoint psdp_tail (h : heap T) (p0 p1 : ptr) (count : nat) (sum : T) : res T :=
    match count with
    | O => Ok sum
    | S c =>
        x <- ld h p0 ;; y <- ld h p1 ;;
        p0' <- move h p0 1 ;; p1' <- move h p1 1 ;; psdp_tail h p0' p1' c (fma x y sum)
    end.
  Fixpoint psdp_one (fuel : nat) (h : heap T) (p0 p1 : ptr) (count : nat) (sum : list T) : res T :=
    if L <=? count then
      match fuel with
      | O => Panic
      | S fuel' =>
          a <- vload L h (Mem p0) ;; b <- vload L h (Mem p1) ;;
          p0' <- move h p0 L ;; p1' <- move h p1 L ;; psdp_one fuel' h p0' p1' (count - L) (vmuladd fma sum a b)
      end
    else s <- hor_pairs add sum ;; psdp_tail h p0 p1 count s.
  Fixpoint psdp_four (fuel : nat) (h : heap T) (p0 p1 : ptr) (count : nat) (sum : list T) : res T :=
    if 4 * L <=? count then
      match fuel with
      | O => Panic
      | S fuel' =>
          a0 <- vload L h (Mem (padd p0 (0 * L))) ;; b0 <- vload L h (Mem (padd p1 (0 * L))) ;;
          a1 <- vload L h (Mem (padd p0 (1 * L))) ;; b1 <- vload L h (Mem (padd p1 (1 * L))) ;;
          a2 <- vload L h (Mem (padd p0 (2 * L))) ;; b2 <- vload L h (Mem (padd p1 (2 * L))) ;;
          a3 <- vload L h (Mem (padd p0 (3 * L))) ;; b3 <- vload L h (Mem (padd p1 (3 * L))) ;;
          p0' <- move h p0 (4 * L) ;; p1' <- move h p1 (4 * L) ;;
          psdp_four fuel' h p0' p1' (count - 4 * L)
            (map2 add sum (map2 add (map2 add (map2 mul a0 b0) (map2 mul a1 b1))
                                    (map2 add (map2 mul a2 b2) (map2 mul a3 b3))))
      end
    else psdp_one (S count) h p0 p1 count sum.
  (** dot_product: src/ops/dot_product.rs 61-64 *)
  Definition psdot (h : heap T) (p0 p1 dst : ptr) (count : nat) : res (heap T) :=
    s <- psdp_four (S count) h p0 p1 count (repeat zero L) ;; old <- ld h dst ;; st h dst (add old s).

  Let padd2 : T -> T -> res T := fun x y => Ok (add x y).
  Let pmul2 : T -> T -> res T := fun x y => Ok (mul x y).

  (** the case table: src/linalg/sum_of_products.rs 8-37 *)
  Definition pssop_two (h : heap T) (p0 : ptr) (s0 : nat) (p1 : ptr) (s1 : nat) (dst : ptr) (ds count : nat) : res (heap T) :=
    let code := (if s0 =? 0 then 0 else if s0 =? 1 then 4 else 8) +
                (if s1 =? 0 then 0 else if s1 =? 1 then 2 else 8) +
                (if ds =? 0 then 0 else if ds =? 1 then 1 else 8) in
    match code with
    | 2 => pssop_scaled h p0 p1 dst count
    | 3 => pssop_muladd h p0 p1 dst count
    | 4 => pssop_scaled h p1 p0 dst count
    | 5 => pssop_muladd h p1 p0 dst count
    | 6 => _ <- uassert (0 <? count) ;; psdot h p0 p1 dst count
    | 7 => _ <- uassert (0 <? count) ;; p_111_go padd2 pmul2 h p0 p1 dst count
    | _ =>
        if ds =? 0 then sop_out0 zero one padd2 pmul2 h [p0; p1] [s0; s1] dst count
        else sop_generic one padd2 pmul2 h [p0; p1] [s0; s1] dst ds count
    end.
  Definition pssop_fixed (h : heap T) (ps : list ptr) (ss : list nat) (dst : ptr) (ds count : nat) : res (heap T) :=
    match ps, ss with
    | [p0; p1], [s0; s1] => pssop_two h p0 s0 p1 s1 dst ds count
    | _, _ => if ds =? 0 then sop_out0 zero one padd2 pmul2 h ps ss dst count
              else sop_generic one padd2 pmul2 h ps ss dst ds count
    end.
  (** the loops: specialized_einsum.rs 45-192, as in Pointers.v *)
  Definition ps_2labels (h : heap T) (bases : list ptr) (d0 d1 : list nat) (n0 n1 : nat) (dst : ptr) : res (heap T) :=
    _ <- uassert (0 <? n0) ;; _ <- uassert (0 <? n1) ;;
    for_each (fun i h => call_sop pssop_fixed h bases dst (scale i d1) d0 n0) (seq 0 n1) h.
  Definition ps_3labels (h : heap T) (bases : list ptr) (d0 d1 d2 : list nat) (n0 n1 n2 : nat) (dst : ptr) : res (heap T) :=
    _ <- uassert (0 <? n0) ;; _ <- uassert (0 <? n1) ;; _ <- uassert (0 <? n2) ;;
    for_each (fun i h =>
      for_each (fun j h => call_sop pssop_fixed h bases dst (add_lists (scale i d2) (scale j d1)) d0 n0)
        (seq 0 n1) h) (seq 0 n2) h.
  Definition ps_run_einsum (h : heap T) (bases : list ptr) (strides : list (list nat)) (iter_shape : list nat) (dst : ptr) : res (heap T) :=
    if (length bases =? 1) || (length bases =? 2) then
      match strides, iter_shape with
      | [d0; d1], [n0; n1] => ps_2labels h bases d0 d1 n0 n1 dst
      | [d0; d1; d2], [n0; n1; n2] => ps_3labels h bases d0 d1 d2 n0 n1 n2 dst
      | _, _ => unspecialized zero one padd2 pmul2 h bases strides iter_shape dst
      end
    else unspecialized zero one padd2 pmul2 h bases strides iter_shape dst.
  (** einsum: src/linalg/einsum.rs 403-433 *)
  Definition psd_einsum (h : heap T) (ops : list arr) (subs : list (list Z)) (out : list Z) : res (heap T * arr) :=
    r <- prepare_einsum ops subs out ;;
    let '(strides, iter_shape, out_shape) := r in
    let '(h1, b) := alloc h (repeat zero (prod out_shape)) in
    h2 <- ps_run_einsum h1 (map a_ptr ops) strides iter_shape (b, 0) ;;
    Ok (h2, fresh_arr b (prod out_shape) out_shape).

  (** einsum_into_ptr: src/linalg/einsum.rs 434-466, as in Simd.v; filling has a step of 1 *)
  Definition ps_into_ptr (h : heap T) (ops : list arr) (subs : list (list Z)) (out : list Z) (result_stride : list nat) (result : ptr) : res (heap T) :=
    r <- prepare_einsum ops subs out ;;
    let '(strides, iter_shape, out_shape) := r in
    _ <- match has_uniform_stride out_shape result_stride with Some s => guard (s =? 1) | None => Ok tt end ;;
    h1 <- k_fill h result out_shape result_stride (prod out_shape) zero ;;
    ps_run_einsum h1 (map a_ptr ops) strides iter_shape result.
  (** the products of two matrices and of two batches: src/linalg/matrix_ops.rs 362-376, 386-392, as in Simd.v and Pointers.v *)
  Definition ps_matrix_matrix (h : heap T) (a b : arr) (rstride : list nat) (dst : ptr) : res (heap T) :=
    ps_into_ptr h [a; b] matmul_subs matmul_out rstride dst.
  Definition psd_matmul (h : heap T) (a b : arr) : res (heap T * arr) :=
    match a_shape a, a_shape b with
    | [n; k], [k'; m] =>
        _ <- guard (k =? k') ;;
        r <- nd_full h zero [n; m] ;;
        let '(h1, r) := r in
        h2 <- ps_matrix_matrix h1 a b (a_stride r) (a_ptr r) ;; Ok (h2, r)
    | _, _ => Panic
    end.
  Fixpoint ps_bmm_go (h : heap T) (a b : arr) (sa sb : nat) (rstride : list nat) (rs : nat) (dst : ptr) (n : nat) : res (heap T) :=
    match n with
    | O => Ok h
    | S n' =>
        h' <- ps_matrix_matrix h a b rstride dst ;;
        dst' <- move h' dst rs ;; a' <- move_arr h' a sa ;; b' <- move_arr h' b sb ;;
        ps_bmm_go h' a' b' sa sb rstride rs dst' n'
    end.
  Definition psd_bmm (h : heap T) (a b : arr) : res (heap T * arr) :=
    match a_shape a, a_shape b with
    | [n; i; _], [n'; _; k] =>
        _ <- guard (n =? n') ;;
        r <- nd_full h zero [n; i; k] ;;
        let '(h1, r) := r in
        la <- nd_slice_along a 0 (IUsize 0) ;;
        lb <- nd_slice_along b 0 (IUsize 0) ;;
        sa <- vget (a_stride a) 0 ;;
        sb <- vget (a_stride b) 0 ;;
        rs <- vget (a_stride r) 0 ;;
        h2 <- ps_bmm_go h1 la lb sa sb (tl (a_stride r)) rs (a_ptr r) n ;; Ok (h2, r)
    | _, _ => Panic
    end.
End SopVec.
