(** Simd.v: model of the kernels compiled with cfg(neon_simd), for the element types f32
    and f64, and of the operators built on them.  A vector register is the list of its
    lanes; the element operations are total, as they are for floating point. *)
From Coq Require Import List Arith Lia Bool ZArith.
From Verif Require Import Base Layout Views Kernels Access Reduce Einsum.
Import ListNotations.
Open Scope res_scope.

(** lane-wise application of a two-operand instruction (vaddq, vsubq, vmulq, vdivq, vminq,
    vmaxq) *)
Fixpoint map2 {A B C} (f : A -> B -> C) (l : list A) (r : list B) : list C :=
  match l, r with a :: l', b :: r' => f a b :: map2 f l' r' | _, _ => [] end.

Section Vec.
  Context {T : Type}.
  (** LANES: src/acceleration/simd.rs 105 (4 for f32) and 220 (2 for f64) *)
  Variable L : nat.

  (** vld1q: LANES consecutive elements (simd.rs 135, 248) *)
  Definition vload (h : heap T) (p : src T) : res (list T) := mapM (fun i => src_ld h (src_add p i)) (seq 0 L).

  (** vst1q: LANES consecutive elements (simd.rs 141, 254) *)
  Fixpoint vstore (h : heap T) (p : ptr) (vs : list T) : res (heap T) :=
    match vs with [] => Ok h | v :: r => h' <- st h p v ;; vstore h' (padd p 1) r end.

  (** simd_vec_from_stride: simd.rs 9-27 with simd_from_array (115-126, 230-239) *)
  Definition vgather (h : heap T) (p : src T) (s : nat) : res (list T) :=
    if L =? 4 then
      a <- src_ld h (src_add p (0 * s)) ;; b <- src_ld h (src_add p (1 * s)) ;;
      c <- src_ld h (src_add p (2 * s)) ;; d <- src_ld h (src_add p (3 * s)) ;; Ok [a; b; c; d]
    else if L =? 2 then
      a <- src_ld h (src_add p (0 * s)) ;; b <- src_ld h (src_add p (1 * s)) ;; Ok [a; b]
    else if L =? 1 then a <- src_ld h p ;; Ok [a]
    else Panic.

  (** An operand of a vectorised loop: a register holding a constant next to the pointer it
      was read from (stride 0), a pointer read by simd_load (stride 1), or a pointer read by
      simd_vec_from_stride (stride n). *)
  Inductive opnd := OConst (v : T) (p : src T) | OUnit (p : src T) | OStride (p : src T) (s : nat).

  (** the k-th of the four vectors of an iteration *)
  Definition ovec (h : heap T) (o : opnd) (k : nat) : res (list T) :=
    match o with
    | OConst v _ => Ok (repeat v L)
    | OUnit p => vload h (src_add p (k * L))
    | OStride p s => vgather h (src_add p (k * s * L)) s
    end.
  Definition onext4 (o : opnd) : opnd :=
    match o with
    | OConst v p => OConst v p
    | OUnit p => OUnit (src_add p (4 * L))
    | OStride p s => OStride (src_add p (4 * s * L)) s
    end.
  (** the element read by the scalar loop, and its step *)
  Definition oelt (h : heap T) (o : opnd) : res T :=
    match o with OConst _ p => src_ld h p | OUnit p => src_ld h p | OStride p _ => src_ld h p end.
  Definition onext1 (o : opnd) : opnd :=
    match o with
    | OConst v p => OConst v p
    | OUnit p => OUnit (src_add p 1)
    | OStride p s => OStride (src_add p s) s
    end.

  Variable f : T -> T -> T.

  (** the scalar loop at the end of every kernel, e.g. src/ops/simd_binary_ops.rs 33-39 *)
  Fixpoint simd_tail (h : heap T) (a b : opnd) (dst : ptr) (count : nat) : res (heap T) :=
    match count with
    | O => Ok h
    | S c =>
        x <- oelt h a ;; y <- oelt h b ;; h' <- st h dst (f x y) ;;
        simd_tail h' (onext1 a) (onext1 b) (padd dst 1) c
    end.

  (** the unrolled loop, e.g. simd_binary_ops.rs 12-31; fuel bounds the iterations of
      [while count >= 4 * LANES] and never runs out when it starts above count *)
  Fixpoint simd_main (fuel : nat) (h : heap T) (a b : opnd) (dst : ptr) (count : nat) : res (heap T) :=
    if 4 * L <=? count then
      match fuel with
      | O => Panic
      | S fuel' =>
          a0 <- ovec h a 0 ;; b0 <- ovec h b 0 ;;
          a1 <- ovec h a 1 ;; b1 <- ovec h b 1 ;;
          a2 <- ovec h a 2 ;; b2 <- ovec h b 2 ;;
          a3 <- ovec h a 3 ;; b3 <- ovec h b 3 ;;
          h0 <- vstore h (padd dst (0 * L)) (map2 f a0 b0) ;;
          h1 <- vstore h0 (padd dst (1 * L)) (map2 f a1 b1) ;;
          h2 <- vstore h1 (padd dst (2 * L)) (map2 f a2 b2) ;;
          h3 <- vstore h2 (padd dst (3 * L)) (map2 f a3 b3) ;;
          simd_main fuel' h3 (onext4 a) (onext4 b) (padd dst (4 * L)) (count - 4 * L)
      end
    else simd_tail h a b dst count.

  (** simd_<op>_stride_0_1 and so on: src/ops/simd_binary_ops.rs 9-40, 43-74, 77-115,
      118-149, 152-183, 186-224, 227-265, 268-308.  The loads of one iteration are done in
      another order in some of them; they are all done before the first store. *)
  Definition simd_0_1 (h : heap T) (lhs rhs : src T) (dst : ptr) (n : nat) : res (heap T) :=
    x <- src_ld h lhs ;; simd_main (S n) h (OConst x lhs) (OUnit rhs) dst n.
  Definition simd_1_0 (h : heap T) (lhs rhs : src T) (dst : ptr) (n : nat) : res (heap T) :=
    y <- src_ld h rhs ;; simd_main (S n) h (OUnit lhs) (OConst y rhs) dst n.
  Definition simd_1_1 (h : heap T) (lhs rhs : src T) (dst : ptr) (n : nat) : res (heap T) :=
    simd_main (S n) h (OUnit lhs) (OUnit rhs) dst n.
  Definition simd_n_0 (h : heap T) (lhs : src T) (ls : nat) (rhs : src T) (dst : ptr) (n : nat) : res (heap T) :=
    y <- src_ld h rhs ;; simd_main (S n) h (OStride lhs ls) (OConst y rhs) dst n.
  Definition simd_0_n (h : heap T) (lhs rhs : src T) (rs : nat) (dst : ptr) (n : nat) : res (heap T) :=
    x <- src_ld h lhs ;; simd_main (S n) h (OConst x lhs) (OStride rhs rs) dst n.
  Definition simd_n_1 (h : heap T) (lhs : src T) (ls : nat) (rhs : src T) (dst : ptr) (n : nat) : res (heap T) :=
    simd_main (S n) h (OStride lhs ls) (OUnit rhs) dst n.
  Definition simd_1_n (h : heap T) (lhs rhs : src T) (rs : nat) (dst : ptr) (n : nat) : res (heap T) :=
    simd_main (S n) h (OUnit lhs) (OStride rhs rs) dst n.
  Definition simd_n_n (h : heap T) (lhs : src T) (ls : nat) (rhs : src T) (rs : nat) (dst : ptr) (n : nat)
      : res (heap T) :=
    simd_main (S n) h (OStride lhs ls) (OStride rhs rs) dst n.

  (** the non-uniform kernels are not replaced *)
  Let pf : T -> T -> res T := fun x y => Ok (f x y).

  (** <op>_scalar with the replaced kernels: src/ops/binary_ops.rs 135-160 *)
  Definition sk_scalar (h : heap T) (lhs : ptr) (lsh lst : list nat) (c : T) (dst : ptr) : res (heap T) :=
    match lst with
    | [] => x <- ld h lhs ;; v <- pf x c ;; st h dst v
    | _ =>
        let '(sh, str) := collapse lsh lst in
        inner <- last_of str ;;
        if length sh =? 1 then
          n <- vget sh 0 ;;
          if inner =? 1 then simd_1_0 h (Mem lhs) (Val c) dst n
          else simd_n_0 h (Mem lhs) inner (Val c) dst n
        else k_xn pf h (Mem lhs) sh str (Val c) 0 dst (prod sh)
    end.

  (** <op> with the replaced kernels: src/ops/binary_ops.rs 162-249; the replacement is
      simd_binary_op_specializations, src/ops/simd_binary_ops.rs 322-389, used by
      binary_op_add.rs, binary_op_sub.rs, binary_op_mul.rs and binary_op_div.rs *)
  Definition sk_binary (h : heap T) (lhs : ptr) (lst0 : list nat) (rhs : ptr) (rst0 : list nat)
      (dst : ptr) (shape : list nat) : res (heap T) :=
    if (length lst0 =? 0) && (length rst0 =? 0) then
      x <- ld h lhs ;; y <- ld h rhs ;; v <- pf x y ;; st h dst v
    else
      let '(lsh, lst) := collapse shape lst0 in
      let '(rsh, rst) := collapse shape rst0 in
      li <- last_of lst ;;
      ri <- last_of rst ;;
      ln <- vget lsh 0 ;;
      rn <- vget rsh 0 ;;
      let ld1 := length lsh =? 1 in
      let rd1 := length rsh =? 1 in
      if ld1 && rd1 then
        if ri =? 0 then
          if li =? 1 then simd_1_0 h (Mem lhs) (Mem rhs) dst ln
          else simd_n_0 h (Mem lhs) li (Mem rhs) dst ln
        else if li =? 0 then
          if ri =? 1 then simd_0_1 h (Mem lhs) (Mem rhs) dst rn
          else simd_0_n h (Mem lhs) (Mem rhs) ri dst rn
        else if (li =? 1) && (ri =? 1) then simd_1_1 h (Mem lhs) (Mem rhs) dst ln
        else if li =? 1 then simd_1_n h (Mem lhs) (Mem rhs) ri dst ln
        else if ri =? 1 then simd_n_1 h (Mem lhs) li (Mem rhs) dst rn
        else simd_n_n h (Mem lhs) li (Mem rhs) ri dst ln
      else if rd1 && (ri =? 0) then k_xn pf h (Mem lhs) lsh lst (Mem rhs) 0 dst rn
      else if ld1 && (li =? 0) then k_nx pf h (Mem lhs) 0 (Mem rhs) rsh rst dst ln
      else if rd1 && (ri =? 1) then k_xn pf h (Mem lhs) lsh lst (Mem rhs) 1 dst rn
      else if ld1 && (li =? 1) then k_nx pf h (Mem lhs) 1 (Mem rhs) rsh rst dst ln
      else if rd1 then k_xn pf h (Mem lhs) lsh lst (Mem rhs) ri dst rn
      else if ld1 then k_nx pf h (Mem lhs) li (Mem rhs) rsh rst dst ln
      else k_xx pf h (Mem lhs) lsh lst (Mem rhs) rsh rst dst.

  (** the operators, as in Kernels.v *)
  Definition snd_binary (dflt : T) (h : heap T) (a b : arr) : res (heap T * arr) :=
    shape <- broadcast_shapes (a_shape a) (a_shape b) ;;
    ls <- broadcast_stride (a_stride a) shape (a_shape a) ;;
    rs <- broadcast_stride (a_stride b) shape (a_shape b) ;;
    let '(h1, blk) := alloc h (repeat dflt (prod shape)) in
    h2 <- sk_binary h1 (a_ptr a) ls (a_ptr b) rs (blk, 0) shape ;;
    Ok (h2, fresh_arr blk (prod shape) shape).
  Definition snd_scalar_op (dflt : T) (h : heap T) (a : arr) (c : T) : res (heap T * arr) :=
    let '(h1, blk) := alloc h (repeat dflt (prod (a_shape a))) in
    h2 <- sk_scalar h1 (a_ptr a) (a_shape a) (a_stride a) c (blk, 0) ;;
    Ok (h2, fresh_arr blk (prod (a_shape a)) (a_shape a)).
  Definition snd_assign (h : heap T) (a b : arr) : res (heap T) :=
    _ <- guard (f_write (a_fl a)) ;;
    if list_eqb (a_shape b) (a_shape a) then
      sk_binary h (a_ptr a) (a_stride a) (a_ptr b) (a_stride b) (a_ptr a) (a_shape a)
    else
      b' <- nd_broadcast_to b (a_shape a) ;;
      sk_binary h (a_ptr a) (a_stride a) (a_ptr b') (a_stride b') (a_ptr a) (a_shape a).
  Definition snd_assign_scalar (h : heap T) (a : arr) (c : T) : res (heap T) :=
    _ <- guard (f_write (a_fl a)) ;;
    sk_scalar h (a_ptr a) (a_shape a) (a_stride a) c (a_ptr a).
End Vec.
Arguments opnd T : clear implicits.

(** ** Negation: src/ops/simd_neg.rs *)
Section Neg.
  Context {T : Type}.
  Variable L : nat.
  Variable g : T -> T.

  (** lines 28-34, 61-67 *)
  Fixpoint simd_neg_tail (h : heap T) (a : opnd T) (dst : ptr) (count : nat) : res (heap T) :=
    match count with
    | O => Ok h
    | S c => x <- oelt h a ;; h' <- st h dst (g x) ;; simd_neg_tail h' (onext1 a) (padd dst 1) c
    end.
  (** simd_neg_stride_1 (6-35) on [OUnit], simd_neg_stride_n (38-68) on [OStride] *)
  Fixpoint simd_neg (fuel : nat) (h : heap T) (a : opnd T) (dst : ptr) (count : nat) : res (heap T) :=
    if 4 * L <=? count then
      match fuel with
      | O => Panic
      | S fuel' =>
          a0 <- ovec L h a 0 ;; a1 <- ovec L h a 1 ;; a2 <- ovec L h a 2 ;; a3 <- ovec L h a 3 ;;
          h0 <- vstore h (padd dst (0 * L)) (map g a0) ;;
          h1 <- vstore h0 (padd dst (1 * L)) (map g a1) ;;
          h2 <- vstore h1 (padd dst (2 * L)) (map g a2) ;;
          h3 <- vstore h2 (padd dst (3 * L)) (map g a3) ;;
          simd_neg fuel' h3 (onext4 L a) (padd dst (4 * L)) (count - 4 * L)
      end
    else simd_neg_tail h a dst count.

  (** neg: src/ops/unary_ops.rs 38-60 with the kernels of lines 68-76; neg_stride_0 (9-11)
      calls neg_stride_n *)
  Definition sk_unary (h : heap T) (op : ptr) (shape stride : list nat) (dst : ptr) : res (heap T) :=
    match shape with
    | [] => x <- ld h op ;; st h dst (g x)
    | _ =>
        let '(sh, str) := collapse shape stride in
        if length sh =? 1 then
          n <- vget sh 0 ;;
          s <- vget str 0 ;;
          if s =? 0 then simd_neg (S n) h (OStride (Mem op) 0) dst n
          else if s =? 1 then simd_neg (S n) h (OUnit (Mem op)) dst n
          else simd_neg (S n) h (OStride (Mem op) s) dst n
        else is <- fig_list sh str ;; k_ux_go (fun x => Ok (g x)) h op is dst
    end.
  Definition snd_unary (dflt : T) (h : heap T) (a : arr) : res (heap T * arr) :=
    let '(h1, blk) := alloc h (repeat dflt (prod (a_shape a))) in
    h2 <- sk_unary h1 (a_ptr a) (a_shape a) (a_stride a) (blk, 0) ;;
    Ok (h2, fresh_arr blk (prod (a_shape a)) (a_shape a)).
End Neg.

(** ** Reductions: src/ops/simd_reduce_ops.rs *)
Section RedVec.
  Context {T : Type}.
  Variable L : nat.
  (** the lane instruction, the instruction that combines the lanes of one register, and
      the step of the scalar loop *)
  Variable op : T -> T -> T.
  Variable hor : list T -> res T.
  Variable step : T -> T -> T.

  (** for _ in 0..count { output = step(output, *ptr) } *)
  Fixpoint red_tail (h : heap T) (p : ptr) (count s : nat) (out : T) : res T :=
    match count with
    | O => Ok out
    | S c => x <- ld h p ;; red_tail h (padd p s) c s (step out x)
    end.

  (** simd_sum_uniform: 7-26; simd_product_uniform: 58-77; simd_min_uniform: 108-126;
      simd_max_uniform: 158-176 *)
  Fixpoint red_uniform_go (fuel : nat) (h : heap T) (p : ptr) (count s : nat) (acc : list T) : res T :=
    if L <=? count then
      match fuel with
      | O => Panic
      | S fuel' =>
          v <- vgather L h (Mem p) s ;;
          red_uniform_go fuel' h (padd p (s * L)) (count - L) s (map2 op acc v)
      end
    else out <- hor acc ;; red_tail h p count s out.
  Definition red_uniform (init : T) (h : heap T) (p : ptr) (count s : nat) : res T :=
    red_uniform_go (S count) h p count s (repeat init L).

  (** simd_sum_contiguous: 29-55; simd_min_contiguous: 129-155; simd_max_contiguous: 179-205 *)
  Fixpoint red_contig_go (fuel : nat) (h : heap T) (p : ptr) (count : nat) (acc : list T) : res T :=
    if 4 * L <=? count then
      match fuel with
      | O => Panic
      | S fuel' =>
          a <- vload L h (Mem (padd p (0 * L))) ;; b <- vload L h (Mem (padd p (1 * L))) ;;
          c <- vload L h (Mem (padd p (2 * L))) ;; d <- vload L h (Mem (padd p (3 * L))) ;;
          red_contig_go fuel' h (padd p (4 * L)) (count - 4 * L) (map2 op acc (map2 op (map2 op a b) (map2 op c d)))
      end
    else out <- hor acc ;; red_tail h p count 1 out.
  Definition red_contig (init : T) (h : heap T) (p : ptr) (count : nat) : res T :=
    red_contig_go (S count) h p count (repeat init L).

  (** simd_product_contiguous: 80-105, which combines the lanes in every iteration *)
  Fixpoint red_each_go (fuel : nat) (h : heap T) (p : ptr) (count : nat) (out : T) : res T :=
    if 4 * L <=? count then
      match fuel with
      | O => Panic
      | S fuel' =>
          a <- vload L h (Mem (padd p (0 * L))) ;; b <- vload L h (Mem (padd p (1 * L))) ;;
          c <- vload L h (Mem (padd p (2 * L))) ;; d <- vload L h (Mem (padd p (3 * L))) ;;
          x <- hor (map2 op (map2 op a b) (map2 op c d)) ;;
          red_each_go fuel' h (padd p (4 * L)) (count - 4 * L) (step out x)
      end
    else red_tail h p count 1 out.
  Definition red_each (init : T) (h : heap T) (p : ptr) (count : nat) : res T :=
    red_each_go (S count) h p count init.
End RedVec.

(** vaddvq, vminvq, vmaxvq: neighbouring lanes are combined (simd.rs 195, 208, 214, 308,
    321, 327) *)
Definition hor_pairs {T} (op : T -> T -> T) (v : list T) : res T :=
  match v with
  | [a; b; c; d] => Ok (op (op a b) (op c d))
  | [a; b] => Ok (op a b)
  | _ => Panic
  end.
(** simd_horizontal_mul: simd.rs 201-204 (low half times high half, then the two lanes) and
    314-317 *)
Definition hor_halves {T} (op : T -> T -> T) (v : list T) : res T :=
  match v with
  | [a; b; c; d] => Ok (op (op a c) (op b d))
  | [a; b] => Ok (op a b)
  | _ => Panic
  end.

Section Reds.
  Context {T : Type}.
  Variable L : nat.

  Definition simd_sum_uniform (add : T -> T -> T) (zero : T) := red_uniform L add (hor_pairs add) add zero.
  Definition simd_sum_contiguous (add : T -> T -> T) (zero : T) := red_contig L add (hor_pairs add) add zero.
  Definition simd_product_uniform (mul : T -> T -> T) (one : T) := red_uniform L mul (hor_halves mul) mul one.
  Definition simd_product_contiguous (mul : T -> T -> T) (one : T) := red_each L mul (hor_halves mul) mul one.

  (** vmin is the lane instruction; the scalar loop is partial_min( *ptr, output) *)
  Variable ltb : T -> T -> bool.
  Definition pmin (out x : T) : T := if ltb x out then x else out.
  Definition pmax (out x : T) : T := if ltb out x then x else out.
  Definition simd_min_uniform (vmin : T -> T -> T) (top : T) := red_uniform L vmin (hor_pairs vmin) pmin top.
  Definition simd_min_contiguous (vmin : T -> T -> T) (top : T) := red_contig L vmin (hor_pairs vmin) pmin top.
  Definition simd_max_uniform (vmax : T -> T -> T) (bot : T) := red_uniform L vmax (hor_pairs vmax) pmax bot.
  Definition simd_max_contiguous (vmax : T -> T -> T) (bot : T) := red_contig L vmax (hor_pairs vmax) pmax bot.

  (** sum, product, min, max with the replaced kernels: src/ops/reduce_sum.rs 42-56 and 62-76,
      reduce_product.rs 42-56 and 62-75, reduce_min.rs and reduce_max.rs 41-55 and 61-83;
      the loop for other layouts stays *)
  Definition sk_reduce (contig : heap T -> ptr -> nat -> res T) (uniform : heap T -> ptr -> nat -> nat -> res T)
      (g : T -> T -> res T) (dflt : T) (h : heap T) (p : ptr) (shape stride : list nat) : res T :=
    match has_uniform_stride shape stride with
    | Some s => if s =? 1 then contig h p (prod shape) else uniform h p (prod shape) s
    | None => is <- fig_list shape stride ;; fold_idx g h p is dflt
    end.
  Definition snd_sum (add : T -> T -> T) (zero : T) (h : heap T) (a : arr) : res (heap T * arr) :=
    v <- sk_reduce (simd_sum_contiguous add zero) (simd_sum_uniform add zero) (fun v acc => Ok (add acc v)) zero
           h (a_ptr a) (a_shape a) (a_stride a) ;;
    nd_scalar h v.
  Definition snd_product (mul : T -> T -> T) (one : T) (h : heap T) (a : arr) : res (heap T * arr) :=
    v <- sk_reduce (simd_product_contiguous mul one) (simd_product_uniform mul one) (fun v acc => Ok (mul acc v)) one
           h (a_ptr a) (a_shape a) (a_stride a) ;;
    nd_scalar h v.
  Definition snd_min (vmin : T -> T -> T) (top : T) (h : heap T) (a : arr) : res (heap T * arr) :=
    v <- sk_reduce (simd_min_contiguous vmin top) (simd_min_uniform vmin top) (partial_min ltb) top
           h (a_ptr a) (a_shape a) (a_stride a) ;;
    nd_scalar h v.
  Definition snd_max (vmax : T -> T -> T) (bot : T) (h : heap T) (a : arr) : res (heap T * arr) :=
    v <- sk_reduce (simd_max_contiguous vmax bot) (simd_max_uniform vmax bot) (partial_max ltb) bot
           h (a_ptr a) (a_shape a) (a_stride a) ;;
    nd_scalar h v.
End Reds.

(** ** Sums of products: src/ops/simd_sum_of_products.rs *)
Section SopVec.
  Context {T : Type}.
  Variable L : nat.
  Variable zero one : T.
  Variable add mul : T -> T -> T.
  (** a.mul_add(b, c); vfmaq(sum, lhs, rhs) is fma lhs rhs sum *)
  Variable fma : T -> T -> T -> T.
  Definition vmuladd (sum l r : list T) : list T := map2 (fun s p => fma (fst p) (snd p) s) sum (combine l r).

  (** simd_sum_of_products_muladd: 12-62, its three loops *)
  Fixpoint sma_tail (h : heap T) (scalar : T) (src dst : ptr) (count : nat) : res (heap T) :=
    match count with
    | O => Ok h
    | S c =>
        x <- ld h src ;; y <- ld h dst ;; h' <- st h dst (fma scalar x y) ;;
        sma_tail h' scalar (padd src 1) (padd dst 1) c
    end.
  Fixpoint sma_one (fuel : nat) (h : heap T) (scalar : T) (src dst : ptr) (count : nat) : res (heap T) :=
    if L <=? count then
      match fuel with
      | O => Panic
      | S fuel' =>
          a <- vload L h (Mem src) ;; d <- vload L h (Mem dst) ;;
          h' <- vstore h dst (vmuladd d (repeat scalar L) a) ;;
          sma_one fuel' h' scalar (padd src L) (padd dst L) (count - L)
      end
    else sma_tail h scalar src dst count.
  Fixpoint sma_four (fuel : nat) (h : heap T) (scalar : T) (src dst : ptr) (count : nat) : res (heap T) :=
    if 4 * L <=? count then
      match fuel with
      | O => Panic
      | S fuel' =>
          a <- vload L h (Mem (padd src (0 * L))) ;; b <- vload L h (Mem (padd src (1 * L))) ;;
          c <- vload L h (Mem (padd src (2 * L))) ;; d <- vload L h (Mem (padd src (3 * L))) ;;
          a' <- vload L h (Mem (padd dst (0 * L))) ;; b' <- vload L h (Mem (padd dst (1 * L))) ;;
          c' <- vload L h (Mem (padd dst (2 * L))) ;; d' <- vload L h (Mem (padd dst (3 * L))) ;;
          let s := repeat scalar L in
          h0 <- vstore h (padd dst (0 * L)) (vmuladd a' s a) ;;
          h1 <- vstore h0 (padd dst (1 * L)) (vmuladd b' s b) ;;
          h2 <- vstore h1 (padd dst (2 * L)) (vmuladd c' s c) ;;
          h3 <- vstore h2 (padd dst (3 * L)) (vmuladd d' s d) ;;
          sma_four fuel' h3 scalar (padd src (4 * L)) (padd dst (4 * L)) (count - 4 * L)
      end
    else sma_one (S count) h scalar src dst count.
  (** sum_of_products_muladd: src/linalg/sum_of_products.rs 237-267 *)
  Definition ssop_muladd (h : heap T) (p0 p1 dst : ptr) (count : nat) : res (heap T) :=
    _ <- uassert (0 <? count) ;; scalar <- ld h p0 ;; sma_four (S count) h scalar p1 dst count.

  (** the summing loops of simd_sum_of_scaled_array: 75-107 *)
  Fixpoint ssa_one (fuel : nat) (h : heap T) (src : ptr) (count : nat) (sum : list T) : res T :=
    if L <=? count then
      match fuel with
      | O => Panic
      | S fuel' => a <- vload L h (Mem src) ;; ssa_one fuel' h (padd src L) (count - L) (map2 add sum a)
      end
    else s <- hor_pairs add sum ;; red_tail add h src count 1 s.
  Fixpoint ssa_four (fuel : nat) (h : heap T) (src : ptr) (count : nat) (sum : list T) : res T :=
    if 4 * L <=? count then
      match fuel with
      | O => Panic
      | S fuel' =>
          a <- vload L h (Mem (padd src (0 * L))) ;; b <- vload L h (Mem (padd src (1 * L))) ;;
          c <- vload L h (Mem (padd src (2 * L))) ;; d <- vload L h (Mem (padd src (3 * L))) ;;
          ssa_four fuel' h (padd src (4 * L)) (count - 4 * L)
            (map2 add sum (map2 add (map2 add a b) (map2 add c d)))
      end
    else ssa_one (S count) h src count sum.
  (** simd_sum_of_scaled_array: 71-110, called from sum_of_products.rs 266 *)
  Definition ssop_scaled (h : heap T) (p0 p1 dst : ptr) (count : nat) : res (heap T) :=
    _ <- uassert (0 <? count) ;;
    scalar <- ld h p0 ;;
    sum <- ssa_four (S count) h p1 count (repeat zero L) ;;
    y <- ld h dst ;; st h dst (fma scalar sum y).

  (** simd_dot_product: 114-166 *)
  Fixpoint sdp_tail (h : heap T) (p0 p1 : ptr) (count : nat) (sum : T) : res T :=
    match count with
    | O => Ok sum
    | S c => x <- ld h p0 ;; y <- ld h p1 ;; sdp_tail h (padd p0 1) (padd p1 1) c (fma x y sum)
    end.
  Fixpoint sdp_one (fuel : nat) (h : heap T) (p0 p1 : ptr) (count : nat) (sum : list T) : res T :=
    if L <=? count then
      match fuel with
      | O => Panic
      | S fuel' =>
          a <- vload L h (Mem p0) ;; b <- vload L h (Mem p1) ;;
          sdp_one fuel' h (padd p0 L) (padd p1 L) (count - L) (vmuladd sum a b)
      end
    else s <- hor_pairs add sum ;; sdp_tail h p0 p1 count s.
  Fixpoint sdp_four (fuel : nat) (h : heap T) (p0 p1 : ptr) (count : nat) (sum : list T) : res T :=
    if 4 * L <=? count then
      match fuel with
      | O => Panic
      | S fuel' =>
          a0 <- vload L h (Mem (padd p0 (0 * L))) ;; b0 <- vload L h (Mem (padd p1 (0 * L))) ;;
          a1 <- vload L h (Mem (padd p0 (1 * L))) ;; b1 <- vload L h (Mem (padd p1 (1 * L))) ;;
          a2 <- vload L h (Mem (padd p0 (2 * L))) ;; b2 <- vload L h (Mem (padd p1 (2 * L))) ;;
          a3 <- vload L h (Mem (padd p0 (3 * L))) ;; b3 <- vload L h (Mem (padd p1 (3 * L))) ;;
          sdp_four fuel' h (padd p0 (4 * L)) (padd p1 (4 * L)) (count - 4 * L)
            (map2 add sum (map2 add (map2 add (map2 mul a0 b0) (map2 mul a1 b1))
                                    (map2 add (map2 mul a2 b2) (map2 mul a3 b3))))
      end
    else sdp_one (S count) h p0 p1 count sum.
  (** dot_product: src/ops/dot_product.rs 61-64 *)
  Definition sdot (h : heap T) (p0 p1 dst : ptr) (count : nat) : res (heap T) :=
    s <- sdp_four (S count) h p0 p1 count (repeat zero L) ;; old <- ld h dst ;; st h dst (add old s).

  (** the functions of Einsum.v with these three kernels in place of the portable ones;
      strided_dot_product and the other kernels are not replaced *)
  Let padd2 : T -> T -> res T := fun x y => Ok (add x y).
  Let pmul2 : T -> T -> res T := fun x y => Ok (mul x y).
  Let pfma : T -> T -> T -> res T := fun x y z => Ok (fma x y z).

  Definition ssop_two (h : heap T) (p0 : ptr) (s0 : nat) (p1 : ptr) (s1 : nat) (dst : ptr) (ds count : nat)
      : res (heap T) :=
    let code := (if s0 =? 0 then 0 else if s0 =? 1 then 4 else 8) +
                (if s1 =? 0 then 0 else if s1 =? 1 then 2 else 8) +
                (if ds =? 0 then 0 else if ds =? 1 then 1 else 8) in
    match code with
    | 2 => ssop_scaled h p0 p1 dst count
    | 3 => ssop_muladd h p0 p1 dst count
    | 4 => ssop_scaled h p1 p0 dst count
    | 5 => ssop_muladd h p1 p0 dst count
    | 6 => _ <- uassert (0 <? count) ;; sdot h p0 p1 dst count
    | 7 => sop_111 padd2 pmul2 h p0 p1 dst count
    | _ =>
        if ds =? 0 then sop_out0 zero one padd2 pmul2 h [p0; p1] [s0; s1] dst count
        else sop_generic one padd2 pmul2 h [p0; p1] [s0; s1] dst ds count
    end.
  Definition ssop_fixed (h : heap T) (ps : list ptr) (ss : list nat) (dst : ptr) (ds count : nat) : res (heap T) :=
    match ps, ss with
    | [p0; p1], [s0; s1] => ssop_two h p0 s0 p1 s1 dst ds count
    | _, _ => if ds =? 0 then sop_out0 zero one padd2 pmul2 h ps ss dst count
              else sop_generic one padd2 pmul2 h ps ss dst ds count
    end.
  Definition seinsum_2labels (h : heap T) (bases : list ptr) (d0 d1 : list nat) (n0 n1 : nat) (dst : ptr)
      : res (heap T) :=
    _ <- uassert (0 <? n0) ;; _ <- uassert (0 <? n1) ;;
    for_each (fun i h => call_sop ssop_fixed h bases dst (scale i d1) d0 n0) (seq 0 n1) h.
  Definition seinsum_3labels (h : heap T) (bases : list ptr) (d0 d1 d2 : list nat) (n0 n1 n2 : nat) (dst : ptr)
      : res (heap T) :=
    _ <- uassert (0 <? n0) ;; _ <- uassert (0 <? n1) ;; _ <- uassert (0 <? n2) ;;
    for_each (fun i h =>
      for_each (fun j h => call_sop ssop_fixed h bases dst (add_lists (scale i d2) (scale j d1)) d0 n0)
        (seq 0 n1) h) (seq 0 n2) h.
  Definition srun_einsum (h : heap T) (bases : list ptr) (strides : list (list nat)) (iter_shape : list nat)
      (dst : ptr) : res (heap T) :=
    if (length bases =? 1) || (length bases =? 2) then
      match strides, iter_shape with
      | [d0; d1], [n0; n1] => seinsum_2labels h bases d0 d1 n0 n1 dst
      | [d0; d1; d2], [n0; n1; n2] => seinsum_3labels h bases d0 d1 d2 n0 n1 n2 dst
      | _, _ => unspecialized zero one padd2 pmul2 h bases strides iter_shape dst
      end
    else unspecialized zero one padd2 pmul2 h bases strides iter_shape dst.
  Definition snd_einsum (h : heap T) (ops : list arr) (subs : list (list Z)) (out : list Z) : res (heap T * arr) :=
    r <- prepare_einsum ops subs out ;;
    let '(strides, iter_shape, out_shape) := r in
    let '(h1, b) := alloc h (repeat zero (prod out_shape)) in
    h2 <- srun_einsum h1 (map a_ptr ops) strides iter_shape (b, 0) ;;
    Ok (h2, fresh_arr b (prod out_shape) out_shape).
  Definition seinsum_into_ptr (h : heap T) (ops : list arr) (subs : list (list Z)) (out : list Z)
      (result_stride : list nat) (result : ptr) : res (heap T) :=
    r <- prepare_einsum ops subs out ;;
    let '(strides, iter_shape, out_shape) := r in
    _ <- match has_uniform_stride out_shape result_stride with
         | Some s => guard (s =? 1)
         | None => Ok tt
         end ;;
    h1 <- k_fill h result out_shape result_stride (prod out_shape) zero ;;
    srun_einsum h1 (map a_ptr ops) strides iter_shape result.
  Definition smatrix_matrix (h : heap T) (a b : arr) (rstride : list nat) (dst : ptr) : res (heap T) :=
    seinsum_into_ptr h [a; b] matmul_subs matmul_out rstride dst.
  Fixpoint sbmm_go (h : heap T) (a b : arr) (sa sb : nat) (rstride : list nat) (rs : nat) (dst : ptr) (n : nat)
      : res (heap T) :=
    match n with
    | O => Ok h
    | S n' =>
        h' <- smatrix_matrix h a b rstride dst ;;
        sbmm_go h' (shift_arr a sa) (shift_arr b sb) sa sb rstride rs (padd dst rs) n'
    end.
  Definition snd_matmul (h : heap T) (a b : arr) : res (heap T * arr) :=
    match a_shape a, a_shape b with
    | [n; k], [k'; m] =>
        _ <- guard (k =? k') ;;
        r <- nd_full h zero [n; m] ;;
        let '(h1, r) := r in
        h2 <- smatrix_matrix h1 a b (a_stride r) (a_ptr r) ;; Ok (h2, r)
    | _, _ => nd_matmul zero one padd2 pmul2 pfma h a b
    end.
  Definition snd_bmm (h : heap T) (a b : arr) : res (heap T * arr) :=
    match a_shape a, a_shape b with
    | [n; i; _], [n'; _; k] =>
        _ <- guard (n =? n') ;;
        r <- nd_full h zero [n; i; k] ;;
        let '(h1, r) := r in
        la <- nd_slice_along a 0 (IUsize 0) ;;
        lb <- nd_slice_along b 0 (IUsize 0) ;;
        sa <- vget (a_stride a) 0 ;;
        sb <- vget (a_stride b) 0 ;;
        rs <- vget (a_stride r) 0 ;;
        h2 <- sbmm_go h1 la lb sa sb (tl (a_stride r)) rs (a_ptr r) n ;; Ok (h2, r)
    | _, _ => Panic
    end.
End SopVec.
