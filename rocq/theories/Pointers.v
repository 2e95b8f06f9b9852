(** Pointers.v: the loops that move raw pointers, with the rule of Rust for ptr.add and
    NonNull::offset.  Moving a pointer is undefined behaviour unless the distance is 0 or the
    result is inside the allocation or one past its end, even when the result is never used.
    The other files of the model check accesses only.  Here a forbidden move is [Oob] too.
    A move that is followed at once by an access of its result (as *ptr.add(i)) needs no check
    of its own, and is written as in the other files. *)
From Coq Require Import List Arith Lia Bool ZArith.
From Verif Require Import Base Spec Layout Views Kernels Access Reduce Einsum Iter.
Import ListNotations.
Open Scope res_scope.

(** p.add(n) *)
Definition move {T} (h : heap T) (p : ptr) (n : nat) : res ptr :=
  if n =? 0 then Ok p
  else match nth_error h (fst p) with
       | Some (Some l) => if snd p + n <=? length l then Ok (padd p n) else Oob
       | _ => Oob
       end.
(** the same for an operand; a local variable is only moved by 0 *)
Definition src_move {T} (h : heap T) (s : src T) (n : nat) : res (src T) :=
  match s with Mem p => q <- move h p n ;; Ok (Mem q) | Val v => Ok (Val v) end.

Section Elementwise.
  Context {T : Type}.
  Variable f : T -> T -> res T.

  (** stride_n_n: src/ops/binary_ops.rs 56-67 *)
  Fixpoint p_nn (h : heap T) (lhs : src T) (ls : nat) (rhs : src T) (rs : nat) (dst : ptr) (count : nat) : res (heap T) :=
    match count with
    | O => Ok h
    | S c =>
        x <- src_ld h lhs ;; y <- src_ld h rhs ;; v <- f x y ;; h' <- st h dst v ;;
        lhs' <- src_move h' lhs ls ;; rhs' <- src_move h' rhs rs ;; dst' <- move h' dst 1 ;;
        p_nn h' lhs' ls rhs' rs dst' c
    end.

  (** nonunif_n: lines 93-106 *)
  Fixpoint p_xn_go (h : heap T) (lhs : src T) (is : list nat) (rhs : src T) (rs : nat) (dst : ptr) (count : nat) : res (heap T) :=
    match count with
    | O => Ok h
    | S c =>
        match is with
        | [] => Oob
        | i :: is' =>
            x <- src_ld h (src_add lhs i) ;; y <- src_ld h rhs ;; v <- f x y ;; h' <- st h dst v ;;
            dst' <- move h' dst 1 ;; rhs' <- src_move h' rhs rs ;;
            p_xn_go h' lhs is' rhs' rs dst' c
        end
    end.
  Definition p_xn (h : heap T) (lhs : src T) (lsh lst : list nat) (rhs : src T) (rs : nat) (dst : ptr) (count : nat) : res (heap T) :=
    is <- fig_list lsh lst ;; p_xn_go h lhs is rhs rs dst count.

  (** n_nonunif: lines 108-121 *)
  Fixpoint p_nx_go (h : heap T) (lhs : src T) (ls : nat) (rhs : src T) (is : list nat) (dst : ptr) (count : nat) : res (heap T) :=
    match count with
    | O => Ok h
    | S c =>
        match is with
        | [] => Oob
        | i :: is' =>
            x <- src_ld h lhs ;; y <- src_ld h (src_add rhs i) ;; v <- f x y ;; h' <- st h dst v ;;
            dst' <- move h' dst 1 ;; lhs' <- src_move h' lhs ls ;;
            p_nx_go h' lhs' ls rhs is' dst' c
        end
    end.
  Definition p_nx (h : heap T) (lhs : src T) (ls : nat) (rhs : src T) (rsh rst : list nat) (dst : ptr) (count : nat) : res (heap T) :=
    is <- fig_list rsh rst ;; p_nx_go h lhs ls rhs is dst count.

  (** unspecialized: lines 123-133 *)
  Fixpoint p_xx_go (h : heap T) (lhs : src T) (is : list nat) (rhs : src T) (js : list nat) (dst : ptr) : res (heap T) :=
    match is, js with
    | i :: is', j :: js' =>
        x <- src_ld h (src_add lhs i) ;; y <- src_ld h (src_add rhs j) ;; v <- f x y ;; h' <- st h dst v ;;
        dst' <- move h' dst 1 ;; p_xx_go h' lhs is' rhs js' dst'
    | _, _ => Ok h
    end.
  Definition p_xx (h : heap T) (lhs : src T) (lsh lst : list nat) (rhs : src T) (rsh rst : list nat) (dst : ptr) : res (heap T) :=
    is <- fig_list lsh lst ;; js <- fig_list rsh rst ;; p_xx_go h lhs is rhs js dst.

  (** <op>_scalar: lines 135-160 *)
  Definition p_scalar (h : heap T) (lhs : ptr) (lsh lst : list nat) (c : T) (dst : ptr) : res (heap T) :=
    match lst with
    | [] => x <- ld h lhs ;; v <- f x c ;; st h dst v
    | _ =>
        let '(sh, str) := collapse lsh lst in
        inner <- last_of str ;;
        if length sh =? 1 then
          n <- vget sh 0 ;;
          if inner =? 1 then p_nn h (Mem lhs) 1 (Val c) 0 dst n
          else p_nn h (Mem lhs) inner (Val c) 0 dst n
        else p_xn h (Mem lhs) sh str (Val c) 0 dst (prod sh)
    end.

  (** the kernel <op>: lines 162-249 *)
  Definition p_binary (h : heap T) (lhs : ptr) (lst0 : list nat) (rhs : ptr) (rst0 : list nat) (dst : ptr) (shape : list nat) : res (heap T) :=
    if (length lst0 =? 0) && (length rst0 =? 0) then
      x <- ld h lhs ;; y <- ld h rhs ;; v <- f x y ;; st h dst v
    else
      let '(lsh, lst) := collapse shape lst0 in
      let '(rsh, rst) := collapse shape rst0 in
      li <- last_of lst ;;
      ri <- last_of rst ;;
      ln <- vget lsh 0 ;;
      rn <- vget rsh 0 ;;
      let ld1 := length lsh =? 1 in
      let rd1 := length rsh =? 1 in
      if ld1 && rd1 then
        if ri =? 0 then
          if li =? 1 then p_nn h (Mem lhs) 1 (Mem rhs) 0 dst ln
          else p_nn h (Mem lhs) li (Mem rhs) 0 dst ln
        else if li =? 0 then
          if ri =? 1 then p_nn h (Mem lhs) 0 (Mem rhs) 1 dst rn
          else p_nn h (Mem lhs) 0 (Mem rhs) ri dst rn
        else if (li =? 1) && (ri =? 1) then p_nn h (Mem lhs) 1 (Mem rhs) 1 dst ln
        else if li =? 1 then p_nn h (Mem lhs) 1 (Mem rhs) ri dst ln
        else if ri =? 1 then p_nn h (Mem lhs) li (Mem rhs) 1 dst rn
        else p_nn h (Mem lhs) li (Mem rhs) ri dst ln
      else if rd1 && (ri =? 0) then p_xn h (Mem lhs) lsh lst (Mem rhs) 0 dst rn
      else if ld1 && (li =? 0) then p_nx h (Mem lhs) 0 (Mem rhs) rsh rst dst ln
      else if rd1 && (ri =? 1) then p_xn h (Mem lhs) lsh lst (Mem rhs) 1 dst rn
      else if ld1 && (li =? 1) then p_nx h (Mem lhs) 1 (Mem rhs) rsh rst dst ln
      else if rd1 then p_xn h (Mem lhs) lsh lst (Mem rhs) ri dst rn
      else if ld1 then p_nx h (Mem lhs) li (Mem rhs) rsh rst dst ln
      else p_xx h (Mem lhs) lsh lst (Mem rhs) rsh rst dst.

  (** &a op &b, &a op scalar: src/ndarray/binary_ops.rs 37-51, 64-73 *)
  Definition pd_binary (dflt : T) (h : heap T) (a b : arr) : res (heap T * arr) :=
    shape <- broadcast_shapes (a_shape a) (a_shape b) ;;
    ls <- broadcast_stride (a_stride a) shape (a_shape a) ;;
    rs <- broadcast_stride (a_stride b) shape (a_shape b) ;;
    let '(h1, blk) := alloc h (repeat dflt (prod shape)) in
    h2 <- p_binary h1 (a_ptr a) ls (a_ptr b) rs (blk, 0) shape ;;
    Ok (h2, fresh_arr blk (prod shape) shape).
  Definition pd_scalar_op (dflt : T) (h : heap T) (a : arr) (c : T) : res (heap T * arr) :=
    let '(h1, blk) := alloc h (repeat dflt (prod (a_shape a))) in
    h2 <- p_scalar h1 (a_ptr a) (a_shape a) (a_stride a) c (blk, 0) ;;
    Ok (h2, fresh_arr blk (prod (a_shape a)) (a_shape a)).

  (** a op= &b, a op= scalar: src/ndarray/assign_ops.rs 23-46, 50-59 *)
  Definition pd_assign (h : heap T) (a b : arr) : res (heap T) :=
    _ <- guard (f_write (a_fl a)) ;;
    if list_eqb (a_shape b) (a_shape a) then
      p_binary h (a_ptr a) (a_stride a) (a_ptr b) (a_stride b) (a_ptr a) (a_shape a)
    else
      b' <- nd_broadcast_to b (a_shape a) ;;
      p_binary h (a_ptr a) (a_stride a) (a_ptr b') (a_stride b') (a_ptr a) (a_shape a).
  Definition pd_assign_scalar (h : heap T) (a : arr) (c : T) : res (heap T) :=
    _ <- guard (f_write (a_fl a)) ;;
    p_scalar h (a_ptr a) (a_shape a) (a_stride a) c (a_ptr a).
End Elementwise.

Section Unary.
  Context {T : Type}.
  Variable g : T -> res T.

  (** neg_stride_n: src/ops/unary_ops.rs 17-25 *)
  Fixpoint p_un (h : heap T) (op : ptr) (s : nat) (dst : ptr) (count : nat) : res (heap T) :=
    match count with
    | O => Ok h
    | S c =>
        x <- ld h op ;; v <- g x ;; h' <- st h dst v ;;
        op' <- move h' op s ;; dst' <- move h' dst 1 ;; p_un h' op' s dst' c
    end.
  (** neg_unspecialized: lines 27-36 *)
  Fixpoint p_ux_go (h : heap T) (op : ptr) (is : list nat) (dst : ptr) : res (heap T) :=
    match is with
    | [] => Ok h
    | i :: is' => x <- ld h (padd op i) ;; v <- g x ;; h' <- st h dst v ;; dst' <- move h' dst 1 ;; p_ux_go h' op is' dst'
    end.
  (** neg: lines 38-60 *)
  Definition p_unary (h : heap T) (op : ptr) (shape stride : list nat) (dst : ptr) : res (heap T) :=
    match shape with
    | [] => x <- ld h op ;; v <- g x ;; st h dst v
    | _ =>
        let '(sh, str) := collapse shape stride in
        if length sh =? 1 then
          n <- vget sh 0 ;;
          s <- vget str 0 ;;
          if s =? 0 then p_un h op 0 dst n
          else if s =? 1 then p_un h op 1 dst n
          else p_un h op s dst n
        else is <- fig_list sh str ;; p_ux_go h op is dst
    end.
  (** -&a: src/ndarray/unary_ops.rs 14-21 *)
  Definition pd_unary (dflt : T) (h : heap T) (a : arr) : res (heap T * arr) :=
    let '(h1, blk) := alloc h (repeat dflt (prod (a_shape a))) in
    h2 <- p_unary h1 (a_ptr a) (a_shape a) (a_stride a) (blk, 0) ;;
    Ok (h2, fresh_arr blk (prod (a_shape a)) (a_shape a)).
End Unary.

Section Reductions.
  Context {T : Type}.
  Variable g : T -> T -> res T.

  (** sum_uniform_stride: src/ops/reduce_sum.rs 21-30, and the other five *)
  Fixpoint p_fold_run (h : heap T) (p : ptr) (count s : nat) (acc : T) : res T :=
    match count with
    | O => Ok acc
    | S c => x <- ld h p ;; acc' <- g x acc ;; p' <- move h p s ;; p_fold_run h p' c s acc'
    end.
  (** sum: lines 42-56 *)
  Definition p_reduce (dflt : T) (h : heap T) (p : ptr) (shape stride : list nat) : res T :=
    match has_uniform_stride shape stride with
    | Some s => if s =? 1 then p_fold_run h p (prod shape) 1 dflt else p_fold_run h p (prod shape) s dflt
    | None => is <- fig_list shape stride ;; fold_idx g h p is dflt
    end.
  (** src/ndarray/reduce.rs 124-127, ... *)
  Definition pd_reduce (dflt : T) (h : heap T) (a : arr) : res (heap T * arr) :=
    v <- p_reduce dflt h (a_ptr a) (a_shape a) (a_stride a) ;; nd_scalar h v.
End Reductions.

Section Fill.
  Context {T : Type}.
  (** fill_uniform_stride: src/ops/fill.rs 27-32 *)
  Fixpoint p_fill_uniform (h : heap T) (p : ptr) (count stride : nat) (v : T) : res (heap T) :=
    match count with
    | O => Ok h
    | S c => h' <- st h p v ;; p' <- move h' p stride ;; p_fill_uniform h' p' c stride v
    end.
  (** a `for _ in 0..n` loop moving a pointer by s *)
  Fixpoint p_loop (body : heap T -> ptr -> res (heap T)) (h : heap T) (p : ptr) (n s : nat) : res (heap T) :=
    match n with
    | O => Ok h
    | S n' => h' <- body h p ;; p' <- move h' p s ;; p_loop body h' p' n' s
    end.
  (** fill: lines 45-60 *)
  Fixpoint p_fill (h : heap T) (p : ptr) (shape stride : list nat) (len : nat) (v : T) {struct shape} : res (heap T) :=
    match has_uniform_stride shape stride with
    | Some s => if s =? 1 then p_fill_uniform h p len 1 v else p_fill_uniform h p (prod shape) s v
    | None =>
        match shape, stride with
        | n :: sh', s :: st' =>
            p_loop (fun h p => n1 <- vget sh' 0 ;; s1 <- vget st' 0 ;; p_fill h p sh' st' (n1 * s1) v) h p n s
        | _, _ => Panic
        end
    end.
  Definition pd_fill (h : heap T) (a : arr) (v : T) : res (heap T) :=
    p_fill h (a_ptr a) (a_shape a) (a_stride a) (a_len a) v.
End Fill.

Section Products.
  Context {T : Type}.
  Variable zero one : T.
  Variable add mul : T -> T -> res T.
  Variable fma : T -> T -> T -> res T.

  (** strided_dot_product: src/ops/dot_product.rs 32-44 *)
  Fixpoint p_dot_go (h : heap T) (p0 : ptr) (s0 : nat) (p1 : ptr) (s1 count : nat) (sum : T) : res T :=
    match count with
    | O => Ok sum
    | S c =>
        x <- ld h p0 ;; y <- ld h p1 ;; v <- mul x y ;; s <- add sum v ;;
        p0' <- move h p0 s0 ;; p1' <- move h p1 s1 ;; p_dot_go h p0' s0 p1' s1 c s
    end.
  Definition p_strided_dot (h : heap T) (p0 : ptr) (s0 : nat) (p1 : ptr) (s1 : nat) (dst : ptr) (count : nat) : res (heap T) :=
    s <- p_dot_go h p0 s0 p1 s1 count zero ;; add_to add h dst s.

  (** sum_of_products_muladd, ..._1_1_out_stride_1: src/linalg/sum_of_products.rs 100-114, 132-153 *)
  Fixpoint p_muladd_go (h : heap T) (scalar : T) (data dst : ptr) (count : nat) : res (heap T) :=
    match count with
    | O => Ok h
    | S c =>
        x <- ld h data ;; y <- ld h dst ;; v <- fma scalar x y ;; h' <- st h dst v ;;
        dst' <- move h' dst 1 ;; data' <- move h' data 1 ;; p_muladd_go h' scalar data' dst' c
    end.
  Fixpoint p_111_go (h : heap T) (p0 p1 dst : ptr) (count : nat) : res (heap T) :=
    match count with
    | O => Ok h
    | S c =>
        x <- ld h p0 ;; y <- ld h p1 ;; v <- mul x y ;; h' <- add_to add h dst v ;;
        dst' <- move h' dst 1 ;; p0' <- move h' p0 1 ;; p1' <- move h' p1 1 ;; p_111_go h' p0' p1' dst' c
    end.

  (** sum_of_products_muladd and the case table: sum_of_products.rs 8-37, 100-114.  The other
      kernels read *data.add(i) and *ptr.add(k * stride). *)
  Definition p_sop_muladd (h : heap T) (p0 p1 dst : ptr) (count : nat) : res (heap T) :=
    _ <- uassert (0 <? count) ;; scalar <- ld h p0 ;; p_muladd_go h scalar p1 dst count.
  Definition p_sop_two (h : heap T) (p0 : ptr) (s0 : nat) (p1 : ptr) (s1 : nat) (dst : ptr) (ds count : nat) : res (heap T) :=
    let code := (if s0 =? 0 then 0 else if s0 =? 1 then 4 else 8) +
                (if s1 =? 0 then 0 else if s1 =? 1 then 2 else 8) +
                (if ds =? 0 then 0 else if ds =? 1 then 1 else 8) in
    match code with
    | 2 => sop_scaled zero add fma h p0 p1 dst count
    | 3 => p_sop_muladd h p0 p1 dst count
    | 4 => sop_scaled zero add fma h p1 p0 dst count
    | 5 => p_sop_muladd h p1 p0 dst count
    | 6 => _ <- uassert (0 <? count) ;; p_strided_dot h p0 1 p1 1 dst count
    | 7 => _ <- uassert (0 <? count) ;; p_111_go h p0 p1 dst count
    | _ =>
        if ds =? 0 then sop_out0 zero one add mul h [p0; p1] [s0; s1] dst count
        else sop_generic one add mul h [p0; p1] [s0; s1] dst ds count
    end.
  Definition p_sop_fixed (h : heap T) (ps : list ptr) (ss : list nat) (dst : ptr) (ds count : nat) : res (heap T) :=
    match ps, ss with
    | [p0; p1], [s0; s1] => p_sop_two h p0 s0 p1 s1 dst ds count
    | _, _ => if ds =? 0 then sop_out0 zero one add mul h ps ss dst count else sop_generic one add mul h ps ss dst ds count
    end.
  (** the loops: specialized_einsum.rs 45-192.  Their own moves op.add(i * stride) are followed
      by an access of the result, since count > 0. *)
  Definition p_2labels (h : heap T) (bases : list ptr) (d0 d1 : list nat) (n0 n1 : nat) (dst : ptr) : res (heap T) :=
    _ <- uassert (0 <? n0) ;; _ <- uassert (0 <? n1) ;;
    for_each (fun i h => call_sop p_sop_fixed h bases dst (scale i d1) d0 n0) (seq 0 n1) h.
  Definition p_3labels (h : heap T) (bases : list ptr) (d0 d1 d2 : list nat) (n0 n1 n2 : nat) (dst : ptr) : res (heap T) :=
    _ <- uassert (0 <? n0) ;; _ <- uassert (0 <? n1) ;; _ <- uassert (0 <? n2) ;;
    for_each (fun i h =>
      for_each (fun j h => call_sop p_sop_fixed h bases dst (add_lists (scale i d2) (scale j d1)) d0 n0)
        (seq 0 n1) h) (seq 0 n2) h.
  Definition p_run_einsum (h : heap T) (bases : list ptr) (strides : list (list nat)) (iter_shape : list nat) (dst : ptr) : res (heap T) :=
    if (length bases =? 1) || (length bases =? 2) then
      match strides, iter_shape with
      | [d0; d1], [n0; n1] => p_2labels h bases d0 d1 n0 n1 dst
      | [d0; d1; d2], [n0; n1; n2] => p_3labels h bases d0 d1 d2 n0 n1 n2 dst
      | _, _ => unspecialized zero one add mul h bases strides iter_shape dst
      end
    else unspecialized zero one add mul h bases strides iter_shape dst.
  (** einsum: src/linalg/einsum.rs 403-433 *)
  Definition pd_einsum (h : heap T) (ops : list arr) (subs : list (list Z)) (out : list Z) : res (heap T * arr) :=
    r <- prepare_einsum ops subs out ;;
    let '(strides, iter_shape, out_shape) := r in
    let '(h1, b) := alloc h (repeat zero (prod out_shape)) in
    h2 <- p_run_einsum h1 (map a_ptr ops) strides iter_shape (b, 0) ;;
    Ok (h2, fresh_arr b (prod out_shape) out_shape).

  (** dot: src/linalg/matrix_ops.rs 111-126 *)
  Definition pd_dot (h : heap T) (a b : arr) : res (heap T * arr) :=
    match a_shape a, a_shape b, a_stride a, a_stride b with
    | [n], [m], [s], [t] =>
        _ <- guard (n =? m) ;;
        r <- nd_scalar h zero ;;
        let '(h1, r) := r in
        h2 <- p_strided_dot h1 (a_ptr a) s (a_ptr b) t (a_ptr r) n ;; Ok (h2, r)
    | _, _, _, _ => Panic
    end.

  (** matrix_vector_product: lines 399-417 *)
  Fixpoint p_matvec_go (h : heap T) (row : ptr) (rs s : nat) (v : ptr) (t : nat) (dst : ptr) (cols rows : nat) : res (heap T) :=
    match rows with
    | O => Ok h
    | S r =>
        h' <- p_strided_dot h row s v t dst cols ;;
        row' <- move h' row rs ;; dst' <- move h' dst 1 ;; p_matvec_go h' row' rs s v t dst' cols r
    end.
  Definition pd_matvec (h : heap T) (a b : arr) : res (heap T * arr) :=
    match a_shape a, a_shape b with
    | [rows; cols], [m] =>
        _ <- guard (cols =? m) ;;
        match a_stride a, a_stride b with
        | [rs; s], [t] =>
            let '(h1, blk) := alloc h (repeat zero rows) in
            h2 <- p_matvec_go h1 (a_ptr a) rs s (a_ptr b) t (blk, 0) cols rows ;;
            Ok (h2, fresh_arr blk rows [rows])
        | _, _ => Panic
        end
    | _, _ => Panic
    end.

  (** batch_matrix_matrix_product: lines 362-376; offset_ptr: src/ndarray/iterator/tensor_iterator.rs 20-22.
      The matrix product itself is einsum into the row-major result, filled with a step of 1. *)
  Definition move_arr (h : heap T) (a : arr) (n : nat) : res arr :=
    _ <- move h (a_ptr a) n ;; Ok (shift_arr a n).
  Fixpoint p_bmm_go (h : heap T) (a b : arr) (sa sb : nat) (rstride : list nat) (rs : nat) (dst : ptr) (n : nat) : res (heap T) :=
    match n with
    | O => Ok h
    | S n' =>
        h' <- matrix_matrix zero one add mul fma h a b rstride dst ;;
        dst' <- move h' dst rs ;; a' <- move_arr h' a sa ;; b' <- move_arr h' b sb ;;
        p_bmm_go h' a' b' sa sb rstride rs dst' n'
    end.
  Definition pd_bmm (h : heap T) (a b : arr) : res (heap T * arr) :=
    match a_shape a, a_shape b with
    | [n; i; _], [n'; _; k] =>
        _ <- guard (n =? n') ;;
        r <- nd_full h zero [n; i; k] ;;
        let '(h1, r) := r in
        la <- nd_slice_along a 0 (IUsize 0) ;;
        lb <- nd_slice_along b 0 (IUsize 0) ;;
        sa <- vget (a_stride a) 0 ;;
        sb <- vget (a_stride b) 0 ;;
        rs <- vget (a_stride r) 0 ;;
        h2 <- p_bmm_go h1 la lb sa sb (tl (a_stride r)) rs (a_ptr r) n ;; Ok (h2, r)
    | _, _ => Panic
    end.
End Products.

Section Iterators.
  Context {T : Type}.
  (** the moves of next: tensor_iterator.rs 57-66, from the last axis to the first.  The model
      moves an axis back only after moving it forward, so the checks are on the forward moves. *)
  Fixpoint p_carry (h : heap T) (b : nat) (sh st idx : list nat) (off : nat) : res (list nat * nat * bool) :=
    match sh, st, idx with
    | n :: sh', s :: st', i :: idx' =>
        r <- p_carry h b sh' st' idx' off ;;
        let '(idx1, off1, stop) := r in
        if stop : bool then Ok (i :: idx1, off1, true)
        else if negb (i =? n) then q <- move h (b, off1) s ;; Ok (S i :: idx1, snd q, true)
        else m <- csub n 1 ;; off2 <- csub off1 (s * m) ;; Ok (0 :: idx1, off2, false)
    | _, _, _ => Ok ([], off, false)
    end.
  Definition p_next (h : heap T) (it : nditer) : res (option (heap T * arr * nditer)) :=
    if it_k it =? it_size it then Ok None
    else
      c <- nd_clone h (it_res it) ;;
      r <- p_carry (fst c) (a_blk (it_res it)) (it_shape it) (it_stride it) (it_idx it) (a_off (it_res it)) ;;
      let '(idx, off, _) := r in
      Ok (Some (fst c, snd c, mkIt (set_off (it_res it) off) (it_shape it) (it_stride it) idx (S (it_k it)) (it_size it))).
  Fixpoint p_collect (fuel : nat) (h : heap T) (it : nditer) : res (heap T * list arr) :=
    match fuel with
    | O => Panic
    | S fuel' =>
        r <- p_next h it ;;
        match r with
        | None => Ok (h, [])
        | Some (h1, x, it1) => q <- p_collect fuel' h1 it1 ;; Ok (fst q, x :: snd q)
        end
    end.
  (** iter_along, iter: src/ndarray/iterator/iterators.rs 18-30 *)
  Definition pd_nditer (h : heap T) (a : arr) (axes : list nat) : res (heap T * list arr) :=
    it <- nditer_from a axes ;; p_collect (S (it_size it)) h it.
  Definition pd_iter_along (h : heap T) (a : arr) (axis : Z) : res (heap T * list arr) :=
    k <- as_absolute axis (length (a_shape a)) ;; pd_nditer h a [k].
End Iterators.

(** slice, slice_along: src/ndarray/slice.rs 65, 111 (ptr.add(offset)) *)
Definition pd_slice {T} (h : heap T) (a : arr) (ixs : list indexer) : res arr :=
  r <- nd_slice a ixs ;; _ <- move h (a_ptr a) (a_off r - a_off a) ;; Ok r.
Definition pd_slice_along {T} (h : heap T) (a : arr) (axis : Z) (ix : indexer) : res arr :=
  r <- nd_slice_along a axis ix ;; _ <- move h (a_ptr a) (a_off r - a_off a) ;; Ok r.
