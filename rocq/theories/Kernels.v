(** Kernels.v: model of the elementwise kernels and of the operators built on them. *)
From Coq Require Import List Arith Lia Bool ZArith.
From Verif Require Import Base Layout Views.
Import ListNotations.
Open Scope res_scope.

(** Raw pointers. *)
Definition ptr := (nat * nat)%type.
Definition padd (p : ptr) (n : nat) : ptr := (fst p, snd p + n).
Definition ld {T} (h : heap T) (p : ptr) : res T := load h (fst p) (snd p).
Definition st {T} (h : heap T) (p : ptr) (v : T) : res (heap T) := store h (fst p) (snd p) v.
Definition a_ptr (a : arr) : ptr := (a_blk a, a_off a).

(** An operand of a kernel: memory, or the address of a local holding a scalar
    (addr_of!(rhs), src/ops/binary_ops.rs 143).  The local is only ever advanced by
    stride 0, so advancing it is the identity. *)
Inductive src (T : Type) := Mem (p : ptr) | Val (v : T).
Arguments Mem {T} p.
Arguments Val {T} v.
Definition src_ld {T} (h : heap T) (s : src T) : res T :=
  match s with Mem p => ld h p | Val v => Ok v end.
Definition src_add {T} (s : src T) (n : nat) : src T :=
  match s with Mem p => Mem (padd p n) | Val v => Val v end.

(** l[l.len() - 1] *)
Definition last_of (l : list nat) : res nat := d <- csub (length l) 1 ;; vget l d.

Section Binary.
  Context {T : Type}.
  (** the operator; it may panic (overflow, division by zero) *)
  Variable f : T -> T -> res T.

  (** stride_n_n: src/ops/binary_ops.rs 56-67.  stride_0_1, 1_0, n_0, 0_n, 1_1, n_1,
      1_n (lines 18-53) are calls of it with the strides filled in. *)
  Fixpoint k_nn (h : heap T) (lhs : src T) (ls : nat) (rhs : src T) (rs : nat) (dst : ptr)
      (count : nat) : res (heap T) :=
    match count with
    | O => Ok h
    | S c =>
        x <- src_ld h lhs ;; y <- src_ld h rhs ;; v <- f x y ;;
        h' <- st h dst v ;;
        k_nn h' (src_add lhs ls) ls (src_add rhs rs) rs (padd dst 1) c
    end.

  (** nonunif_n: lines 93-106.  An exhausted generator under unwrap_unchecked is
      undefined behaviour.  nonunif_0 and nonunif_1 (69-91) call it. *)
  Fixpoint k_xn_go (h : heap T) (lhs : src T) (is : list nat) (rhs : src T) (rs : nat) (dst : ptr)
      (count : nat) : res (heap T) :=
    match count with
    | O => Ok h
    | S c =>
        match is with
        | [] => Oob
        | i :: is' =>
            x <- src_ld h (src_add lhs i) ;; y <- src_ld h rhs ;; v <- f x y ;;
            h' <- st h dst v ;;
            k_xn_go h' lhs is' (src_add rhs rs) rs (padd dst 1) c
        end
    end.
  Definition k_xn (h : heap T) (lhs : src T) (lsh lst : list nat) (rhs : src T) (rs : nat)
      (dst : ptr) (count : nat) : res (heap T) :=
    is <- fig_list lsh lst ;; k_xn_go h lhs is rhs rs dst count.

  (** n_nonunif: lines 108-121 *)
  Fixpoint k_nx_go (h : heap T) (lhs : src T) (ls : nat) (rhs : src T) (is : list nat) (dst : ptr)
      (count : nat) : res (heap T) :=
    match count with
    | O => Ok h
    | S c =>
        match is with
        | [] => Oob
        | i :: is' =>
            x <- src_ld h lhs ;; y <- src_ld h (src_add rhs i) ;; v <- f x y ;;
            h' <- st h dst v ;;
            k_nx_go h' (src_add lhs ls) ls rhs is' (padd dst 1) c
        end
    end.
  Definition k_nx (h : heap T) (lhs : src T) (ls : nat) (rhs : src T) (rsh rst : list nat)
      (dst : ptr) (count : nat) : res (heap T) :=
    is <- fig_list rsh rst ;; k_nx_go h lhs ls rhs is dst count.

  (** unspecialized: lines 123-133; zip stops at the shorter generator *)
  Fixpoint k_xx_go (h : heap T) (lhs : src T) (is : list nat) (rhs : src T) (js : list nat)
      (dst : ptr) : res (heap T) :=
    match is, js with
    | i :: is', j :: js' =>
        x <- src_ld h (src_add lhs i) ;; y <- src_ld h (src_add rhs j) ;; v <- f x y ;;
        h' <- st h dst v ;;
        k_xx_go h' lhs is' rhs js' (padd dst 1)
    | _, _ => Ok h
    end.
  Definition k_xx (h : heap T) (lhs : src T) (lsh lst : list nat) (rhs : src T) (rsh rst : list nat)
      (dst : ptr) : res (heap T) :=
    is <- fig_list lsh lst ;; js <- fig_list rsh rst ;; k_xx_go h lhs is rhs js dst.

  (** <op>_scalar: lines 135-160 *)
  Definition k_scalar (h : heap T) (lhs : ptr) (lsh lst : list nat) (c : T) (dst : ptr) : res (heap T) :=
    match lst with
    | [] => x <- ld h lhs ;; v <- f x c ;; st h dst v
    | _ =>
        let '(sh, str) := collapse lsh lst in
        inner <- last_of str ;;
        if length sh =? 1 then
          n <- vget sh 0 ;;
          if inner =? 1 then k_nn h (Mem lhs) 1 (Val c) 0 dst n
          else k_nn h (Mem lhs) inner (Val c) 0 dst n
        else k_xn h (Mem lhs) sh str (Val c) 0 dst (prod sh)
    end.

  (** the kernel <op>: lines 162-249 *)
  Definition k_binary (h : heap T) (lhs : ptr) (lst0 : list nat) (rhs : ptr) (rst0 : list nat)
      (dst : ptr) (shape : list nat) : res (heap T) :=
    if (length lst0 =? 0) && (length rst0 =? 0) then
      x <- ld h lhs ;; y <- ld h rhs ;; v <- f x y ;; st h dst v
    else
      let '(lsh, lst) := collapse shape lst0 in
      let '(rsh, rst) := collapse shape rst0 in
      li <- last_of lst ;;
      ri <- last_of rst ;;
      ln <- vget lsh 0 ;;
      rn <- vget rsh 0 ;;
      let ld1 := length lsh =? 1 in
      let rd1 := length rsh =? 1 in
      if ld1 && rd1 then
        if ri =? 0 then
          if li =? 1 then k_nn h (Mem lhs) 1 (Mem rhs) 0 dst ln
          else k_nn h (Mem lhs) li (Mem rhs) 0 dst ln
        else if li =? 0 then
          if ri =? 1 then k_nn h (Mem lhs) 0 (Mem rhs) 1 dst rn
          else k_nn h (Mem lhs) 0 (Mem rhs) ri dst rn
        else if (li =? 1) && (ri =? 1) then k_nn h (Mem lhs) 1 (Mem rhs) 1 dst ln
        else if li =? 1 then k_nn h (Mem lhs) 1 (Mem rhs) ri dst ln
        else if ri =? 1 then k_nn h (Mem lhs) li (Mem rhs) 1 dst rn
        else k_nn h (Mem lhs) li (Mem rhs) ri dst ln
      else if rd1 && (ri =? 0) then k_xn h (Mem lhs) lsh lst (Mem rhs) 0 dst rn
      else if ld1 && (li =? 0) then k_nx h (Mem lhs) 0 (Mem rhs) rsh rst dst ln
      else if rd1 && (ri =? 1) then k_xn h (Mem lhs) lsh lst (Mem rhs) 1 dst rn
      else if ld1 && (li =? 1) then k_nx h (Mem lhs) 1 (Mem rhs) rsh rst dst ln
      else if rd1 then k_xn h (Mem lhs) lsh lst (Mem rhs) ri dst rn
      else if ld1 then k_nx h (Mem lhs) li (Mem rhs) rsh rst dst ln
      else k_xx h (Mem lhs) lsh lst (Mem rhs) rsh rst dst.

  (** &a op &b: src/ndarray/binary_ops.rs 37-51.  The owned variants (16-32) forward
      to it and then drop their operands. *)
  Definition nd_binary (dflt : T) (h : heap T) (a b : arr) : res (heap T * arr) :=
    shape <- broadcast_shapes (a_shape a) (a_shape b) ;;
    ls <- broadcast_stride (a_stride a) shape (a_shape a) ;;
    rs <- broadcast_stride (a_stride b) shape (a_shape b) ;;
    let '(h1, blk) := alloc h (repeat dflt (prod shape)) in
    h2 <- k_binary h1 (a_ptr a) ls (a_ptr b) rs (blk, 0) shape ;;
    Ok (h2, fresh_arr blk (prod shape) shape).

  (** &a op scalar: lines 64-73 *)
  Definition nd_scalar_op (dflt : T) (h : heap T) (a : arr) (c : T) : res (heap T * arr) :=
    let '(h1, blk) := alloc h (repeat dflt (prod (a_shape a))) in
    h2 <- k_scalar h1 (a_ptr a) (a_shape a) (a_stride a) c (blk, 0) ;;
    Ok (h2, fresh_arr blk (prod (a_shape a)) (a_shape a)).

  (** a op= &b: src/ndarray/assign_ops.rs 23-46 *)
  Definition nd_assign (h : heap T) (a b : arr) : res (heap T) :=
    _ <- guard (f_write (a_fl a)) ;;
    if list_eqb (a_shape b) (a_shape a) then
      k_binary h (a_ptr a) (a_stride a) (a_ptr b) (a_stride b) (a_ptr a) (a_shape a)
    else
      b' <- nd_broadcast_to b (a_shape a) ;;
      k_binary h (a_ptr a) (a_stride a) (a_ptr b') (a_stride b') (a_ptr a) (a_shape a).

  (** a op= scalar: lines 50-59 *)
  Definition nd_assign_scalar (h : heap T) (a : arr) (c : T) : res (heap T) :=
    _ <- guard (f_write (a_fl a)) ;;
    k_scalar h (a_ptr a) (a_shape a) (a_stride a) c (a_ptr a).
End Binary.

Section Unary.
  Context {T : Type}.
  Variable g : T -> res T.

  (** neg_stride_n: src/ops/unary_ops.rs 17-25 (neg_stride_0, neg_stride_1 call it) *)
  Fixpoint k_un (h : heap T) (op : ptr) (s : nat) (dst : ptr) (count : nat) : res (heap T) :=
    match count with
    | O => Ok h
    | S c => x <- ld h op ;; v <- g x ;; h' <- st h dst v ;; k_un h' (padd op s) s (padd dst 1) c
    end.

  (** neg_unspecialized: lines 27-36 *)
  Fixpoint k_ux_go (h : heap T) (op : ptr) (is : list nat) (dst : ptr) : res (heap T) :=
    match is with
    | [] => Ok h
    | i :: is' => x <- ld h (padd op i) ;; v <- g x ;; h' <- st h dst v ;; k_ux_go h' op is' (padd dst 1)
    end.

  (** neg: lines 38-60 *)
  Definition k_unary (h : heap T) (op : ptr) (shape stride : list nat) (dst : ptr) : res (heap T) :=
    match shape with
    | [] => x <- ld h op ;; v <- g x ;; st h dst v
    | _ =>
        let '(sh, str) := collapse shape stride in
        if length sh =? 1 then
          n <- vget sh 0 ;;
          s <- vget str 0 ;;
          if s =? 0 then k_un h op 0 dst n
          else if s =? 1 then k_un h op 1 dst n
          else k_un h op s dst n
        else is <- fig_list sh str ;; k_ux_go h op is dst
    end.

  (** -&a: src/ndarray/unary_ops.rs 14-21 *)
  Definition nd_unary (dflt : T) (h : heap T) (a : arr) : res (heap T * arr) :=
    let '(h1, blk) := alloc h (repeat dflt (prod (a_shape a))) in
    h2 <- k_unary h1 (a_ptr a) (a_shape a) (a_stride a) (blk, 0) ;;
    Ok (h2, fresh_arr blk (prod (a_shape a)) (a_shape a)).
End Unary.
