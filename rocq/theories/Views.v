(** Views.v: model of constructors and of every operation that returns a view. *)
From Coq Require Import List Arith Lia Bool ZArith.
From Verif Require Import Base Layout.
Import ListNotations.
Open Scope res_scope.

(** ** Small list operations of Vec *)
(** Vec::insert(i, x); panics when i > len *)
Fixpoint vinsert {A} (l : list A) (i : nat) (x : A) : res (list A) :=
  match i, l with
  | O, _ => Ok (x :: l)
  | S i', y :: r => r' <- vinsert r i' x ;; Ok (y :: r')
  | S _, [] => Panic
  end.

(** Vec::remove(i); panics when i >= len *)
Fixpoint vremove {A} (l : list A) (i : nat) : res (list A) :=
  match l, i with
  | [], _ => Panic
  | _ :: r, O => Ok r
  | y :: r, S i' => r' <- vremove r i' ;; Ok (y :: r')
  end.

(** slice::swap(i, j) *)
Definition vswap {A} (l : list A) (i j : nat) : res (list A) :=
  x <- vget l i ;; y <- vget l j ;; l1 <- vset l i y ;; vset l1 j x.

(** AxisType::as_absolute: src/util/axis.rs 29-38. *)
Definition as_absolute (axis : Z) (ndims : nat) : res nat :=
  let n := Z.of_nat ndims in
  if ((axis <? - n) || (axis >=? n))%Z then Panic
  else Ok (Z.to_nat (if (axis <? 0)%Z then axis + n else axis)%Z).

(** update_flags_with_contiguity: src/ndarray/slice.rs 8-26. *)
Definition update_flags (fl : flags) (sh st : list nat) : flags :=
  match has_uniform_stride sh st with
  | None => mkFlags (f_owned fl) false false (f_write fl) (f_user fl) (f_grad fl)
  | Some s => mkFlags (f_owned fl) (s <=? 1) true (f_write fl) (f_user fl) (f_grad fl)
  end.

(** flags - UserCreated - Owned *)
Definition drop_own (fl : flags) : flags :=
  mkFlags false (f_contig fl) (f_unif fl) (f_write fl) false (f_grad fl).

(** from_contiguous_owned_buffer: src/ndarray/constructors.rs 51-69.  The data vector
    is the freshly allocated block; capacity is its length (exact for vec![..]). *)
Definition fresh_flags : flags := mkFlags true true true true false false.

(** the array record built over an owned block [b] of [n] cells *)
Definition fresh_arr (b n : nat) (sh : list nat) : arr :=
  mkArr b 0 n n sh (stride_from_shape sh) fresh_flags.

Definition from_buffer {T} (h : heap T) (sh : list nat) (data : list T) : heap T * arr :=
  let '(h', b) := alloc h data in (h', fresh_arr b (length data) sh).

(** full: src/common/constructors.rs 69-76 (zeros, ones and scalar call it). *)
Definition nd_full {T} (h : heap T) (x : T) (sh : list nat) : res (heap T * arr) :=
  let data := repeat x (prod sh) in
  _ <- guard (negb (length data =? 0)) ;;
  Ok (from_buffer h sh data).

(** scalar: src/common/constructors.rs 135-137: full(n, []) *)
Definition nd_scalar {T} (h : heap T) (x : T) : res (heap T * arr) := nd_full h x [].

(** Who calls a Reshape method: a reference (borrowing) or a value (consuming). *)
Inductive mode := ByRef | ByValue.

(** Reshape::reshaped_view: src/ndarray/reshape.rs 59-76 (by value), 82-98 (by ref). *)
Definition reshaped_view (m : mode) (a : arr) (sh st : list nat) : arr :=
  let fl := update_flags (a_fl a) sh st in
  match m with
  | ByRef => mkArr (a_blk a) (a_off a) (prod sh) (a_cap a) sh st (drop_own fl)
  | ByValue => mkArr (a_blk a) (a_off a) (a_len a) 0 sh st fl
  end.

(** reshaped_view_with_offset: src/ndarray/reshape.rs 34-53. *)
Definition reshaped_view_with_offset (a : arr) (offset : nat) (sh st : list nat) : arr :=
  let fl := update_flags (a_fl a) sh st in
  mkArr (a_blk a) (a_off a + offset) (prod sh) 0 sh st (drop_own fl).

(** view: src/common/reshape.rs 26-30. *)
Definition nd_view (m : mode) (a : arr) : arr := reshaped_view m a (a_shape a) (a_stride a).

(** strides of the new shape, starting from [acc]: src/common/reshape.rs 69-74.
    The reverse enumeration is the right-to-left recursion. *)
Fixpoint reshape_strides (acc : nat) (sh : list nat) : list nat * nat :=
  match sh with
  | [] => ([], acc)
  | n :: sh' => let '(st, p) := reshape_strides acc sh' in (p :: st, p * n)
  end.

Definition list_eqb (l1 l2 : list nat) : bool :=
  if list_eq_dec Nat.eq_dec l1 l2 then true else false.

(** reshape: src/common/reshape.rs 55-77.  [self.ndims() - 1] is a checked subtraction. *)
Definition nd_reshape (m : mode) (a : arr) (new_shape : list nat) : res arr :=
  if list_eqb new_shape (a_shape a) then Ok (nd_view m a)
  else
    _ <- guard (f_unif (a_fl a)) ;;
    _ <- guard (prod (a_shape a) =? prod new_shape) ;;
    d <- csub (length (a_shape a)) 1 ;;
    acc <- vget (a_stride a) d ;;
    Ok (reshaped_view m a new_shape (fst (reshape_strides acc new_shape))).

(** squeeze: src/common/reshape.rs 96-106. *)
Definition squeeze_axes (sh st : list nat) : list (nat * nat) :=
  filter (fun p => negb (fst p =? 1)) (combine sh st).

Definition nd_squeeze (m : mode) (a : arr) : arr :=
  let l := squeeze_axes (a_shape a) (a_stride a) in
  reshaped_view m a (map fst l) (map snd l).

(** unsqueeze: src/common/reshape.rs 126-141.  stride[axis] * shape[axis + 1] is read
    after the insertion into shape, so it is the old shape[axis]. *)
Definition nd_unsqueeze (m : mode) (a : arr) (axis : Z) : res arr :=
  let nd := length (a_shape a) in
  ax <- as_absolute axis (nd + 1) ;;
  if ax =? nd then
    Ok (reshaped_view m a (a_shape a ++ [1]) (a_stride a ++ [1]))
  else
    sh <- vinsert (a_shape a) ax 1 ;;
    s <- vget (a_stride a) ax ;;
    n <- vget sh (ax + 1) ;;
    st <- vinsert (a_stride a) ax (s * n) ;;
    Ok (reshaped_view m a sh st).

(** transpose: src/common/reshape.rs 176-187, and T: 158-160. *)
Definition nd_transpose (m : mode) (a : arr) (axis1 axis2 : Z) : res arr :=
  let nd := length (a_shape a) in
  i <- as_absolute axis1 nd ;;
  j <- as_absolute axis2 nd ;;
  sh <- vswap (a_shape a) i j ;;
  st <- vswap (a_stride a) i j ;;
  Ok (reshaped_view m a sh st).

Definition nd_T (m : mode) (a : arr) : res arr := nd_transpose m a 0 1.

(** ** Slicing *)
(** enum Index: src/util/index.rs 11-19. *)
Inductive indexer :=
| IUsize (i : nat)
| IRange (s e : nat)
| IFrom (s : nat)
| IFull
| IIncl (s e : nat)
| ITo (e : nat)
| IToIncl (e : nat).

(** Indexer::indexed_length: src/util/index.rs 66-127 (checked subtractions). *)
Definition indexed_length (ix : indexer) (n : nat) : res nat :=
  match ix with
  | IUsize _ => Ok 1
  | IRange s e => csub e s
  | IFrom s => csub n s
  | IFull => Ok n
  | IIncl s e => d <- csub e s ;; Ok (d + 1)
  | ITo e => Ok e
  | IToIncl e => Ok (e + 1)
  end.

(** Indexer::index_of_first_element *)
Definition index_first (ix : indexer) : nat :=
  match ix with
  | IUsize i => i
  | IRange s _ => s
  | IFrom s => s
  | IFull => 0
  | IIncl s _ => s
  | ITo _ => 0
  | IToIncl _ => 0
  end.

(** Indexer::collapse_dimension *)
Definition index_collapses (ix : indexer) : bool :=
  match ix with IUsize _ => true | _ => false end.

(** calculate_strided_buffer_length: src/ndarray/slice.rs 28-38. *)
Fixpoint strided_len_sum (sh st : list nat) : res nat :=
  match sh, st with
  | n :: sh', s :: st' => d <- csub n 1 ;; r <- strided_len_sum sh' st' ;; Ok (s * d + r)
  | _, _ => Ok 0
  end.

Definition strided_len (sh st : list nat) : res nat := r <- strided_len_sum sh st ;; Ok (r + 1).

(** The loop of slice, src/ndarray/slice.rs 89-103: consumes indexers axis by axis;
    self.shape[axis] panics when there are more indexers than axes.  Result: offset,
    new shape, new stride. *)
Fixpoint slice_go (ixs : list indexer) (sh st : list nat) : res (nat * list nat * list nat) :=
  match ixs with
  | [] => Ok (0, sh, st)
  | ix :: ixs' =>
      match sh, st with
      | n :: sh', s :: st' =>
          l <- indexed_length ix n ;;
          r <- slice_go ixs' sh' st' ;;
          let '(o, sh1, st1) := r in
          if index_collapses ix then Ok (s * index_first ix + o, sh1, st1)
          else Ok (s * index_first ix + o, l :: sh1, s :: st1)
      | _, _ => Panic
      end
  end.

(** slice: src/ndarray/slice.rs 77-121. *)
Definition nd_slice (a : arr) (ixs : list indexer) : res arr :=
  r <- slice_go ixs (a_shape a) (a_stride a) ;;
  let '(o, sh, st) := r in
  len <- strided_len sh st ;;
  Ok (mkArr (a_blk a) (a_off a + o) len 0 sh st (drop_own (update_flags (a_fl a) sh st))).

(** slice_along: src/ndarray/slice.rs 42-75. *)
Definition nd_slice_along (a : arr) (axis : Z) (ix : indexer) : res arr :=
  ax <- as_absolute axis (length (a_shape a)) ;;
  n <- vget (a_shape a) ax ;;
  s <- vget (a_stride a) ax ;;
  r <- (if index_collapses ix then
          sh <- vremove (a_shape a) ax ;; st <- vremove (a_stride a) ax ;; Ok (sh, st)
        else
          l <- indexed_length ix n ;; sh <- vset (a_shape a) ax l ;; Ok (sh, a_stride a)) ;;
  let '(sh, st) := r in
  len <- strided_len sh st ;;
  Ok (mkArr (a_blk a) (a_off a + s * index_first ix) len len sh st
            (drop_own (update_flags (a_fl a) sh st))).

(** ** Broadcasting *)
(** pad: src/util/functions.rs 38-46; n - arr.len() is a checked subtraction. *)
Definition pad {A} (l : list A) (v : A) (n : nat) : res (list A) :=
  k <- csub n (length l) ;; Ok (repeat v k ++ l).

(** the compatibility loop of broadcast_shape, src/ndarray/broadcast.rs 92-96 *)
Fixpoint bshape_ok (sh last : list nat) : bool :=
  match sh, last with
  | n :: sh', m :: last' => ((n =? 1) || (n =? m)) && bshape_ok sh' last'
  | _, _ => true
  end.

(** broadcast_shape: src/ndarray/broadcast.rs 83-99. *)
Definition broadcast_shape (sh to : list nat) : res (list nat) :=
  if length to <? length sh then Panic
  else _ <- guard (bshape_ok sh (skipn (length to - length sh) to)) ;; Ok to.

(** the axis loop of broadcast_stride, src/ndarray/broadcast.rs 135-145 *)
Fixpoint bstride_go (st bsh osh : list nat) : res (list nat) :=
  match osh, bsh, st with
  | n :: osh', m :: bsh', s :: st' =>
      x <- (if n =? 1 then Ok 0 else if n =? m then Ok s else Panic) ;;
      r <- bstride_go st' bsh' osh' ;; Ok (x :: r)
  | _, _, _ => Ok []
  end.

(** broadcast_stride: src/ndarray/broadcast.rs 121-148. *)
Definition broadcast_stride (st bsh osh : list nat) : res (list nat) :=
  if length bsh <? length osh then Panic
  else
    let k := length bsh - length osh in
    r <- bstride_go st (skipn k bsh) osh ;; Ok (repeat 0 k ++ r).

(** the axis loop of broadcast_shapes, src/ndarray/broadcast.rs 185-198.  shape2 is
    assigned but never read afterwards, so only shape1 is kept. *)
Fixpoint bshapes_go (s1 s2 : list nat) : res (list nat) :=
  match s1, s2 with
  | a :: s1', b :: s2' =>
      x <- (if a =? 1 then Ok b else if b =? 1 then Ok a else if a =? b then Ok a else Panic) ;;
      r <- bshapes_go s1' s2' ;; Ok (x :: r)
  | _, _ => Ok []
  end.

(** broadcast_shapes: src/ndarray/broadcast.rs 172-201. *)
Definition broadcast_shapes (first second : list nat) : res (list nat) :=
  if length second <? length first then
    s1 <- pad second 1 (length first) ;; bshapes_go s1 first
  else
    s1 <- pad first 1 (length second) ;; bshapes_go s1 second.

(** flags - Writeable *)
Definition read_only (fl : flags) : flags :=
  mkFlags (f_owned fl) (f_contig fl) (f_unif fl) false (f_user fl) (f_grad fl).

(** broadcast_to: src/ndarray/broadcast.rs 34-41. *)
Definition nd_broadcast_to (a : arr) (sh : list nat) : res arr :=
  bsh <- broadcast_shape (a_shape a) sh ;;
  bst <- broadcast_stride (a_stride a) bsh (a_shape a) ;;
  let r := reshaped_view ByRef a bsh bst in
  Ok (mkArr (a_blk r) (a_off r) (a_len r) (a_cap r) (a_shape r) (a_stride r) (read_only (a_fl r))).

(** get_broadcasted_axes: src/ndarray/broadcast.rs 222-242. *)
Fixpoint bcast_axes_go (i : nat) (diff : nat) (bsh osh : list nat) : list nat :=
  match bsh with
  | [] => []
  | to_dim :: bsh' =>
      let '(from_dim, osh') :=
        if i <? diff then (1, osh) else match osh with n :: r => (n, r) | [] => (0, []) end in
      let rest := bcast_axes_go (S i) diff bsh' osh' in
      if ((from_dim =? 1) && (1 <? to_dim)) || (i <? diff) then i :: rest else rest
  end.

Definition get_broadcasted_axes (bsh osh : list nat) : res (list nat) :=
  if length bsh <? length osh then Panic
  else Ok (bcast_axes_go 0 (length bsh - length osh) bsh osh).

(** ** Diagonals *)
(** the loop over the other axes, src/linalg/matrix_ops.rs 333-340 *)
Fixpoint drop_two (i ax1 ax2 : nat) (l : list nat) : list nat :=
  match l with
  | [] => []
  | x :: r => if (i =? ax1) || (i =? ax2) then drop_two (S i) ax1 ax2 r
              else x :: drop_two (S i) ax1 ax2 r
  end.

(** offset_diagonal_along: src/linalg/matrix_ops.rs 289-347. *)
Definition nd_offset_diagonal_along (a : arr) (offset axis1 axis2 : Z) : res arr :=
  let nd := length (a_shape a) in
  _ <- guard (2 <=? nd) ;;
  ax1 <- as_absolute axis1 nd ;;
  ax2 <- as_absolute axis2 nd ;;
  _ <- guard (negb (ax1 =? ax2)) ;;
  dim1 <- vget (a_shape a) ax1 ;;
  dim2 <- vget (a_shape a) ax2 ;;
  stride1 <- vget (a_stride a) ax1 ;;
  stride2 <- vget (a_stride a) ax2 ;;
  r <- (if (0 <=? offset)%Z then
          let o := Z.to_nat offset in
          if dim2 <=? o then Panic else Ok (o * stride2, dim1, dim2 - o)
        else
          let o := Z.to_nat (- offset) in
          if dim1 <=? o then Panic else Ok (o * stride1, dim1 - o, dim2)) ;;
  let '(po, d1, d2) := r in
  Ok (reshaped_view_with_offset a po
        (drop_two 0 ax1 ax2 (a_shape a) ++ [Nat.min d1 d2])
        (drop_two 0 ax1 ax2 (a_stride a) ++ [stride1 + stride2])).

(** diagonal: lines 227-229 *)
Definition nd_diagonal (a : arr) : res arr := nd_offset_diagonal_along a 0 0 1.

(** has_uniform_stride() method: src/common/methods.rs 165-176 *)
Definition nd_has_uniform_stride (a : arr) : res (option nat) :=
  if f_unif (a_fl a) then
    match a_shape a with
    | [] => Ok (Some 0)
    | _ => let '(_, st) := collapse (a_shape a) (a_stride a) in s <- vget st 0 ;; Ok (Some s)
    end
  else Ok None.
