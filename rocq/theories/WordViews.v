(** WordViews.v: the view operations and the flat index generator on machine words.  Same
    functions as in Views.v, Layout.v and Einsum.v, with the usize additions, subtractions and
    multiplications of a build with or without overflow checks (Word.v). *)
From Coq Require Import List Arith Bool ZArith.
From Verif Require Import Base Layout Views Einsum Nested PropsEinsum Prog Word.
Import ListNotations.
Open Scope res_scope.

Section WordViews.
  (** number of values of [usize] *)
  Variable W : nat.
  Variable bld : build.
  Local Notation word := (word W bld).
  Local Notation wprod := (wprod W bld).

  (** subtraction of words; the difference of two words is one, so the last test never fails *)
  Definition wsub (a b : nat) : res nat :=
    match bld with
    | Checked => d <- csub a b ;; if d <? W then Ok d else Panic
    | Wrapping => Ok ((a + W - b) mod W)
    end.

  (** has_uniform_stride: src/ndarray/iterator/collapse_contiguous.rs 78-91; the product is
      only taken when the stride before is not 0 *)
  Fixpoint wuniform_go (s : nat) (sh st : list nat) : res (option nat) :=
    match sh, st with
    | n' :: sh', s' :: st' =>
        if s =? 0 then wuniform_go s' sh' st'
        else p <- word (n' * s') ;; if s =? p then wuniform_go s' sh' st' else Ok None
    | _, _ => Ok (Some s)
    end.
  Definition wuniform (sh st : list nat) : res (option nat) :=
    match sh, st with
    | _ :: sh', s :: st' => wuniform_go s sh' st'
    | _, _ => Ok (Some 0)
    end.

  (** update_flags_with_contiguity: src/ndarray/slice.rs 8-26 *)
  Definition wflags (fl : flags) (sh st : list nat) : res flags :=
    u <- wuniform sh st ;;
    Ok (match u with
        | None => mkFlags (f_owned fl) false false (f_write fl) (f_user fl) (f_grad fl)
        | Some s => mkFlags (f_owned fl) (s <=? 1) true (f_write fl) (f_user fl) (f_grad fl)
        end).

  (** Reshape::reshaped_view: src/ndarray/reshape.rs 59-76 (by value), 82-98 (by ref) *)
  Definition wreshaped_view (m : mode) (a : arr) (sh st : list nat) : res arr :=
    fl <- wflags (a_fl a) sh st ;;
    match m with
    | ByRef => len <- wprod sh ;; Ok (mkArr (a_blk a) (a_off a) len (a_cap a) sh st (drop_own fl))
    | ByValue => Ok (mkArr (a_blk a) (a_off a) (a_len a) 0 sh st fl)
    end.

  (** reshaped_view_with_offset: src/ndarray/reshape.rs 34-53; the pointer itself is moved in
      nat *)
  Definition wreshaped_view_with_offset (a : arr) (offset : nat) (sh st : list nat) : res arr :=
    fl <- wflags (a_fl a) sh st ;;
    len <- wprod sh ;;
    Ok (mkArr (a_blk a) (a_off a + offset) len 0 sh st (drop_own fl)).

  (** reshape: src/common/reshape.rs 55-77 *)
  Definition wv_reshape (m : mode) (a : arr) (new_shape : list nat) : res arr :=
    if list_eqb new_shape (a_shape a) then wreshaped_view m a (a_shape a) (a_stride a)
    else
      _ <- guard (f_unif (a_fl a)) ;;
      s <- wprod (a_shape a) ;;
      p <- wprod new_shape ;;
      _ <- guard (s =? p) ;;
      d <- wsub (length (a_shape a)) 1 ;;
      acc <- vget (a_stride a) d ;;
      r <- wstrides W bld acc new_shape ;;
      wreshaped_view m a new_shape (fst r).

  (** squeeze: src/common/reshape.rs 96-106 *)
  Definition wv_squeeze (m : mode) (a : arr) : res arr :=
    let l := squeeze_axes (a_shape a) (a_stride a) in wreshaped_view m a (map fst l) (map snd l).

  (** unsqueeze: src/common/reshape.rs 126-141 *)
  Definition wv_unsqueeze (m : mode) (a : arr) (axis : Z) : res arr :=
    let nd := length (a_shape a) in
    ax <- as_absolute axis (nd + 1) ;;
    if ax =? nd then wreshaped_view m a (a_shape a ++ [1]) (a_stride a ++ [1])
    else
      sh <- vinsert (a_shape a) ax 1 ;;
      s <- vget (a_stride a) ax ;;
      n <- vget sh (ax + 1) ;;
      p <- word (s * n) ;;
      st <- vinsert (a_stride a) ax p ;;
      wreshaped_view m a sh st.

  (** transpose: src/common/reshape.rs 176-187 *)
  Definition wv_transpose (m : mode) (a : arr) (axis1 axis2 : Z) : res arr :=
    let nd := length (a_shape a) in
    i <- as_absolute axis1 nd ;;
    j <- as_absolute axis2 nd ;;
    sh <- vswap (a_shape a) i j ;;
    st <- vswap (a_stride a) i j ;;
    wreshaped_view m a sh st.

  (** Indexer::indexed_length: src/util/index.rs 66-127 *)
  Definition windexed_length (ix : indexer) (n : nat) : res nat :=
    match ix with
    | IUsize _ => Ok 1
    | IRange s e => wsub e s
    | IFrom s => wsub n s
    | IFull => Ok n
    | IIncl s e => d <- wsub e s ;; word (d + 1)
    | ITo e => Ok e
    | IToIncl e => word (e + 1)
    end.

  (** calculate_strided_buffer_length: src/ndarray/slice.rs 28-38; [sum] is a left fold
      starting from 0 *)
  Fixpoint wlen_from (acc : nat) (sh st : list nat) : res nat :=
    match sh, st with
    | n :: sh', s :: st' =>
        d <- wsub n 1 ;; t <- word (s * d) ;; acc' <- word (acc + t) ;; wlen_from acc' sh' st'
    | _, _ => Ok acc
    end.
  Definition wstrided_len (sh st : list nat) : res nat := r <- wlen_from 0 sh st ;; word (r + 1).

  (** the loop of slice, src/ndarray/slice.rs 89-103 *)
  Fixpoint wslice_go (offset : nat) (ixs : list indexer) (sh st : list nat) : res (nat * list nat * list nat) :=
    match ixs with
    | [] => Ok (offset, sh, st)
    | ix :: ixs' =>
        match sh, st with
        | n :: sh', s :: st' =>
            l <- windexed_length ix n ;;
            t <- word (s * index_first ix) ;;
            o <- word (offset + t) ;;
            r <- wslice_go o ixs' sh' st' ;;
            let '(o', sh1, st1) := r in
            if index_collapses ix then Ok (o', sh1, st1) else Ok (o', l :: sh1, s :: st1)
        | _, _ => Panic
        end
    end.

  (** slice: src/ndarray/slice.rs 77-121 *)
  Definition wv_slice (a : arr) (ixs : list indexer) : res arr :=
    r <- wslice_go 0 ixs (a_shape a) (a_stride a) ;;
    let '(o, sh, st) := r in
    len <- wstrided_len sh st ;;
    fl <- wflags (a_fl a) sh st ;;
    Ok (mkArr (a_blk a) (a_off a + o) len 0 sh st (drop_own fl)).

  (** slice_along: src/ndarray/slice.rs 42-75 *)
  Definition wv_slice_along (a : arr) (axis : Z) (ix : indexer) : res arr :=
    ax <- as_absolute axis (length (a_shape a)) ;;
    n <- vget (a_shape a) ax ;;
    s <- vget (a_stride a) ax ;;
    r <- (if index_collapses ix then
            sh <- vremove (a_shape a) ax ;; st <- vremove (a_stride a) ax ;; Ok (sh, st)
          else
            l <- windexed_length ix n ;; sh <- vset (a_shape a) ax l ;; Ok (sh, a_stride a)) ;;
    let '(sh, st) := r in
    o <- word (s * index_first ix) ;;
    len <- wstrided_len sh st ;;
    fl <- wflags (a_fl a) sh st ;;
    Ok (mkArr (a_blk a) (a_off a + o) len len sh st (drop_own fl)).

  (** offset_diagonal_along: src/linalg/matrix_ops.rs 289-347 *)
  Definition wv_diagonal (a : arr) (offset axis1 axis2 : Z) : res arr :=
    let nd := length (a_shape a) in
    _ <- guard (2 <=? nd) ;;
    ax1 <- as_absolute axis1 nd ;;
    ax2 <- as_absolute axis2 nd ;;
    _ <- guard (negb (ax1 =? ax2)) ;;
    dim1 <- vget (a_shape a) ax1 ;;
    dim2 <- vget (a_shape a) ax2 ;;
    stride1 <- vget (a_stride a) ax1 ;;
    stride2 <- vget (a_stride a) ax2 ;;
    r <- (if (0 <=? offset)%Z then
            let o := Z.to_nat offset in
            if dim2 <=? o then Panic else p <- word (o * stride2) ;; d <- wsub dim2 o ;; Ok (p, dim1, d)
          else
            let o := Z.to_nat (- offset) in
            if dim1 <=? o then Panic else p <- word (o * stride1) ;; d <- wsub dim1 o ;; Ok (p, d, dim2)) ;;
    let '(po, d1, d2) := r in
    s <- word (stride1 + stride2) ;;
    wreshaped_view_with_offset a po
      (drop_two 0 ax1 ax2 (a_shape a) ++ [Nat.min d1 d2]) (drop_two 0 ax1 ax2 (a_stride a) ++ [s]).

  (** broadcast_to: src/ndarray/broadcast.rs 34-41 *)
  Definition wv_broadcast_to (a : arr) (sh : list nat) : res arr :=
    bsh <- broadcast_shape (a_shape a) sh ;;
    bst <- broadcast_stride (a_stride a) bsh (a_shape a) ;;
    r <- wreshaped_view ByRef a bsh bst ;;
    Ok (mkArr (a_blk r) (a_off r) (a_len r) (a_cap r) (a_shape r) (a_stride r) (read_only (a_fl r))).

  (** the loop of reshape_shape_and_stride_for_einsum, src/linalg/einsum.rs 172-189.  The
      arithmetic of the parser on positions in the subscript string is left in nat. *)
  Fixpoint wrse_go (labels out : list Z) (shape stride : list nat) (idim n : nat) (nsh nst : list nat)
      : res (option (list nat * list nat)) :=
    match n with
    | O => Ok (Some (nsh, nst))
    | S n' =>
        label <- label_of labels idim ;;
        if (label =? 0)%Z then Panic
        else
          match position out label with
          | None => Ok None
          | Some ax =>
              d <- vget shape idim ;;
              nsh' <- vset nsh ax d ;;
              s <- vget stride idim ;;
              old <- vget nst ax ;;
              t <- word (old + s) ;;
              nst' <- vset nst ax t ;;
              wrse_go labels out shape stride (S idim) n' nsh' nst'
          end
    end.

  (** einsum_view: src/linalg/einsum.rs 280-297 *)
  Definition wv_einsum (a : arr) (sub out : list Z) : res (option arr) :=
    r <- parse_operand sub (a_shape a) (fun _ => 0) (fun _ => 0) ;;
    let '(labels, counts, _, bd) := r in
    outl <- parse_output out bd counts ;;
    o <- wrse_go labels outl (a_shape a) (a_stride a) 0 (length (a_shape a)) (repeat 0 (length outl)) (repeat 0 (length outl)) ;;
    match o with None => Ok None | Some (nsh, nst) => v <- wreshaped_view ByRef a nsh nst ;; Ok (Some v) end.

  (** every operation that returns a view, as [view_by] of Prog.v *)
  Definition wview_by (o : vop) (a : arr) : res (option arr) :=
    match o with
    | VView m => r <- wreshaped_view m a (a_shape a) (a_stride a) ;; Ok (Some r)
    | VReshape m sh => r <- wv_reshape m a sh ;; Ok (Some r)
    | VTranspose m i j => r <- wv_transpose m a i j ;; Ok (Some r)
    | VSqueeze m => r <- wv_squeeze m a ;; Ok (Some r)
    | VUnsqueeze m i => r <- wv_unsqueeze m a i ;; Ok (Some r)
    | VSlice ixs => r <- wv_slice a ixs ;; Ok (Some r)
    | VSliceAlong i ix => r <- wv_slice_along a i ix ;; Ok (Some r)
    | VDiagonal o i j => r <- wv_diagonal a o i j ;; Ok (Some r)
    | VEinsum sub out => wv_einsum a sub out
    | VBroadcast sh => r <- wv_broadcast_to a sh ;; Ok (Some r)
    end.

  (** collapse_to_uniform_stride: src/ndarray/iterator/collapse_contiguous.rs 45-76; the
      product of the first test is always taken *)
  Fixpoint wcollapse_go (n s : nat) (sh st : list nat) : res (list nat * list nat) :=
    match sh, st with
    | n' :: sh', s' :: st' =>
        p <- word (n' * s') ;;
        if (s =? p) || ((s =? 0) && (n =? 1))
        then m <- word (n * n') ;; wcollapse_go m s' sh' st'
        else r <- wcollapse_go n' s' sh' st' ;; Ok (n :: fst r, s :: snd r)
    | _, _ => Ok ([n], [s])
    end.
  Definition wcollapse (sh st : list nat) : res (list nat * list nat) :=
    match sh, st with
    | n :: sh', s :: st' => wcollapse_go n s sh' st'
    | _, _ => Ok ([], [])
    end.

  (** FlatIndexGenerator::from: src/ndarray/iterator/flat_index_generator.rs 19-39 *)
  Definition wfig_from (sh st : list nat) : res fig :=
    c <- wcollapse sh st ;;
    let '(s, t) := c in
    size <- wprod s ;;
    if MAX_DIMS <? length s then Panic
    else Ok (mkFig s t size 0 (repeat 0 (length s)) 0).

  (** the while loop of next, lines 76-91 *)
  Fixpoint wfig_carry (sh st idx : list nat) (flat : nat) : res (list nat * nat * bool) :=
    match sh, st, idx with
    | n :: sh', s :: st', i :: idx' =>
        r <- wfig_carry sh' st' idx' flat ;;
        let '(idx1, flat1, c) := r in
        if c : bool then
          i1 <- word (i + 1) ;;
          if i1 <? n then f <- word (flat1 + s) ;; Ok (i1 :: idx1, f, false)
          else d <- wsub n 1 ;; t <- word (s * d) ;; f <- wsub flat1 t ;; Ok (0 :: idx1, f, true)
        else Ok (i :: idx1, flat1, false)
    | _, _, _ => Ok ([], flat, true)
    end.

  (** next, lines 69-96 *)
  Definition wfig_next (g : fig) : res (option (nat * fig)) :=
    if g_iter g =? g_size g then Ok None
    else
      r <- wfig_carry (g_shape g) (g_stride g) (g_idx g) (g_flat g) ;;
      let '(idx, flat, _) := r in
      it <- word (g_iter g + 1) ;;
      Ok (Some (g_flat g, mkFig (g_shape g) (g_stride g) (g_size g) it idx flat)).

  (** the iterator driven to the end, as [fig_run] *)
  Fixpoint wfig_run (fuel : nat) (g : fig) : res (list nat) :=
    match fuel with
    | O => Panic
    | S fuel' =>
        r <- wfig_next g ;;
        match r with
        | None => Ok []
        | Some (i, g') => is <- wfig_run fuel' g' ;; Ok (i :: is)
        end
    end.
  Definition wfig_list (sh st : list nat) : res (list nat) :=
    g <- wfig_from sh st ;; wfig_run (S (g_size g)) g.
End WordViews.
