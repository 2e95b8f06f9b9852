(** WordOps.v: the operations that read, write and allocate, and whole programs, on machine
    words.  Same functions as in Kernels.v, Access.v, Reduce.v, Einsum.v and Prog.v, with the
    usize additions, subtractions and multiplications of a build with or without overflow checks
    (Word.v, WordViews.v).

    Simplified: moving a pointer and counting a loop down are left in nat; so is the arithmetic
    on numbers of axes, of operands and of subscript characters.  Every allocation succeeds
    (Vec aborts or panics when the memory cannot be had, whatever the build). *)
From Coq Require Import List Arith Bool ZArith.
From Verif Require Import Base Layout Views Kernels Access Reduce Einsum Nested PropsEinsum Prog Word WordViews.
Import ListNotations.
Open Scope res_scope.

Section WordOps.
  (** number of values of [usize] *)
  Variable W : nat.
  Variable bld : build.
  Local Notation word := (word W bld).
  Local Notation wprod := (wprod W bld).
  Local Notation wsub := (wsub W bld).
  Local Notation wuniform := (wuniform W bld).
  Local Notation wcollapse := (wcollapse W bld).
  Local Notation wfig_list := (wfig_list W bld).
  Local Notation wreshaped_view := (wreshaped_view W bld).

  (** from_contiguous_owned_buffer, src/ndarray/constructors.rs 51-69: the length is that of the
      buffer, the strides are products of the shape *)
  Definition wfresh (b n : nat) (sh : list nat) : res arr :=
    r <- wstrides W bld 1 sh ;; Ok (mkArr b 0 n n sh (fst r) fresh_flags).
  Definition wfrom_buffer {T} (h : heap T) (sh : list nat) (data : list T) : res (heap T * arr) :=
    let '(h', b) := alloc h data in r <- wfresh b (length data) sh ;; Ok (h', r).

  (** new: src/common/constructors.rs 40-49 *)
  Definition wnew {T} (h : heap T) (ks : list kind) (d : nest T) : res (heap T * arr) :=
    ok <- check_homogenous ks d ;; _ <- guard ok ;;
    s <- nest_shape ks d ;; data <- nest_flatten ks d ;;
    _ <- guard (negb (length data =? 0)) ;;
    wfrom_buffer h s data.

  Section Binary.
    Context {T : Type}.
    Variable f : T -> T -> res T.

    (** nonunif_n: src/ops/binary_ops.rs 93-106 *)
    Definition wk_xn (h : heap T) (lhs : src T) (lsh lst : list nat) (rhs : src T) (rs : nat) (dst : ptr) (count : nat) : res (heap T) :=
      is <- wfig_list lsh lst ;; k_xn_go f h lhs is rhs rs dst count.

    (** n_nonunif: lines 108-121 *)
    Definition wk_nx (h : heap T) (lhs : src T) (ls : nat) (rhs : src T) (rsh rst : list nat) (dst : ptr) (count : nat) : res (heap T) :=
      is <- wfig_list rsh rst ;; k_nx_go f h lhs ls rhs is dst count.

    (** unspecialized: lines 123-133 *)
    Definition wk_xx (h : heap T) (lhs : src T) (lsh lst : list nat) (rhs : src T) (rsh rst : list nat) (dst : ptr) : res (heap T) :=
      is <- wfig_list lsh lst ;; js <- wfig_list rsh rst ;; k_xx_go f h lhs is rhs js dst.

    (** <op>_scalar: lines 135-160 *)
    Definition wk_scalar (h : heap T) (lhs : ptr) (lsh lst : list nat) (c : T) (dst : ptr) : res (heap T) :=
      match lst with
      | [] => x <- ld h lhs ;; v <- f x c ;; st h dst v
      | _ =>
          r <- wcollapse lsh lst ;;
          let '(sh, str) := r in
          inner <- last_of str ;;
          if length sh =? 1 then n <- vget sh 0 ;; k_nn f h (Mem lhs) inner (Val c) 0 dst n
          else n <- wprod sh ;; wk_xn h (Mem lhs) sh str (Val c) 0 dst n
      end.

    (** the kernel <op>: lines 162-249; the branches with a stride 0 or 1 written out are the ones
        with the stride they were chosen for *)
    Definition wk_binary (h : heap T) (lhs : ptr) (lst0 : list nat) (rhs : ptr) (rst0 : list nat) (dst : ptr) (shape : list nat) : res (heap T) :=
      if (length lst0 =? 0) && (length rst0 =? 0) then
        x <- ld h lhs ;; y <- ld h rhs ;; v <- f x y ;; st h dst v
      else
        l <- wcollapse shape lst0 ;;
        r <- wcollapse shape rst0 ;;
        let '(lsh, lst) := l in
        let '(rsh, rst) := r in
        li <- last_of lst ;;
        ri <- last_of rst ;;
        ln <- vget lsh 0 ;;
        rn <- vget rsh 0 ;;
        let ld1 := length lsh =? 1 in
        let rd1 := length rsh =? 1 in
        if ld1 && rd1 then
          if ri =? 0 then
            if li =? 1 then k_nn f h (Mem lhs) 1 (Mem rhs) 0 dst ln
            else k_nn f h (Mem lhs) li (Mem rhs) 0 dst ln
          else if li =? 0 then
            if ri =? 1 then k_nn f h (Mem lhs) 0 (Mem rhs) 1 dst rn
            else k_nn f h (Mem lhs) 0 (Mem rhs) ri dst rn
          else if (li =? 1) && (ri =? 1) then k_nn f h (Mem lhs) 1 (Mem rhs) 1 dst ln
          else if li =? 1 then k_nn f h (Mem lhs) 1 (Mem rhs) ri dst ln
          else if ri =? 1 then k_nn f h (Mem lhs) li (Mem rhs) 1 dst rn
          else k_nn f h (Mem lhs) li (Mem rhs) ri dst ln
        else if rd1 && (ri =? 0) then wk_xn h (Mem lhs) lsh lst (Mem rhs) 0 dst rn
        else if ld1 && (li =? 0) then wk_nx h (Mem lhs) 0 (Mem rhs) rsh rst dst ln
        else if rd1 && (ri =? 1) then wk_xn h (Mem lhs) lsh lst (Mem rhs) 1 dst rn
        else if ld1 && (li =? 1) then wk_nx h (Mem lhs) 1 (Mem rhs) rsh rst dst ln
        else if rd1 then wk_xn h (Mem lhs) lsh lst (Mem rhs) ri dst rn
        else if ld1 then wk_nx h (Mem lhs) li (Mem rhs) rsh rst dst ln
        else wk_xx h (Mem lhs) lsh lst (Mem rhs) rsh rst dst.

    (** &a op &b: src/ndarray/binary_ops.rs 37-51 *)
    Definition wbinary (dflt : T) (h : heap T) (a b : arr) : res (heap T * arr) :=
      shape <- broadcast_shapes (a_shape a) (a_shape b) ;;
      ls <- broadcast_stride (a_stride a) shape (a_shape a) ;;
      rs <- broadcast_stride (a_stride b) shape (a_shape b) ;;
      n <- wprod shape ;;
      let '(h1, blk) := alloc h (repeat dflt n) in
      h2 <- wk_binary h1 (a_ptr a) ls (a_ptr b) rs (blk, 0) shape ;;
      r <- wfresh blk n shape ;; Ok (h2, r).

    (** &a op scalar: lines 64-73 *)
    Definition wscalar_op (dflt : T) (h : heap T) (a : arr) (c : T) : res (heap T * arr) :=
      n <- wprod (a_shape a) ;;
      let '(h1, blk) := alloc h (repeat dflt n) in
      h2 <- wk_scalar h1 (a_ptr a) (a_shape a) (a_stride a) c (blk, 0) ;;
      r <- wfresh blk n (a_shape a) ;; Ok (h2, r).

    (** a op= &b: src/ndarray/assign_ops.rs 23-46 *)
    Definition wassign (h : heap T) (a b : arr) : res (heap T) :=
      _ <- guard (f_write (a_fl a)) ;;
      if list_eqb (a_shape b) (a_shape a) then
        wk_binary h (a_ptr a) (a_stride a) (a_ptr b) (a_stride b) (a_ptr a) (a_shape a)
      else
        b' <- wv_broadcast_to W bld b (a_shape a) ;;
        wk_binary h (a_ptr a) (a_stride a) (a_ptr b') (a_stride b') (a_ptr a) (a_shape a).

    (** a op= scalar: lines 50-59 *)
    Definition wassign_scalar (h : heap T) (a : arr) (c : T) : res (heap T) :=
      _ <- guard (f_write (a_fl a)) ;; wk_scalar h (a_ptr a) (a_shape a) (a_stride a) c (a_ptr a).
  End Binary.

  Section Unary.
    Context {T : Type}.
    Variable g : T -> res T.

    (** neg: src/ops/unary_ops.rs 38-60 *)
    Definition wk_unary (h : heap T) (op : ptr) (shape stride : list nat) (dst : ptr) : res (heap T) :=
      match shape with
      | [] => x <- ld h op ;; v <- g x ;; st h dst v
      | _ =>
          r <- wcollapse shape stride ;;
          let '(sh, str) := r in
          if length sh =? 1 then
            n <- vget sh 0 ;;
            s <- vget str 0 ;;
            k_un g h op s dst n
          else is <- wfig_list sh str ;; k_ux_go g h op is dst
      end.

    (** -&a: src/ndarray/unary_ops.rs 14-21 *)
    Definition wunary (dflt : T) (h : heap T) (a : arr) : res (heap T * arr) :=
      n <- wprod (a_shape a) ;;
      let '(h1, blk) := alloc h (repeat dflt n) in
      h2 <- wk_unary h1 (a_ptr a) (a_shape a) (a_stride a) (blk, 0) ;;
      r <- wfresh blk n (a_shape a) ;; Ok (h2, r).
  End Unary.

  Section Access.
    Context {T : Type}.

    (** flatiter().collect(): src/ndarray/iterator/flat_iterator.rs 9-23 *)
    Definition wflatiter (h : heap T) (a : arr) : res (list T) :=
      is <- wfig_list (a_shape a) (a_stride a) ;; mapM (fun i => ld h (padd (a_ptr a) i)) is.

    (** a[[..]] = v: src/ndarray/index_impl.rs 21-30 ([windex] is the reading one) *)
    Definition windex_set (h : heap T) (a : arr) (idx : list nat) (v : T) : res (heap T) :=
      _ <- guard (length idx <=? length (a_shape a)) ;;
      i <- woffset_from W bld 0 idx (a_stride a) ;;
      _ <- guard (i <? a_len a) ;;
      st h (padd (a_ptr a) i) v.

    (** value: src/ndarray/methods.rs 26-29 *)
    Definition wvalue (h : heap T) (a : arr) : res T :=
      n <- wprod (a_shape a) ;; _ <- guard (n =? 1) ;; ld h (a_ptr a).

    (** clone_data_non_contiguous: src/ndarray/clone.rs 30-64; the buffer is given [size] cells,
        so writing more than that leaves it and writing less exposes uninitialised memory *)
    Definition wclone_strided (h : heap T) (a : arr) : res (list T) :=
      c <- wcollapse (a_shape a) (a_stride a) ;;
      let '(sh, str) := c in
      match str with
      | [] => Panic
      | _ =>
          size <- wprod (a_shape a) ;;
          r <- (if last str 0 =? 1 then
                  is <- wfig_list (removelast sh) (removelast str) ;; copy_runs h (a_ptr a) is (last sh 0)
                else is <- wfig_list sh str ;; copy_runs h (a_ptr a) is 1) ;;
          if length r =? size then Ok r else Oob
      end.

    (** clone_data: clone.rs 13-27 *)
    Definition wclone_data (h : heap T) (a : arr) : res (list T) :=
      if f_contig (a_fl a) then read_run h (a_ptr a) (a_len a) else wclone_strided h a.

    (** clone: clone.rs 9-11; flatten: src/ndarray/reshape.rs 21-25 *)
    Definition wclone (h : heap T) (a : arr) : res (heap T * arr) :=
      d <- wclone_data h a ;; wfrom_buffer h (a_shape a) d.
    Definition wflatten (h : heap T) (a : arr) : res (heap T * arr) :=
      d <- wclone_data h a ;; n <- wprod (a_shape a) ;; wfrom_buffer h [n] d.

    (** a == b: src/ndarray/equals.rs 12-17 *)
    Definition wequal (eqb : T -> T -> bool) (h : heap T) (a b : arr) : res bool :=
      if list_eqb (a_shape a) (a_shape b) then
        is <- wfig_list (a_shape a) (a_stride a) ;;
        js <- wfig_list (a_shape b) (a_stride b) ;;
        zip_all eqb h (a_ptr a) is (a_ptr b) js
      else Ok false.

    (** fill: src/ops/fill.rs 45-60 *)
    Fixpoint wk_fill (h : heap T) (p : ptr) (shape stride : list nat) (len : nat) (v : T) {struct shape} : res (heap T) :=
      u <- wuniform shape stride ;;
      match u with
      | Some s => if s =? 1 then fill_uniform h p len 1 v else n <- wprod shape ;; fill_uniform h p n s v
      | None =>
          match shape, stride with
          | n :: sh', s :: st' =>
              loop_ptr (fun h p =>
                  n1 <- vget sh' 0 ;; s1 <- vget st' 0 ;;
                  l <- word (n1 * s1) ;;
                  wk_fill h p sh' st' l v) h p n s
          | _, _ => Panic
          end
      end.

    (** fill: src/ndarray/fill.rs 18-20 *)
    Definition wfill (h : heap T) (a : arr) (v : T) : res (heap T) :=
      wk_fill h (a_ptr a) (a_shape a) (a_stride a) (a_len a) v.
  End Access.

  Section Reduce.
    Context {T : Type}.
    Variable g : T -> T -> res T.

    (** sum and the other five kernels: src/ops/reduce_sum.rs 42-56 *)
    Definition wk_reduce (dflt : T) (h : heap T) (p : ptr) (shape stride : list nat) : res T :=
      u <- wuniform shape stride ;;
      match u with
      | Some s => n <- wprod shape ;; fold_run g h p n s dflt
      | None => is <- wfig_list shape stride ;; fold_idx g h p is dflt
      end.

    (** NdArray::sum and the others: src/ndarray/reduce.rs 124-127 *)
    Definition wreduce (dflt : T) (h : heap T) (a : arr) : res (heap T * arr) :=
      v <- wk_reduce dflt h (a_ptr a) (a_shape a) (a_stride a) ;; wfull W bld h v [].

    (** the loop of reduced_shape_and_stride, src/ndarray/reduce.rs 40-49 *)
    Fixpoint wrss_go (mask : list bool) (shape : list nat) : res (nat * list nat * list nat) :=
      match mask, shape with
      | m :: mask', n :: sh' =>
          r <- wrss_go mask' sh' ;;
          let '(s, nsh, nst) := r in
          if m : bool then Ok (s, nsh, 0 :: nst) else s' <- word (s * n) ;; Ok (s', n :: nsh, s :: nst)
      | _, _ => Ok (1, [], [])
      end.

    (** reduced_shape_and_stride: src/ndarray/reduce.rs 25-52 *)
    Definition wreduced (axes : list Z) (shape : list nat) : res (list nat * list nat) :=
      mask <- mask_go (length shape) axes (repeat false (length shape)) ;;
      _ <- csub (length shape) (length axes) ;;
      r <- wrss_go mask shape ;;
      let '(_, nsh, nst) := r in Ok (nsh, nst).

    (** reduce_along: src/ndarray/reduce.rs 78-96 *)
    Definition wreduce_along (dflt : T) (h : heap T) (a : arr) (axes : list Z) : res (heap T * arr) :=
      r <- wreduced axes (a_shape a) ;;
      let '(osh, mst) := r in
      c <- wcollapse (a_shape a) mst ;;
      let '(msh, mst') := c in
      n <- wprod osh ;;
      js <- wfig_list msh mst' ;;
      is <- wfig_list (a_shape a) (a_stride a) ;;
      out <- along_go g h (a_ptr a) is js (repeat dflt n) ;;
      wfrom_buffer h osh out.
  End Reduce.

  (** MultiFlatIndexGenerator: src/ndarray/iterator/multi_flat_index_generator.rs 77-143 *)
  Definition wmfig_from (nops : nat) (shape : list nat) (strides : list (list nat)) : res mfig :=
    _ <- guard (length strides =? length shape) ;;
    _ <- guard (nops <=? MAX_ARGS) ;;
    _ <- guard (length shape <=? MAX_DIMS) ;;
    size <- wprod shape ;;
    Ok (mkMfig shape strides nops size 0 shape (repeat 0 nops)).
  Fixpoint wadd_lists (a b : list nat) : res (list nat) :=
    match a, b with
    | x :: a', y :: b' => z <- word (x + y) ;; r <- wadd_lists a' b' ;; Ok (z :: r)
    | _, _ => Ok []
    end.
  Fixpoint wsub_lists (a b : list nat) (d : nat) : res (list nat) :=
    match a, b with
    | x :: a', y :: b' => t <- word (y * d) ;; z <- wsub x t ;; r <- wsub_lists a' b' d ;; Ok (z :: r)
    | _, _ => Ok []
    end.
  Fixpoint wmfig_carry (sh : list nat) (st : list (list nat)) (idx flat : list nat) : res (list nat * list nat * bool) :=
    match sh, st, idx with
    | n :: sh', s :: st', i :: idx' =>
        r <- wmfig_carry sh' st' idx' flat ;;
        let '(idx1, flat1, c) := r in
        if c : bool then
          i' <- wsub i 1 ;;
          if negb (i' =? 0) then f <- wadd_lists flat1 s ;; Ok (i' :: idx1, f, false)
          else d <- wsub n 1 ;; f <- wsub_lists flat1 s d ;; Ok (n :: idx1, f, true)
        else Ok (i :: idx1, flat1, false)
    | _, _, _ => Ok ([], flat, true)
    end.
  Definition wmfig_increment (g : mfig) : res mfig :=
    r <- wmfig_carry (m_shape g) (m_strides g) (m_idx g) (m_flat g) ;;
    let '(idx, flat, _) := r in
    Ok (mkMfig (m_shape g) (m_strides g) (m_nops g) (m_size g) (m_iter g) idx flat).

  (** the combining loop of reshape_operand_for_einsum, src/linalg/einsum.rs 222-242 *)
  Fixpoint wmerge_go (labels : list Z) (shape stride : list nat) (axis n : nat) (cmap : list (option nat)) (nsh nst : list nat)
      : res (list (option nat) * list nat * list nat) :=
    match n with
    | O => Ok (cmap, nsh, nst)
    | S n' =>
        label <- vget labels axis ;;
        d <- vget shape axis ;;
        s <- vget stride axis ;;
        if (0 <=? label)%Z then
          wmerge_go labels shape stride (S axis) n' (cmap ++ [Some (length nsh)]) (nsh ++ [d]) (nst ++ [s])
        else
          c <- zget cmap (Z.of_nat axis + label) ;;
          match c with
          | None => Panic
          | Some i =>
              old <- vget nst i ;;
              t <- word (old + s) ;;
              nst' <- vset nst i t ;;
              d' <- vget nsh i ;;
              _ <- guard (d' =? d) ;;
              wmerge_go labels shape stride (S axis) n' (cmap ++ [None]) nsh nst'
          end
    end.

  (** reshape_operand_for_einsum: src/linalg/einsum.rs 210-252; the view it makes computes its
      flags and its length *)
  Definition wreshape_operand (a : arr) (labels : list Z) : res (list Z * list nat) :=
    if forallb (fun l => (0 <=? l)%Z) labels then
      _ <- wreshaped_view ByRef a (a_shape a) (a_stride a) ;; Ok (labels, a_stride a)
    else
      r <- wmerge_go labels (a_shape a) (a_stride a) 0 (length (a_shape a)) [] [] [] ;;
      let '(cmap, nsh, nst) := r in
      labels' <- relabel_go cmap 0 labels ;;
      _ <- wreshaped_view ByRef a nsh nst ;;
      Ok (labels', nst).

  (** operand_stride_for_einsum: src/linalg/einsum.rs 255-278 *)
  Fixpoint wstride_sum (labels : list Z) (stride : list nat) (label : Z) (index n : nat) (acc : nat) : res nat :=
    match n with
    | O => Ok acc
    | S n' =>
        l <- label_of labels index ;;
        acc' <- (if (label =? l)%Z then s <- vget stride index ;; word (acc + s) else Ok acc) ;;
        wstride_sum labels stride label (S index) n' acc'
    end.
  Definition woperand_strides (labels : list Z) (stride : list nat) (iter_labels : list Z) : res (list nat) :=
    mapM (fun label =>
            if (label =? 0)%Z then Panic
            else wstride_sum labels stride label 0 (Nat.min (length stride) (length labels)) 0) iter_labels.

  (** src/linalg/einsum.rs 350-353 and 386-391 *)
  Fixpoint wall_strides (ops : list arr) (labels : list (list Z)) (iter_labels : list Z) : res (list (list nat)) :=
    match ops, labels with
    | a :: ops', l :: labels' =>
        r <- wreshape_operand a l ;;
        let '(l', st) := r in
        s <- woperand_strides l' st iter_labels ;;
        r' <- wall_strides ops' labels' iter_labels ;; Ok (s :: r')
    | _, _ => Ok []
    end.

  (** prepare_einsum: src/linalg/einsum.rs 299-400 *)
  Definition wprepare (ops : list arr) (subs : list (list Z)) (out : list Z) : res (list (list nat) * list nat * list nat) :=
    _ <- guard (length ops <? MAX_ARGS) ;;
    r <- parse_all subs ops (fun _ => 0) (fun _ => 0) 0 ;;
    let '(labels0, counts, dims, mbd) := r in
    let labels := labels0 ++ repeat (repeat 0%Z MAX_DIMS) (length ops - length labels0) in
    outl <- parse_output out mbd counts ;;
    _ <- match ops, labels with
         | [a], l :: _ =>
             _ <- wrse_go W bld l outl (a_shape a) (a_stride a) 0 (length (a_shape a)) (repeat 0 (length outl)) (repeat 0 (length outl)) ;; Ok tt
         | _, _ => Ok tt
         end ;;
    let out_shape := map dims outl in
    extra <- extra_labels counts outl (map Z.of_nat (seq 0 128)) (length outl) ;;
    let iter_labels := outl ++ extra in
    let iter_shape := map dims iter_labels in
    tmp <- wall_strides ops labels iter_labels ;;
    os <- wstrides W bld 1 out_shape ;;
    let out_stride := fst os ++ repeat 0 (length extra) in
    let strides := map (fun i => map (fun t => nth i t 0) (tmp ++ [out_stride])) (seq 0 (length iter_labels)) in
    o <- find_best_axis_ordering (length iter_labels) strides ;;
    match o with
    | None => Ok (strides, iter_shape, out_shape)
    | Some ord => s' <- permute_array strides ord ;; sh' <- permute_array iter_shape ord ;; Ok (s', sh', out_shape)
    end.

  Section Sop.
    Context {T : Type}.
    Variable zero one : T.
    Variable add mul : T -> T -> res T.
    Variable fma : T -> T -> T -> res T.

    (** *ptr.add(k * stride) over the operands: src/linalg/sum_of_products.rs 70-72 *)
    Fixpoint wprod_at (h : heap T) (ps : list ptr) (ss : list nat) (k : nat) (acc : T) : res T :=
      match ps, ss with
      | p :: ps', s :: ss' => o <- word (k * s) ;; x <- ld h (padd p o) ;; acc' <- mul acc x ;; wprod_at h ps' ss' k acc'
      | _, _ => Ok acc
      end.

    (** sum_of_products_generic_: lines 57-76 *)
    Fixpoint wsop_generic_go (h : heap T) (ps : list ptr) (ss : list nat) (dst : ptr) (ds k : nat) : res (heap T) :=
      match k with
      | O => Ok h
      | S k' =>
          o <- word (k' * ds) ;;
          v <- wprod_at h ps ss k' one ;;
          h' <- add_to add h (padd dst o) v ;;
          wsop_generic_go h' ps ss dst ds k'
      end.
    Definition wsop_generic (h : heap T) (ps : list ptr) (ss : list nat) (dst : ptr) (ds count : nat) : res (heap T) :=
      _ <- uassert (0 <? count) ;; wsop_generic_go h ps ss dst ds count.

    (** sum_of_products_out_stride_0_: lines 79-99 *)
    Fixpoint wsop_out0_go (h : heap T) (ps : list ptr) (ss : list nat) (k : nat) (sum : T) : res T :=
      match k with
      | O => Ok sum
      | S k' => v <- wprod_at h ps ss k' one ;; s <- add sum v ;; wsop_out0_go h ps ss k' s
      end.
    Definition wsop_out0 (h : heap T) (ps : list ptr) (ss : list nat) (dst : ptr) (count : nat) : res (heap T) :=
      _ <- uassert (0 <? count) ;; s <- wsop_out0_go h ps ss count zero ;; add_to add h dst s.

    (** get_sum_of_products_function: lines 8-37, applied *)
    Definition wsop_two (h : heap T) (p0 : ptr) (s0 : nat) (p1 : ptr) (s1 : nat) (dst : ptr) (ds count : nat) : res (heap T) :=
      let code := (if s0 =? 0 then 0 else if s0 =? 1 then 4 else 8) +
                  (if s1 =? 0 then 0 else if s1 =? 1 then 2 else 8) +
                  (if ds =? 0 then 0 else if ds =? 1 then 1 else 8) in
      match code with
      | 2 => sop_scaled zero add fma h p0 p1 dst count
      | 3 => sop_muladd fma h p0 p1 dst count
      | 4 => sop_scaled zero add fma h p1 p0 dst count
      | 5 => sop_muladd fma h p1 p0 dst count
      | 6 => _ <- uassert (0 <? count) ;; strided_dot zero add mul h p0 1 p1 1 dst count
      | 7 => sop_111 add mul h p0 p1 dst count
      | _ =>
          if ds =? 0 then wsop_out0 h [p0; p1] [s0; s1] dst count
          else wsop_generic h [p0; p1] [s0; s1] dst ds count
      end.
    Definition wsop_fixed (h : heap T) (ps : list ptr) (ss : list nat) (dst : ptr) (ds count : nat) : res (heap T) :=
      match ps, ss with
      | [p0; p1], [s0; s1] => wsop_two h p0 s0 p1 s1 dst ds count
      | _, _ => if ds =? 0 then wsop_out0 h ps ss dst count else wsop_generic h ps ss dst ds count
      end.

    (** get_sum_of_products_function_generic_nops: lines 40-52, applied *)
    Definition wsop_slice (h : heap T) (ps : list ptr) (ss : list nat) (dst : ptr) (ds count : nat) : res (heap T) :=
      if ds =? 0 then wsop_out0 h ps ss dst count else wsop_generic h ps ss dst ds count.

    Definition wscale (k : nat) (l : list nat) : res (list nat) := mapM (fun s => word (k * s)) l.

    (** einsum_1operand_2labels and einsum_2operands_2labels: src/linalg/specialized_einsum.rs
        88-109, 138-162 *)
    Definition weinsum_2labels (h : heap T) (bases : list ptr) (d0 d1 : list nat) (n0 n1 : nat) (dst : ptr) : res (heap T) :=
      _ <- uassert (0 <? n0) ;; _ <- uassert (0 <? n1) ;;
      for_each (fun i h => o <- wscale i d1 ;; call_sop wsop_fixed h bases dst o d0 n0) (seq 0 n1) h.

    (** einsum_1operand_3labels and einsum_2operands_3labels: lines 111-136, 164-192 *)
    Definition weinsum_3labels (h : heap T) (bases : list ptr) (d0 d1 d2 : list nat) (n0 n1 n2 : nat) (dst : ptr) : res (heap T) :=
      _ <- uassert (0 <? n0) ;; _ <- uassert (0 <? n1) ;; _ <- uassert (0 <? n2) ;;
      for_each (fun i h =>
        for_each (fun j h =>
            o2 <- wscale i d2 ;; o1 <- wscale j d1 ;; o <- wadd_lists o2 o1 ;; call_sop wsop_fixed h bases dst o d0 n0)
          (seq 0 n1) h) (seq 0 n2) h.

    (** unspecialized_einsum_loop: lines 8-43 *)
    Fixpoint wunspec_go (k : nat) (g : mfig) (h : heap T) (bases : list ptr) (dst : ptr) (inner : list nat) (n0 : nat) : res (heap T) :=
      match k with
      | O => Ok h
      | S k' =>
          h' <- call_sop wsop_slice h bases dst (m_flat g) inner n0 ;;
          g' <- wmfig_increment g ;;
          wunspec_go k' g' h' bases dst inner n0
      end.
    Definition wunspecialized (h : heap T) (bases : list ptr) (strides : list (list nat)) (iter_shape : list nat) (dst : ptr) : res (heap T) :=
      match strides, iter_shape with
      | inner :: strides', n0 :: sh' =>
          g <- wmfig_from (S (length bases)) sh' strides' ;;
          n <- wprod sh' ;;
          wunspec_go n g h bases dst inner n0
      | _, _ => Panic
      end.

    (** try_specialized_einsum_loop: lines 45-85, then the fallback *)
    Definition wrun_einsum (h : heap T) (bases : list ptr) (strides : list (list nat)) (iter_shape : list nat) (dst : ptr) : res (heap T) :=
      if (length bases =? 1) || (length bases =? 2) then
        match strides, iter_shape with
        | [d0; d1], [n0; n1] => weinsum_2labels h bases d0 d1 n0 n1 dst
        | [d0; d1; d2], [n0; n1; n2] => weinsum_3labels h bases d0 d1 d2 n0 n1 n2 dst
        | _, _ => wunspecialized h bases strides iter_shape dst
        end
      else wunspecialized h bases strides iter_shape dst.

    (** einsum: src/linalg/einsum.rs 403-433 *)
    Definition weinsum (h : heap T) (ops : list arr) (subs : list (list Z)) (out : list Z) : res (heap T * arr) :=
      r <- wprepare ops subs out ;;
      let '(strides, iter_shape, out_shape) := r in
      n <- wprod out_shape ;;
      let '(h1, b) := alloc h (repeat zero n) in
      h2 <- wrun_einsum h1 (map a_ptr ops) strides iter_shape (b, 0) ;;
      r <- wfresh b n out_shape ;; Ok (h2, r).

    (** einsum_into_ptr: src/linalg/einsum.rs 435-467 *)
    Definition weinsum_into (h : heap T) (ops : list arr) (subs : list (list Z)) (out : list Z) (result_stride : list nat) (result : ptr) : res (heap T) :=
      r <- wprepare ops subs out ;;
      let '(strides, iter_shape, out_shape) := r in
      u <- wuniform out_shape result_stride ;;
      _ <- match u with Some s => guard (s =? 1) | None => Ok tt end ;;
      n <- wprod out_shape ;;
      h1 <- wk_fill h result out_shape result_stride n zero ;;
      wrun_einsum h1 (map a_ptr ops) strides iter_shape result.

    (** matrix_matrix_product: src/linalg/matrix_ops.rs 386-392 *)
    Definition wmatrix_matrix (h : heap T) (a b : arr) (rstride : list nat) (dst : ptr) : res (heap T) :=
      weinsum_into h [a; b] matmul_subs matmul_out rstride dst.

    (** dot: matrix_ops.rs 111-126 *)
    Definition wdot (h : heap T) (a b : arr) : res (heap T * arr) :=
      match a_shape a, a_shape b, a_stride a, a_stride b with
      | [n], [m], [s], [t] =>
          _ <- guard (n =? m) ;;
          r <- wfull W bld h zero [] ;;
          let '(h1, r) := r in
          h2 <- strided_dot zero add mul h1 (a_ptr a) s (a_ptr b) t (a_ptr r) n ;; Ok (h2, r)
      | _, _, _, _ => Panic
      end.

    (** the loop of batch_matrix_matrix_product: matrix_ops.rs 369-375 *)
    Fixpoint wbmm_go (h : heap T) (a b : arr) (sa sb : nat) (rstride : list nat) (rs : nat) (dst : ptr) (n : nat) : res (heap T) :=
      match n with
      | O => Ok h
      | S n' =>
          h' <- wmatrix_matrix h a b rstride dst ;;
          wbmm_go h' (shift_arr a sa) (shift_arr b sb) sa sb rstride rs (padd dst rs) n'
      end.

    (** matmul: matrix_ops.rs 39-62 *)
    Definition wmatmul (h : heap T) (a b : arr) : res (heap T * arr) :=
      match a_shape a, a_shape b with
      | [_], [_] => wdot h a b
      | [rows; cols], [m] =>
          _ <- guard (cols =? m) ;;
          match a_stride a, a_stride b with
          | [rs; s], [t] =>
              let '(h1, blk) := alloc h (repeat zero rows) in
              h2 <- matvec_go zero add mul h1 (a_ptr a) rs s (a_ptr b) t (blk, 0) cols rows ;;
              r <- wfresh blk rows [rows] ;; Ok (h2, r)
          | _, _ => Panic
          end
      | [n; k], [k'; m] =>
          _ <- guard (k =? k') ;;
          r <- wfull W bld h zero [n; m] ;;
          let '(h1, r) := r in
          h2 <- wmatrix_matrix h1 a b (a_stride r) (a_ptr r) ;; Ok (h2, r)
      | _, _ => Panic
      end.

    (** bmm: matrix_ops.rs 82-93, 362-376 *)
    Definition wbmm (h : heap T) (a b : arr) : res (heap T * arr) :=
      match a_shape a, a_shape b with
      | [n; i; _], [n'; _; k] =>
          _ <- guard (n =? n') ;;
          r <- wfull W bld h zero [n; i; k] ;;
          let '(h1, r) := r in
          la <- wv_slice_along W bld a 0 (IUsize 0) ;;
          lb <- wv_slice_along W bld b 0 (IUsize 0) ;;
          sa <- vget (a_stride a) 0 ;;
          sb <- vget (a_stride b) 0 ;;
          rs <- vget (a_stride r) 0 ;;
          h2 <- wbmm_go h1 la lb sa sb (tl (a_stride r)) rs (a_ptr r) n ;; Ok (h2, r)
      | _, _ => Panic
      end.

    (** offset_trace_along: matrix_ops.rs 204-207 *)
    Definition wtrace (h : heap T) (a : arr) (offset axis1 axis2 : Z) : res (heap T * arr) :=
      d <- wv_diagonal W bld a offset axis1 axis2 ;;
      wreduce_along (fun v acc => add acc v) zero h d [(-1)%Z].
  End Sop.

  Section Prog.
    Context {T : Type}.
    Variable zero one : T.
    Variable add mul : T -> T -> T.
    Variable eqb : T -> T -> bool.

    (** one command of Prog.v *)
    Definition wexec (c : @cmd T) (s : @state T) : res (@state T) :=
      let h := s_heap s in
      match c with
      | CNew ks d => made s (wnew h ks d)
      | CFull x sh => made s (wfull W bld h x sh)
      | CView o k => p <- nth_arr s k ;; r <- wview_by W bld o (fst p) ;;
          match r with Some r => Ok (mkState h (s_env s ++ [(r, snd p || marks o)]) (s_out s)) | None => Ok s end
      | CBinary f k1 k2 => a <- nth_arr s k1 ;; b <- nth_arr s k2 ;; made s (wbinary f zero h (fst a) (fst b))
      | CScalarOp f k c => a <- nth_arr s k ;; made s (wscalar_op f zero h (fst a) c)
      | CUnary g k => a <- nth_arr s k ;; made s (wunary g zero h (fst a))
      | CAssign f k1 k2 => a <- nth_arr s k1 ;; b <- nth_arr s k2 ;; stored s (wassign f h (fst a) (fst b))
      | CAssignScalar f k c => a <- nth_arr s k ;; stored s (wassign_scalar f h (fst a) c)
      | CFill k v => a <- nth_arr s k ;; stored s (wfill h (fst a) v)
      | CIndex k idx => a <- nth_arr s k ;; only_read (fun v => OVals [v]) s (windex W bld h (fst a) idx)
      | CIndexSet k idx v => a <- nth_arr s k ;; stored s (windex_set h (fst a) idx v)
      | CValue k => a <- nth_arr s k ;; only_read (fun v => OVals [v]) s (wvalue h (fst a))
      | CDataSlice k => a <- nth_arr s k ;; only_read OVals s (nd_data_slice h (fst a))
      | CFlatiter k => a <- nth_arr s k ;; only_read OVals s (wflatiter h (fst a))
      | CEqual k1 k2 => a <- nth_arr s k1 ;; b <- nth_arr s k2 ;; only_read OBool s (wequal eqb h (fst a) (fst b))
      | CClone k => a <- nth_arr s k ;; made s (wclone h (fst a))
      | CFlatten k => a <- nth_arr s k ;; made s (wflatten h (fst a))
      | CReduce g d k => a <- nth_arr s k ;; made s (wreduce g d h (fst a))
      | CReduceAlong g d k axes => a <- nth_arr s k ;; made s (wreduce_along g d h (fst a) axes)
      | CTrace g k o i j => a <- nth_arr s k ;; made s (wtrace zero g h (fst a) o i j)
      | CDot k1 k2 => a <- nth_arr s k1 ;; b <- nth_arr s k2 ;; made s (wdot zero (okadd add) (okadd mul) h (fst a) (fst b))
      | CMatmul k1 k2 => a <- nth_arr s k1 ;; b <- nth_arr s k2 ;; made s (wmatmul zero one (okadd add) (okadd mul) (okfma add mul) h (fst a) (fst b))
      | CBmm k1 k2 => a <- nth_arr s k1 ;; b <- nth_arr s k2 ;; made s (wbmm zero one (okadd add) (okadd mul) (okfma add mul) h (fst a) (fst b))
      | CEinsum ks subs out => l <- mapM (nth_arr s) ks ;; made s (weinsum zero one (okadd add) (okadd mul) (okfma add mul) h (map fst l) subs out)
      end.

    Fixpoint wexec_all (cs : list (@cmd T)) (s : @state T) : res (@state T) :=
      match cs with [] => Ok s | c :: cs' => s' <- wexec c s ;; wexec_all cs' s' end.
  End Prog.
End WordOps.
