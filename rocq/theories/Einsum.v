(** Einsum.v: model of the multi-operand index generator, of einsum and of the matrix
    products built on it. *)
From Coq Require Import List Arith Lia Bool ZArith.
From Verif Require Import Base Layout Views Kernels Access Reduce.
Import ListNotations.
Open Scope res_scope.

(** `for x in l { body }` threading a state *)
Fixpoint for_each {A S} (body : A -> S -> res S) (l : list A) (s : S) : res S :=
  match l with
  | [] => Ok s
  | x :: r => s' <- body x s ;; for_each body r s'
  end.

Definition MAX_ARGS : nat := 16.

(** assert_unchecked(b): undefined behaviour when b is false *)
Definition uassert (b : bool) : res unit := if b then Ok tt else Oob.

(** ** Multi-operand index generator: src/ndarray/iterator/multi_flat_index_generator.rs *)

(** the comparison of two axes, lines 42-52.  A row holds the strides of one axis, one
    per operand; only the first nops entries of the fixed array are kept. abs is the
    identity on usize (src/util/absolute.rs 12). *)
Fixpoint cmp_strides (s0 s1 : list nat) (amb swap : bool) : bool * bool :=
  match s0, s1 with
  | x0 :: s0', x1 :: s1' =>
      if negb (x0 =? 0) && negb (x1 =? 0) then
        cmp_strides s0' s1' false (if x1 <=? x0 then false else if amb then true else swap)
      else cmp_strides s0' s1' amb swap
  | _, _ => (amb, swap)
  end.

(** the loop over ax_i1, lines 35-61: i1 counts the axes still to compare, pos is ax_ipos *)
Fixpoint find_pos (strides : list (list nat)) (order : list nat) (s0 : list nat) (i1 pos : nat) : res nat :=
  match i1 with
  | O => Ok pos
  | S i =>
      j1 <- vget order i ;;
      s1 <- vget strides j1 ;;
      let '(amb, swap) := cmp_strides s0 s1 true false in
      if amb : bool then find_pos strides order s0 i pos
      else if swap : bool then find_pos strides order s0 i i
      else Ok pos
  end.

(** the shifting loop, lines 64-66: k runs over (pos+1 ..= i0).rev() *)
Fixpoint shift_order (order : list nat) (k n : nat) : res (list nat) :=
  match n with
  | O => Ok order
  | S n' => x <- vget order (k - 1) ;; o <- vset order k x ;; shift_order o (k - 1) n'
  end.

(** one round of the outer loop, lines 30-70 *)
Definition order_step (strides : list (list nat)) (i0 : nat) (s : list nat * bool) : res (list nat * bool) :=
  let '(order, permuted) := s in
  j0 <- vget order i0 ;;
  s0 <- vget strides j0 ;;
  pos <- find_pos strides order s0 i0 i0 ;;
  if pos =? i0 then Ok (order, permuted)
  else
    o <- shift_order order i0 (i0 - pos) ;;
    o' <- vset o pos j0 ;; Ok (o', true).

(** find_best_axis_ordering: lines 19-73 *)
Definition find_best_axis_ordering (ndims : nat) (strides : list (list nat)) : res (option (list nat)) :=
  _ <- guard (ndims <=? MAX_DIMS) ;;
  r <- for_each (order_step strides) (seq 1 (ndims - 1)) (seq 0 ndims, false) ;;
  let '(order, permuted) := r in Ok (if permuted : bool then Some order else None).

(** permute_array: src/util/functions.rs 14-21.  Every position is overwritten in turn
    from a copy of the original. *)
Definition permute_array {A} (l : list A) (perm : list nat) : res (list A) :=
  _ <- guard (length l =? length perm) ;; mapM (fun src => vget l src) perm.

(** struct MultiFlatIndexGenerator, lines 5-17; ndims and nops are list lengths *)
Record mfig := mkMfig {
  m_shape : list nat;
  m_strides : list (list nat);
  m_nops : nat;
  m_size : nat;
  m_iter : nat;
  m_idx : list nat;
  m_flat : list nat }.

(** from: lines 75-107 *)
Definition mfig_from (nops : nat) (shape : list nat) (strides : list (list nat)) : res mfig :=
  _ <- guard (length strides =? length shape) ;;
  _ <- guard (nops <=? MAX_ARGS) ;;
  _ <- guard (length shape <=? MAX_DIMS) ;;
  Ok (mkMfig shape strides nops (prod shape) 0 shape (repeat 0 nops)).

Fixpoint add_lists (a b : list nat) : list nat :=
  match a, b with x :: a', y :: b' => x + y :: add_lists a' b' | _, _ => [] end.

(** flat_indices[i] -= strides[i] * d (checked) *)
Fixpoint sub_lists (a b : list nat) (d : nat) : res (list nat) :=
  match a, b with
  | x :: a', y :: b' => z <- csub x (y * d) ;; r <- sub_lists a' b' d ;; Ok (z :: r)
  | _, _ => Ok []
  end.

(** increment_flat_indices: lines 116-143, from the last axis to the first.  indices count
    down from the dimension.  The last component tells whether the carry ran off the
    first axis. *)
Fixpoint mfig_carry (sh : list nat) (st : list (list nat)) (idx flat : list nat)
    : res (list nat * list nat * bool) :=
  match sh, st, idx with
  | n :: sh', s :: st', i :: idx' =>
      r <- mfig_carry sh' st' idx' flat ;;
      let '(idx1, flat1, c) := r in
      if c : bool then
        i' <- csub i 1 ;;
        if negb (i' =? 0) then Ok (i' :: idx1, add_lists flat1 s, false)
        else d <- csub n 1 ;; f <- sub_lists flat1 s d ;; Ok (n :: idx1, f, true)
      else Ok (i :: idx1, flat1, false)
  | _, _, _ => Ok ([], flat, true)
  end.

Definition mfig_increment (g : mfig) : res mfig :=
  r <- mfig_carry (m_shape g) (m_strides g) (m_idx g) (m_flat g) ;;
  let '(idx, flat, _) := r in
  Ok (mkMfig (m_shape g) (m_strides g) (m_nops g) (m_size g) (m_iter g) idx flat).

(** next: lines 150-159 *)
Definition mfig_next (g : mfig) : res (option (list nat * mfig)) :=
  if m_iter g =? m_size g then Ok None
  else
    g' <- mfig_increment g ;;
    Ok (Some (m_flat g, mkMfig (m_shape g') (m_strides g') (m_nops g') (m_size g') (m_iter g' + 1) (m_idx g') (m_flat g'))).

(** collecting the iterator; fuel as in fig_run *)
Fixpoint mfig_run (fuel : nat) (g : mfig) : res (list (list nat)) :=
  match fuel with
  | O => Panic
  | S fuel' =>
      r <- mfig_next g ;;
      match r with
      | None => Ok []
      | Some (x, g') => xs <- mfig_run fuel' g' ;; Ok (x :: xs)
      end
  end.
Definition mfig_list (nops : nat) (shape : list nat) (strides : list (list nat)) : res (list (list nat)) :=
  g <- mfig_from nops shape strides ;; mfig_run (S (m_size g)) g.

(** ** Parsing of subscripts: src/linalg/einsum.rs.  Strings are lists of byte values;
    label_counts and label_dims ([_; 128]) are functions of the byte. *)
Definition set_at {A} (f : Z -> A) (k : Z) (v : A) : Z -> A := fun x => if (x =? k)%Z then v else f x.
Definition is_alpha (c : Z) : bool := (((65 <=? c) && (c <=? 90)) || ((97 <=? c) && (c <=? 122)))%Z.
Definition is_digit (c : Z) : bool := ((48 <=? c) && (c <=? 57))%Z.
Definition is_alnum (c : Z) : bool := is_alpha c || is_digit c.
Definition is_ascii (c : Z) : bool := ((0 <=? c) && (c <? 128))%Z.
Definition DOT : Z := 46.
Definition SPACE : Z := 32.

(** for j in i..i+n { result[j] = 0 } *)
Fixpoint zero_range (labels : list Z) (i n : nat) : res (list Z) :=
  match n with
  | O => Ok labels
  | S n' => l <- vset labels i 0%Z ;; zero_range l (S i) n'
  end.

(** the loop of parse_operand_subscripts, lines 50-92.  first is first_occurrence with
    None for the sentinel MAX_DIMS + 3; ell is ellipsis_index != -1; check is
    check_ellipsis.  i8 arithmetic cannot overflow: axis < 32 when it is used. *)
Fixpoint parse_go (shape : list nat) (bd i : nat) (cs : list Z) (labels : list Z) (first : Z -> option nat)
    (counts dims : Z -> nat) (ell check : bool) : res (list Z * (Z -> nat) * (Z -> nat) * bool * bool) :=
  match cs with
  | [] => Ok (labels, counts, dims, ell, check)
  | c :: cs' =>
      if check then
        _ <- guard (c =? DOT)%Z ;; parse_go shape bd (S i) cs' labels first counts dims ell false
      else if is_alpha c then
        axis <- (if ell then j <- csub i 2 ;; Ok (j + bd) else Ok i) ;;
        _ <- guard (axis <? length shape) ;;
        labels' <- vset labels axis
                     (match first c with None => c | Some f => Z.of_nat f - Z.of_nat axis end)%Z ;;
        let first' := match first c with None => set_at first c (Some i) | Some _ => first end in
        let counts' := set_at counts c (counts c + 1) in
        n <- vget shape i ;;
        if counts' c =? 1 then
          parse_go shape bd (S i) cs' labels' first' counts' (set_at dims c n) ell false
        else
          _ <- guard (dims c =? n) ;;
          parse_go shape bd (S i) cs' labels' first' counts' dims ell false
      else if (c =? DOT)%Z then
        _ <- guard (negb ell) ;;
        labels' <- zero_range labels i bd ;;
        parse_go shape bd (S i) cs' labels' first counts dims true true
      else
        _ <- guard (c =? SPACE)%Z ;; parse_go shape bd (S i) cs' labels first counts dims ell false
  end.

(** parse_operand_subscripts: lines 27-101, on a zeroed result array *)
Definition parse_operand (cs : list Z) (shape : list nat) (counts dims : Z -> nat)
    : res (list Z * (Z -> nat) * (Z -> nat) * nat) :=
  _ <- guard (forallb is_ascii cs) ;;
  let alnum := length (filter is_alnum cs) in
  if length shape <? alnum then Panic
  else
    let bd := length shape - alnum in
    r <- parse_go shape bd 0 cs (repeat 0%Z MAX_DIMS) (fun _ => None) counts dims false false ;;
    let '(labels, counts', dims', ell, check) := r in
    _ <- guard (negb check) ;;
    _ <- guard (ell || (bd =? 0)) ;;
    Ok (labels, counts', dims', bd).

(** the loop of parse_output_subscripts, lines 119-158 *)
Fixpoint parse_out_go (bd i : nat) (cs : list Z) (labels : list Z) (counts : Z -> nat) (ell check : bool)
    : res (list Z * bool) :=
  match cs with
  | [] => Ok (labels, ell)
  | c :: cs' =>
      if check then
        _ <- guard (c =? DOT)%Z ;; parse_out_go bd (S i) cs' labels counts ell false
      else if is_alpha c then
        _ <- guard (negb (counts c =? 0)) ;;
        _ <- guard (negb (existsb (Z.eqb c) cs')) ;;
        axis <- (if ell then j <- csub i 2 ;; Ok (j + bd) else Ok i) ;;
        labels' <- vset labels axis c ;;
        parse_out_go bd (S i) cs' labels' counts ell false
      else if (c =? DOT)%Z then
        _ <- guard (negb ell) ;;
        labels' <- zero_range labels i bd ;;
        parse_out_go bd (S i) cs' labels' counts true true
      else
        _ <- guard (c =? SPACE)%Z ;; parse_out_go bd (S i) cs' labels counts ell false
  end.

(** &v[0..n] *)
Definition vprefix {A} (l : list A) (n : nat) : res (list A) :=
  if length l <? n then Panic else Ok (firstn n l).

(** parse_output_subscripts: lines 107-162, followed by output_labels[0..output_dims]
    (lines 293, 338) *)
Definition parse_output (cs : list Z) (bd : nat) (counts : Z -> nat) : res (list Z) :=
  _ <- guard (forallb is_ascii cs) ;;
  r <- parse_out_go bd 0 cs (repeat 0%Z MAX_DIMS) counts false false ;;
  let '(labels, ell) := r in
  nd <- (if ell : bool then d <- csub (length cs) 2 ;; Ok (d + bd) else Ok (length cs)) ;;
  vprefix labels nd.

(** x[i as usize] for a possibly negative i8 *)
Definition zget {A} (l : list A) (i : Z) : res A := if (i <? 0)%Z then Panic else vget l (Z.to_nat i).

(** the label of an axis, following the offset of a repeated label: lines 173-176, 269-270 *)
Definition label_of (labels : list Z) (idim : nat) : res Z :=
  l <- vget labels idim ;;
  if (l <? 0)%Z then zget labels (Z.of_nat idim + l) else Ok l.

(** output_labels.iter().position(|&v| v == label) *)
Fixpoint position (l : list Z) (x : Z) : option nat :=
  match l with
  | [] => None
  | y :: r => if (y =? x)%Z then Some 0 else match position r x with Some k => Some (S k) | None => None end
  end.

(** the loop of reshape_shape_and_stride_for_einsum, lines 172-189; None: early return *)
Fixpoint rse_go (labels out : list Z) (shape stride : list nat) (idim n : nat) (nsh nst : list nat)
    : res (option (list nat * list nat)) :=
  match n with
  | O => Ok (Some (nsh, nst))
  | S n' =>
      label <- label_of labels idim ;;
      if (label =? 0)%Z then Panic
      else
        match position out label with
        | None => Ok None
        | Some ax =>
            d <- vget shape idim ;;
            nsh' <- vset nsh ax d ;;
            s <- vget stride idim ;;
            old <- vget nst ax ;;
            nst' <- vset nst ax (old + s) ;;
            rse_go labels out shape stride (S idim) n' nsh' nst'
        end
  end.
Definition reshape_for_einsum (a : arr) (labels out : list Z) : res (option (list nat * list nat)) :=
  rse_go labels out (a_shape a) (a_stride a) 0 (length (a_shape a))
    (repeat 0 (length out)) (repeat 0 (length out)).

(** einsum_view: lines 280-297 with try_reshape_for_einsum (194-204) *)
Definition einsum_view (a : arr) (sub out : list Z) : res (option arr) :=
  r <- parse_operand sub (a_shape a) (fun _ => 0) (fun _ => 0) ;;
  let '(labels, counts, _, bd) := r in
  outl <- parse_output out bd counts ;;
  o <- reshape_for_einsum a labels outl ;;
  Ok (match o with None => None | Some (nsh, nst) => Some (reshaped_view ByRef a nsh nst) end).

(** the combining loop of reshape_operand_for_einsum, lines 222-242.  cmap is
    icombinemap[0..axis], None standing for MAX_DIMS + 1. *)
Fixpoint merge_go (labels : list Z) (shape stride : list nat) (axis n : nat)
    (cmap : list (option nat)) (nsh nst : list nat) : res (list (option nat) * list nat * list nat) :=
  match n with
  | O => Ok (cmap, nsh, nst)
  | S n' =>
      label <- vget labels axis ;;
      d <- vget shape axis ;;
      s <- vget stride axis ;;
      if (0 <=? label)%Z then
        merge_go labels shape stride (S axis) n' (cmap ++ [Some (length nsh)]) (nsh ++ [d]) (nst ++ [s])
      else
        c <- zget cmap (Z.of_nat axis + label) ;;
        match c with
        | None => Panic
        | Some i =>
            old <- vget nst i ;;
            nst' <- vset nst i (old + s) ;;
            d' <- vget nsh i ;;
            _ <- guard (d' =? d) ;;
            merge_go labels shape stride (S axis) n' (cmap ++ [None]) nsh nst'
        end
  end.

(** the relabelling loop, lines 244-249 *)
Fixpoint relabel_go (cmap : list (option nat)) (axis : nat) (labels : list Z) : res (list Z) :=
  match cmap with
  | [] => Ok labels
  | None :: r => relabel_go r (S axis) labels
  | Some i :: r => l <- vget labels axis ;; labels' <- vset labels i l ;; relabel_go r (S axis) labels'
  end.

(** reshape_operand_for_einsum: lines 210-252.  Only the labels and the strides of the
    resulting view are used afterwards (line 390); its pointer is the operand's. *)
Definition reshape_operand (a : arr) (labels : list Z) : res (list Z * list nat) :=
  if forallb (fun l => (0 <=? l)%Z) labels then Ok (labels, a_stride a)
  else
    r <- merge_go labels (a_shape a) (a_stride a) 0 (length (a_shape a)) [] [] [] ;;
    let '(cmap, _, nst) := r in
    labels' <- relabel_go cmap 0 labels ;;
    Ok (labels', nst).

(** the inner loop of operand_stride_for_einsum, lines 264-275 *)
Fixpoint stride_sum (labels : list Z) (stride : list nat) (label : Z) (index n : nat) (acc : nat) : res nat :=
  match n with
  | O => Ok acc
  | S n' =>
      l <- label_of labels index ;;
      acc' <- (if (label =? l)%Z then s <- vget stride index ;; Ok (acc + s) else Ok acc) ;;
      stride_sum labels stride label (S index) n' acc'
  end.

(** operand_stride_for_einsum: lines 255-278; the iteration stops at ndims or at the end
    of the label array *)
Definition operand_strides (labels : list Z) (stride : list nat) (iter_labels : list Z) : res (list nat) :=
  mapM (fun label =>
          if (label =? 0)%Z then Panic
          else stride_sum labels stride label 0 (Nat.min (length stride) (length labels)) 0) iter_labels.

(** parsing of all operands, lines 328-332; zip stops at the shorter side *)
Fixpoint parse_all (subs : list (list Z)) (ops : list arr) (counts dims : Z -> nat) (mbd : nat)
    : res (list (list Z) * (Z -> nat) * (Z -> nat) * nat) :=
  match subs, ops with
  | sub :: subs', a :: ops' =>
      r <- parse_operand sub (a_shape a) counts dims ;;
      let '(labels, counts', dims', bd) := r in
      r' <- parse_all subs' ops' counts' dims' (Nat.max mbd bd) ;;
      let '(ls, c, d, m) := r' in Ok (labels :: ls, c, d, m)
  | _, _ => Ok ([], counts, dims, mbd)
  end.

(** the labels that are summed over, lines 367-380; n is *iter_ndims *)
Fixpoint extra_labels (counts : Z -> nat) (out : list Z) (ls : list Z) (n : nat) : res (list Z) :=
  match ls with
  | [] => Ok []
  | l :: r =>
      if (counts l =? 0) || existsb (Z.eqb l) out then extra_labels counts out r n
      else if MAX_DIMS <=? n then Panic
      else r' <- extra_labels counts out r (S n) ;; Ok (l :: r')
  end.

(** merging and strides of all operands, lines 350-353 and 386-391 *)
Fixpoint all_strides (ops : list arr) (labels : list (list Z)) (iter_labels : list Z) : res (list (list nat)) :=
  match ops, labels with
  | a :: ops', l :: labels' =>
      r <- reshape_operand a l ;;
      let '(l', st) := r in
      s <- operand_strides l' st iter_labels ;;
      r' <- all_strides ops' labels' iter_labels ;; Ok (s :: r')
  | _, _ => Ok []
  end.

(** prepare_einsum: lines 299-400.  Result: strides (one row per loop axis, one entry per
    operand plus the output), iter_shape, output_shape; *iter_ndims is the length of
    iter_shape. *)
Definition prepare_einsum (ops : list arr) (subs : list (list Z)) (out : list Z)
    : res (list (list nat) * list nat * list nat) :=
  _ <- guard (length ops <? MAX_ARGS) ;;
  r <- parse_all subs ops (fun _ => 0) (fun _ => 0) 0 ;;
  let '(labels0, counts, dims, mbd) := r in
  let labels := labels0 ++ repeat (repeat 0%Z MAX_DIMS) (length ops - length labels0) in
  outl <- parse_output out mbd counts ;;
  _ <- match ops, labels with
       | [a], l :: _ => _ <- reshape_for_einsum a l outl ;; Ok tt
       | _, _ => Ok tt
       end ;;
  let out_shape := map dims outl in
  extra <- extra_labels counts outl (map Z.of_nat (seq 0 128)) (length outl) ;;
  let iter_labels := outl ++ extra in
  let iter_shape := map dims iter_labels in
  tmp <- all_strides ops labels iter_labels ;;
  let out_stride := stride_from_shape out_shape ++ repeat 0 (length extra) in
  let strides := map (fun i => map (fun t => nth i t 0) (tmp ++ [out_stride])) (seq 0 (length iter_labels)) in
  o <- find_best_axis_ordering (length iter_labels) strides ;;
  match o with
  | None => Ok (strides, iter_shape, out_shape)
  | Some ord =>
      s' <- permute_array strides ord ;; sh' <- permute_array iter_shape ord ;; Ok (s', sh', out_shape)
  end.

(** ** Sum-of-products kernels: src/linalg/sum_of_products.rs, src/ops/dot_product.rs *)
Section Sop.
  Context {T : Type}.
  Variable zero one : T.
  Variable add mul : T -> T -> res T.
  (** a.mul_add(b, c) *)
  Variable fma : T -> T -> T -> res T.

  (** ptrs.iter().zip(strides).map(|(ptr, stride)| *ptr.add(k * stride)).product() *)
  Fixpoint prod_at (h : heap T) (ps : list ptr) (ss : list nat) (k : nat) (acc : T) : res T :=
    match ps, ss with
    | p :: ps', s :: ss' => x <- ld h (padd p (k * s)) ;; acc' <- mul acc x ;; prod_at h ps' ss' k acc'
    | _, _ => Ok acc
    end.

  (** *dst += v *)
  Definition add_to (h : heap T) (dst : ptr) (v : T) : res (heap T) :=
    old <- ld h dst ;; w <- add old v ;; st h dst w.

  (** sum_of_products_generic_: lines 57-76 *)
  Fixpoint sop_generic_go (h : heap T) (ps : list ptr) (ss : list nat) (dst : ptr) (ds k : nat) : res (heap T) :=
    match k with
    | O => Ok h
    | S k' =>
        v <- prod_at h ps ss k' one ;;
        h' <- add_to h (padd dst (k' * ds)) v ;;
        sop_generic_go h' ps ss dst ds k'
    end.
  Definition sop_generic (h : heap T) (ps : list ptr) (ss : list nat) (dst : ptr) (ds count : nat) : res (heap T) :=
    _ <- uassert (0 <? count) ;; sop_generic_go h ps ss dst ds count.

  (** sum_of_products_out_stride_0_: lines 79-99 *)
  Fixpoint sop_out0_go (h : heap T) (ps : list ptr) (ss : list nat) (k : nat) (sum : T) : res T :=
    match k with
    | O => Ok sum
    | S k' => v <- prod_at h ps ss k' one ;; s <- add sum v ;; sop_out0_go h ps ss k' s
    end.
  Definition sop_out0 (h : heap T) (ps : list ptr) (ss : list nat) (dst : ptr) (count : nat) : res (heap T) :=
    _ <- uassert (0 <? count) ;;
    s <- sop_out0_go h ps ss count zero ;; add_to h dst s.

  (** sum_of_products_muladd: lines 102-115 *)
  Fixpoint muladd_go (h : heap T) (scalar : T) (data dst : ptr) (count : nat) : res (heap T) :=
    match count with
    | O => Ok h
    | S c =>
        x <- ld h data ;; y <- ld h dst ;; v <- fma scalar x y ;; h' <- st h dst v ;;
        muladd_go h' scalar (padd data 1) (padd dst 1) c
    end.
  Definition sop_muladd (h : heap T) (p0 p1 dst : ptr) (count : nat) : res (heap T) :=
    _ <- uassert (0 <? count) ;; scalar <- ld h p0 ;; muladd_go h scalar p1 dst count.

  (** sum_of_scaled_array: lines 118-130; the summing loop is the one of reduce_sum *)
  Definition sop_scaled (h : heap T) (p0 p1 dst : ptr) (count : nat) : res (heap T) :=
    _ <- uassert (0 <? count) ;;
    scalar <- ld h p0 ;;
    sum <- fold_run (fun v acc => add acc v) h p1 count 1 zero ;;
    y <- ld h dst ;; v <- fma scalar sum y ;; st h dst v.

  (** sum_of_products_in_strides_1_1_out_stride_1: lines 133-153 *)
  Fixpoint sop_111_go (h : heap T) (p0 p1 dst : ptr) (count : nat) : res (heap T) :=
    match count with
    | O => Ok h
    | S c =>
        x <- ld h p0 ;; y <- ld h p1 ;; v <- mul x y ;; h' <- add_to h dst v ;;
        sop_111_go h' (padd p0 1) (padd p1 1) (padd dst 1) c
    end.
  Definition sop_111 (h : heap T) (p0 p1 dst : ptr) (count : nat) : res (heap T) :=
    _ <- uassert (0 <? count) ;; sop_111_go h p0 p1 dst count.

  (** strided_dot_product: src/ops/dot_product.rs 32-44; dot_product (12-22) is strides 1, 1 *)
  Fixpoint dot_go (h : heap T) (p0 : ptr) (s0 : nat) (p1 : ptr) (s1 count : nat) (sum : T) : res T :=
    match count with
    | O => Ok sum
    | S c =>
        x <- ld h p0 ;; y <- ld h p1 ;; v <- mul x y ;; s <- add sum v ;;
        dot_go h (padd p0 s0) s0 (padd p1 s1) s1 c s
    end.
  Definition strided_dot (h : heap T) (p0 : ptr) (s0 : nat) (p1 : ptr) (s1 : nat) (dst : ptr) (count : nat)
      : res (heap T) :=
    s <- dot_go h p0 s0 p1 s1 count zero ;; add_to h dst s.

  (** get_sum_of_products_function: lines 8-37, applied.  ptrs and strides end with the
      destination.  The case table of lines 18-29 for two operands: *)
  Definition sop_two (h : heap T) (p0 : ptr) (s0 : nat) (p1 : ptr) (s1 : nat) (dst : ptr) (ds count : nat)
      : res (heap T) :=
    let code := (if s0 =? 0 then 0 else if s0 =? 1 then 4 else 8) +
                (if s1 =? 0 then 0 else if s1 =? 1 then 2 else 8) +
                (if ds =? 0 then 0 else if ds =? 1 then 1 else 8) in
    match code with
    | 2 => sop_scaled h p0 p1 dst count
    | 3 => sop_muladd h p0 p1 dst count
    | 4 => sop_scaled h p1 p0 dst count
    | 5 => sop_muladd h p1 p0 dst count
    | 6 => _ <- uassert (0 <? count) ;; strided_dot h p0 1 p1 1 dst count
    | 7 => sop_111 h p0 p1 dst count
    | _ =>
        if ds =? 0 then sop_out0 h [p0; p1] [s0; s1] dst count
        else sop_generic h [p0; p1] [s0; s1] dst ds count
    end.
  Definition sop_fixed (h : heap T) (ps : list ptr) (ss : list nat) (dst : ptr) (ds count : nat) : res (heap T) :=
    match ps, ss with
    | [p0; p1], [s0; s1] => sop_two h p0 s0 p1 s1 dst ds count
    | _, _ => if ds =? 0 then sop_out0 h ps ss dst count else sop_generic h ps ss dst ds count
    end.

  (** get_sum_of_products_function_generic_nops: lines 40-52, applied *)
  Definition sop_slice (h : heap T) (ps : list ptr) (ss : list nat) (dst : ptr) (ds count : nat) : res (heap T) :=
    if ds =? 0 then sop_out0 h ps ss dst count else sop_generic h ps ss dst ds count.

  (** ** Loops: src/linalg/specialized_einsum.rs *)
  Fixpoint padds (ps : list ptr) (os : list nat) : list ptr :=
    match ps, os with p :: ps', o :: os' => padd p o :: padds ps' os' | _, _ => [] end.
  Definition scale (k : nat) (l : list nat) : list nat := map (Nat.mul k) l.

  (** calling a kernel with pointers base + offs and the strides of one loop axis; the last
      entry is the destination *)
  Definition call_sop (f : heap T -> list ptr -> list nat -> ptr -> nat -> nat -> res (heap T))
      (h : heap T) (bases : list ptr) (dst : ptr) (offs inner : list nat) (count : nat) : res (heap T) :=
    let n := length bases in
    f h (padds bases (firstn n offs)) (firstn n inner) (padd dst (nth n offs 0)) (nth n inner 0) count.

  (** einsum_1operand_2labels (88-109) and einsum_2operands_2labels (138-162): the same
      loop for one and for two operands *)
  Definition einsum_2labels (h : heap T) (bases : list ptr) (d0 d1 : list nat) (n0 n1 : nat) (dst : ptr)
      : res (heap T) :=
    _ <- uassert (0 <? n0) ;; _ <- uassert (0 <? n1) ;;
    for_each (fun i h => call_sop sop_fixed h bases dst (scale i d1) d0 n0) (seq 0 n1) h.

  (** einsum_1operand_3labels (111-136) and einsum_2operands_3labels (164-192) *)
  Definition einsum_3labels (h : heap T) (bases : list ptr) (d0 d1 d2 : list nat) (n0 n1 n2 : nat) (dst : ptr)
      : res (heap T) :=
    _ <- uassert (0 <? n0) ;; _ <- uassert (0 <? n1) ;; _ <- uassert (0 <? n2) ;;
    for_each (fun i h =>
      for_each (fun j h => call_sop sop_fixed h bases dst (add_lists (scale i d2) (scale j d1)) d0 n0)
        (seq 0 n1) h) (seq 0 n2) h.

  (** the loop of unspecialized_einsum_loop, lines 32-41 *)
  Fixpoint unspec_go (k : nat) (g : mfig) (h : heap T) (bases : list ptr) (dst : ptr) (inner : list nat) (n0 : nat)
      : res (heap T) :=
    match k with
    | O => Ok h
    | S k' =>
        h' <- call_sop sop_slice h bases dst (m_flat g) inner n0 ;;
        g' <- mfig_increment g ;;
        unspec_go k' g' h' bases dst inner n0
    end.

  (** unspecialized_einsum_loop: lines 8-43; strides[0] panics without loop axes *)
  Definition unspecialized (h : heap T) (bases : list ptr) (strides : list (list nat)) (iter_shape : list nat)
      (dst : ptr) : res (heap T) :=
    match strides, iter_shape with
    | inner :: strides', n0 :: sh' =>
        g <- mfig_from (S (length bases)) sh' strides' ;;
        unspec_go (prod sh') g h bases dst inner n0
    | _, _ => Panic
    end.

  (** try_specialized_einsum_loop: lines 45-85, then the fallback (einsum.rs 427-429) *)
  Definition run_einsum (h : heap T) (bases : list ptr) (strides : list (list nat)) (iter_shape : list nat)
      (dst : ptr) : res (heap T) :=
    if (length bases =? 1) || (length bases =? 2) then
      match strides, iter_shape with
      | [d0; d1], [n0; n1] => einsum_2labels h bases d0 d1 n0 n1 dst
      | [d0; d1; d2], [n0; n1; n2] => einsum_3labels h bases d0 d1 d2 n0 n1 n2 dst
      | _, _ => unspecialized h bases strides iter_shape dst
      end
    else unspecialized h bases strides iter_shape dst.

  (** einsum: src/linalg/einsum.rs 403-433 *)
  Definition nd_einsum (h : heap T) (ops : list arr) (subs : list (list Z)) (out : list Z) : res (heap T * arr) :=
    r <- prepare_einsum ops subs out ;;
    let '(strides, iter_shape, out_shape) := r in
    let '(h1, b) := alloc h (repeat zero (prod out_shape)) in
    h2 <- run_einsum h1 (map a_ptr ops) strides iter_shape (b, 0) ;;
    Ok (h2, fresh_arr b (prod out_shape) out_shape).

  (** einsum_into_ptr: lines 435-467 *)
  Definition einsum_into_ptr (h : heap T) (ops : list arr) (subs : list (list Z)) (out : list Z)
      (result_stride : list nat) (result : ptr) : res (heap T) :=
    r <- prepare_einsum ops subs out ;;
    let '(strides, iter_shape, out_shape) := r in
    _ <- match has_uniform_stride out_shape result_stride with
         | Some s => guard (s =? 1)
         | None => Ok tt
         end ;;
    h1 <- k_fill h result out_shape result_stride (prod out_shape) zero ;;
    run_einsum h1 (map a_ptr ops) strides iter_shape result.

  (** ** Matrix products: src/linalg/matrix_ops.rs *)
  (** "ij", "jk", "ik" *)
  Definition matmul_subs : list (list Z) := [[105; 106]; [106; 107]]%Z.
  Definition matmul_out : list Z := [105; 107]%Z.

  (** matrix_matrix_product: lines 386-392 *)
  Definition matrix_matrix (h : heap T) (a b : arr) (rstride : list nat) (dst : ptr) : res (heap T) :=
    einsum_into_ptr h [a; b] matmul_subs matmul_out rstride dst.

  (** dot: lines 111-126 *)
  Definition nd_dot (h : heap T) (a b : arr) : res (heap T * arr) :=
    match a_shape a, a_shape b, a_stride a, a_stride b with
    | [n], [m], [s], [t] =>
        _ <- guard (n =? m) ;;
        r <- nd_scalar h zero ;;
        let '(h1, r) := r in
        h2 <- strided_dot h1 (a_ptr a) s (a_ptr b) t (a_ptr r) n ;; Ok (h2, r)
    | _, _, _, _ => Panic
    end.

  (** the row loop of matrix_vector_product, lines 410-414 *)
  Fixpoint matvec_go (h : heap T) (row : ptr) (rs s : nat) (v : ptr) (t : nat) (dst : ptr) (cols rows : nat)
      : res (heap T) :=
    match rows with
    | O => Ok h
    | S r =>
        h' <- strided_dot h row s v t dst cols ;;
        matvec_go h' (padd row rs) rs s v t (padd dst 1) cols r
    end.

  (** the loop of batch_matrix_matrix_product, lines 369-375 *)
  Definition shift_arr (a : arr) (n : nat) : arr :=
    mkArr (a_blk a) (a_off a + n) (a_len a) (a_cap a) (a_shape a) (a_stride a) (a_fl a).
  Fixpoint bmm_go (h : heap T) (a b : arr) (sa sb : nat) (rstride : list nat) (rs : nat) (dst : ptr) (n : nat)
      : res (heap T) :=
    match n with
    | O => Ok h
    | S n' =>
        h' <- matrix_matrix h a b rstride dst ;;
        bmm_go h' (shift_arr a sa) (shift_arr b sb) sa sb rstride rs (padd dst rs) n'
    end.

  (** matmul: lines 39-62; matrix_vector_product: 399-417 *)
  Definition nd_matmul (h : heap T) (a b : arr) : res (heap T * arr) :=
    match a_shape a, a_shape b with
    | [_], [_] => nd_dot h a b
    | [rows; cols], [m] =>
        _ <- guard (cols =? m) ;;
        match a_stride a, a_stride b with
        | [rs; s], [t] =>
            let '(h1, blk) := alloc h (repeat zero rows) in
            h2 <- matvec_go h1 (a_ptr a) rs s (a_ptr b) t (blk, 0) cols rows ;;
            Ok (h2, fresh_arr blk rows [rows])
        | _, _ => Panic
        end
    | [n; k], [k'; m] =>
        _ <- guard (k =? k') ;;
        r <- nd_full h zero [n; m] ;;
        let '(h1, r) := r in
        h2 <- matrix_matrix h1 a b (a_stride r) (a_ptr r) ;; Ok (h2, r)
    | _, _ => Panic
    end.

  (** bmm: lines 82-93; batch_matrix_matrix_product: 362-376 *)
  Definition nd_bmm (h : heap T) (a b : arr) : res (heap T * arr) :=
    match a_shape a, a_shape b with
    | [n; i; _], [n'; _; k] =>
        _ <- guard (n =? n') ;;
        r <- nd_full h zero [n; i; k] ;;
        let '(h1, r) := r in
        la <- nd_slice_along a 0 (IUsize 0) ;;
        lb <- nd_slice_along b 0 (IUsize 0) ;;
        sa <- vget (a_stride a) 0 ;;
        sb <- vget (a_stride b) 0 ;;
        rs <- vget (a_stride r) 0 ;;
        h2 <- bmm_go h1 la lb sa sb (tl (a_stride r)) rs (a_ptr r) n ;; Ok (h2, r)
    | _, _ => Panic
    end.

  (** offset_trace_along: lines 204-207 (trace, offset_trace and trace_along call it) *)
  Definition nd_trace (h : heap T) (a : arr) (offset axis1 axis2 : Z) : res (heap T * arr) :=
    d <- nd_offset_diagonal_along a offset axis1 axis2 ;;
    nd_reduce_along (fun v acc => add acc v) zero h d [(-1)%Z].
End Sop.
