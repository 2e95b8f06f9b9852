(** Autograd.v: model of the differentiation engine and of Tensor. *)
From Coq Require Import List Arith Bool ZArith.
From Verif Require Import Base Layout Views Kernels Access Reduce Einsum SpecGrad.
Import ListNotations.
Open Scope res_scope.

(** GradientFunction<T> = Rc<RefCell<dyn GradientFuncTrait>>: src/autograd/gradient_function.rs
    30.  The three kinds of allocation are told apart: a NoneBackwards (none_backwards.rs),
    the k-th AccumulateGrad created, the m-th other node created. *)
Inductive nref := RNone | RLeaf (k : nat) | RNode (m : nat).

(** the node structs of src/autograd; next_functions first, then the saved fields.
    AddScalarBackwards (add_backwards.rs 43-47) and IdentityBackwards (identity_backwards.rs)
    build no node: they return the operand's own grad_fn. *)
Inductive gnode (T : Type) :=
| NAdd (x y : nref) (sx sy : list nat)           (* add_backwards.rs 11-16 *)
| NSub (x y : nref) (sx sy : list nat)           (* sub_backwards.rs 8-13 *)
| NMul (x y : nref) (lhs rhs : arr)              (* mul_backwards.rs 8-13 *)
| NMulS (x : nref) (sh : list nat) (c : T)       (* mul_backwards.rs 15-20 *)
| NDiv (x y : nref) (lhs rhs : arr)              (* div_backwards.rs 7-12 *)
| NDivS (x : nref) (sh : list nat) (c : T)       (* div_backwards.rs 14-19 *)
| NNeg (x : nref) (sh : list nat)                (* neg_backwards.rs 7-10 *)
| NDot (x y : nref) (lhs rhs : arr)              (* dot_backwards.rs 7-12 *)
| NMatVec (x y : nref) (mat vec : arr)           (* matrix_vec_backwards.rs 7-12 *)
| NMatMul (x y : nref) (lhs rhs : arr)           (* matrix_product_backwards.rs 7-12 *)
| NBmm (x y : nref) (lhs rhs : arr)              (* bmm_backwards.rs 7-12 *)
| NReshape (x : nref) (sh : list nat)            (* reshape_backwards.rs 7-10 *)
| NTrans (x : nref) (a1 a2 : Z).                 (* transpose_backwards.rs 6-11 *)
Arguments NAdd {T}. Arguments NSub {T}. Arguments NMul {T}. Arguments NMulS {T}. Arguments NDiv {T}.
Arguments NDivS {T}. Arguments NNeg {T}. Arguments NDot {T}. Arguments NMatVec {T}. Arguments NMatMul {T}.
Arguments NBmm {T}. Arguments NReshape {T}. Arguments NTrans {T}.

(** Tensor: src/tensor/mod.rs 45-52.  Of [flags] only RequiresGrad is kept; UserCreated is
    only read by is_leaf.  The Rc around the array is dropped: data is never freed here. *)
Record tensor := mkT { t_arr : arr; t_rg : bool; t_fn : nref }.

(** lifetime_cast: src/ndarray/astype.rs 18-30 *)
Definition lifetime_cast (a : arr) : arr :=
  mkArr (a_blk a) (a_off a) (a_len a) 0 (a_shape a) (a_stride a)
    (mkFlags (f_owned (a_fl a)) (f_contig (a_fl a)) (f_unif (a_fl a)) (f_write (a_fl a)) false (f_grad (a_fl a))).

Definition is_none (r : nref) : bool := match r with RNone => true | _ => false end.

(** element operations of floats never panic *)
Definition lift2 {T} (f : T -> T -> T) : T -> T -> res T := fun x y => Ok (f x y).
Definition lift1 {T} (f : T -> T) : T -> res T := fun x => Ok (f x).
Definition lift3 {T} (add mul : T -> T -> T) : T -> T -> T -> res T := fun a b c => Ok (add (mul a b) c).

Section Autograd.
  Context {T : Type} (N : num T).

  (** the operators on arrays that the engine uses *)
  Definition a_bin (o : bop) (h : heap T) (a b : arr) := nd_binary (lift2 (bopf N o)) (n0 N) h a b.
  Definition a_scal (o : bop) (h : heap T) (a : arr) (c : T) := nd_scalar_op (lift2 (bopf N o)) (n0 N) h a c.
  Definition a_neg (h : heap T) (a : arr) := nd_unary (lift1 (nneg N)) (n0 N) h a.
  Definition a_dot (h : heap T) (a b : arr) := nd_dot (n0 N) (lift2 (nadd N)) (lift2 (nmul N)) h a b.
  Definition a_matmul (h : heap T) (a b : arr) :=
    nd_matmul (n0 N) (n1 N) (lift2 (nadd N)) (lift2 (nmul N)) (lift3 (nadd N) (nmul N)) h a b.
  Definition a_bmm (h : heap T) (a b : arr) :=
    nd_bmm (n0 N) (n1 N) (lift2 (nadd N)) (lift2 (nmul N)) (lift3 (nadd N) (nmul N)) h a b.
  (** sum_along: src/ndarray/reduce.rs 129-131 *)
  Definition a_sum_along (h : heap T) (a : arr) (axes : list Z) :=
    nd_reduce_along (fun v acc => Ok (nadd N acc v)) (n0 N) h a axes.

  (** reduce_gradient: src/autograd/util.rs 5-15 *)
  Definition reduce_gradient (h : heap T) (g : arr) (sh : list nat) : res (heap T * arr) :=
    if list_eqb (a_shape g) sh then Ok (h, nd_view ByRef g)
    else
      axes <- get_broadcasted_axes (a_shape g) sh ;;
      r <- a_sum_along h g (map Z.of_nat axes) ;;
      let '(h1, s) := r in
      v <- nd_reshape ByValue s sh ;; Ok (h1, v).

  (** call_next_backward!(grad, next): gradient_function.rs 34-38.  [eval] is the argument
      expression, evaluated only if next is not NoneBackwards. *)
  Definition call_next (rec : heap T -> nref -> arr -> res (heap T)) (h : heap T)
      (eval : heap T -> res (heap T * arr)) (next : nref) : res (heap T) :=
    if is_none next then Ok h
    else r <- eval h ;; let '(h1, g) := r in rec h1 next g.

  (** call_next_backward!(grad, shape, next): lines 40-50.  The expression is written twice
      in the macro; it has no effect besides allocating, and is evaluated once here. *)
  Definition call_next_shape (rec : heap T -> nref -> arr -> res (heap T)) (h : heap T)
      (eval : heap T -> res (heap T * arr)) (sh : list nat) (next : nref) : res (heap T) :=
    if is_none next then Ok h
    else
      r <- eval h ;;
      let '(h1, g) := r in
      if list_eqb sh (a_shape g) then rec h1 next g
      else r2 <- reduce_gradient h1 g sh ;; let '(h2, g2) := r2 in rec h2 next g2.

  Variable leaves : list arr.      (* AccumulateGrad.gradient of each leaf *)
  Variable nodes : list (gnode T).

  (** GradientFuncTrait::backward.  [busy] are the nodes that are mutably borrowed by the
      callers; borrowing one of them again panics.  A node only refers to nodes created
      before it, so [fuel] above the node number is enough; running out of it, a dangling
      reference, and the assert_unchecked of AccumulateGrad being false are [Oob].
      Temporaries are not freed. *)
  Fixpoint bw (fuel : nat) (busy : list nat) (h : heap T) (r : nref) (g : arr) {struct fuel} : res (heap T) :=
    match fuel with
    | O => Oob
    | S fuel' =>
        match r with
        | RNone => Ok h                                              (* none_backwards.rs 12 *)
        | RLeaf k =>                                                 (* accumulate_grad.rs 23-28 *)
            match nth_error leaves k with
            | None => Oob
            | Some a =>
                if list_eqb (a_shape a) (a_shape g) then nd_assign (lift2 (nadd N)) h a g else Oob
            end
        | RNode m =>
            if existsb (Nat.eqb m) busy then Panic
            else
              let rec h r g := bw fuel' (m :: busy) h r g in
              match nth_error nodes m with
              | None => Oob
              | Some (NAdd x y sx sy) =>                             (* add_backwards.rs 24-27 *)
                  h1 <- call_next_shape rec h (fun h => Ok (h, g)) sx x ;;
                  call_next_shape rec h1 (fun h => Ok (h, g)) sy y
              | Some (NSub x y sx sy) =>                             (* sub_backwards.rs 17-20 *)
                  h1 <- call_next_shape rec h (fun h => Ok (h, g)) sx x ;;
                  call_next_shape rec h1 (fun h => a_neg h g) sy y
              | Some (NMul x y l r) =>                               (* mul_backwards.rs 24-30 *)
                  h1 <- call_next_shape rec h (fun h => a_bin BMul h r g) (a_shape l) x ;;
                  call_next_shape rec h1 (fun h => a_bin BMul h l g) (a_shape r) y
              | Some (NMulS x sh c) =>                               (* mul_backwards.rs 34-37 *)
                  call_next_shape rec h (fun h => a_scal BMul h g c) sh x
              | Some (NDiv x y l r) =>                               (* div_backwards.rs 23-35 *)
                  if is_none x then
                    call_next_shape rec h (fun h =>
                      r1 <- a_neg h l ;; let '(h1, nl) := r1 in
                      r2 <- a_bin BMul h1 g nl ;; let '(h2, p) := r2 in
                      r3 <- a_bin BMul h2 r r ;; let '(h3, q) := r3 in
                      a_bin BDiv h3 p q) (a_shape r) y
                  else
                    r1 <- nd_scalar h (n1 N) ;; let '(h1, one) := r1 in
                    r2 <- a_bin BDiv h1 one r ;; let '(h2, rcp) := r2 in
                    r3 <- a_bin BMul h2 g rcp ;; let '(h3, lg) := r3 in
                    h4 <- call_next_shape rec h3 (fun h => Ok (h, lg)) (a_shape l) x ;;
                    call_next_shape rec h4 (fun h =>
                      r1 <- a_bin BDiv h lg r ;; let '(h1, p) := r1 in
                      r2 <- a_neg h1 l ;; let '(h2, nl) := r2 in
                      a_bin BMul h2 p nl) (a_shape r) y
              | Some (NDivS x sh c) =>                               (* div_backwards.rs 39-42 *)
                  r1 <- a_scal BMul h g c ;; let '(h1, g1) := r1 in
                  call_next_shape rec h1 (fun h => Ok (h, g1)) sh x
              | Some (NNeg x sh) =>                                  (* neg_backwards.rs 13-15 *)
                  call_next_shape rec h (fun h => a_neg h g) sh x
              | Some (NDot x y l r) =>                               (* dot_backwards.rs 16-22 *)
                  h1 <- call_next rec h (fun h => a_bin BMul h r g) x ;;
                  call_next rec h1 (fun h => a_bin BMul h l g) y
              | Some (NMatVec x y mat vec) =>                        (* matrix_vec_backwards.rs 16-22 *)
                  h1 <- call_next rec h (fun h => u <- nd_unsqueeze ByRef g 1 ;; a_bin BMul h u vec) x ;;
                  call_next rec h1 (fun h => mt <- nd_T ByRef mat ;; a_matmul h mt g) y
              | Some (NMatMul x y l r) =>                            (* matrix_product_backwards.rs 16-22 *)
                  h1 <- call_next rec h (fun h => rt <- nd_T ByRef r ;; a_matmul h g rt) x ;;
                  call_next rec h1 (fun h => lt <- nd_T ByRef l ;; a_matmul h lt g) y
              | Some (NBmm x y l r) =>                               (* bmm_backwards.rs 16-22 *)
                  h1 <- call_next rec h (fun h => rt <- nd_transpose ByRef r 1 2 ;; a_bmm h g rt) x ;;
                  call_next rec h1 (fun h => lt <- nd_transpose ByRef l 1 2 ;; a_bmm h lt g) y
              | Some (NReshape x sh) =>                              (* reshape_backwards.rs 13-16 *)
                  call_next rec h (fun h => v <- nd_reshape ByRef g sh ;; Ok (h, v)) x
              | Some (NTrans x a1 a2) =>                             (* transpose_backwards.rs 14-17 *)
                  call_next rec h (fun h => v <- nd_transpose ByRef g a1 a2 ;; Ok (h, v)) x
              end
        end
    end.
End Autograd.

(** ** Programs *)
Section Program.
  Context {T : Type} (N : num T).

  Record gstate := mkG { g_heap : heap T; g_leaves : list arr; g_nodes : list (gnode T); g_ts : list tensor }.
  Definition g0 : gstate := mkG [] [] [] [].

  (** a new tensor with a node of its own if it requires a gradient (src/tensor/ops.rs 22-25,
      53-56, 70-73 and the like): Tensor::from_raw_parts, src/tensor/constructors.rs 22-38 *)
  Definition push_op (s : gstate) (h : heap T) (a : arr) (rg : bool) (nd : gnode T) : gstate :=
    if rg then mkG h (g_leaves s) (g_nodes s ++ [nd]) (g_ts s ++ [mkT a true (RNode (length (g_nodes s)))])
    else mkG h (g_leaves s) (g_nodes s) (g_ts s ++ [mkT a false RNone]).

  (** a new tensor that shares the operand's node: IdentityBackwards *)
  Definition push_same (s : gstate) (h : heap T) (a : arr) (x : tensor) : gstate :=
    mkG h (g_leaves s) (g_nodes s) (g_ts s ++ [mkT a (t_rg x) (if t_rg x then t_fn x else RNone)]).

  (** Constructors::new, full, zeros, ones, scalar, rand, ... : all end in
      from_contiguous_owned_buffer (src/tensor/constructors.rs 10-13) with a non-empty vector
      of the right length.  ([arange] and [linspace] can build an empty one: not covered.) *)
  Definition new_array (h : heap T) (sh : list nat) (data : list T) : res (heap T * arr) :=
    _ <- guard (length data =? prod sh) ;;
    _ <- guard (negb (length data =? 0)) ;;
    Ok (from_buffer h sh data).

  Definition bnode (o : bop) (x y : tensor) : gnode T :=
    let sx := a_shape (t_arr x) in let sy := a_shape (t_arr y) in
    match o with
    | BAdd => NAdd (t_fn x) (t_fn y) sx sy
    | BSub => NSub (t_fn x) (t_fn y) sx sy
    | BMul => NMul (t_fn x) (t_fn y) (t_arr x) (t_arr y)
    | BDiv => NDiv (t_fn x) (t_fn y) (t_arr x) (t_arr y)
    end.

  (** view and transpose of a tensor: src/tensor/reshape.rs 40-53, 69-87 (by reference),
      117-123, 139-150 (by value; into_ndarray, src/tensor/methods.rs 41-46, copies the
      array when it is shared) *)
  Definition via_array (m : tmode) (op : mode -> arr -> res arr) (h : heap T) (a : arr) : res (heap T * arr) :=
    match m with
    | TRef => r <- op ByRef a ;; Ok (h, lifetime_cast r)
    | TMove => r <- op ByValue a ;; Ok (h, r)
    | TClone => c <- nd_clone h a ;; let '(h1, a1) := c in r <- op ByValue a1 ;; Ok (h1, r)
    end.

  (** reshape, squeeze and unsqueeze compute the new shape and stride from the tensor
      (src/common/reshape.rs) and then call reshaped_view, src/tensor/reshape.rs 17-28 (by
      reference), 99-105 (by value).  In the copying case the strides computed from the
      original are applied to the copy. *)
  Definition via_strides (m : tmode) (op : mode -> arr -> res arr) (h : heap T) (a : arr) : res (heap T * arr) :=
    match m with
    | TRef => r <- op ByRef a ;; Ok (h, lifetime_cast r)
    | TMove => r <- op ByValue a ;; Ok (h, r)
    | TClone =>
        r <- op ByValue a ;;
        c <- nd_clone h a ;; let '(h1, a1) := c in
        Ok (h1, reshaped_view ByValue a1 (a_shape r) (a_stride r))
    end.

  (** the array handed to backward_with *)
  Definition seed_arr (s : gstate) (sd : seed T) : res (heap T * arr) :=
    match sd with
    | SNew sh data => new_array (g_heap s) sh data
    | SBcast sh data to =>
        r <- new_array (g_heap s) sh data ;; let '(h, a) := r in
        b <- nd_broadcast_to a to ;; Ok (h, b)
    | SVal j => t <- vget (g_ts s) j ;; Ok (g_heap s, t_arr t)          (* ndarray(): methods.rs 31-33 *)
    | SGrad j =>                                                        (* gradient(): autograd.rs 104-106 *)
        t <- vget (g_ts s) j ;;
        match t_fn t with
        | RLeaf k => a <- vget (g_leaves s) k ;; Ok (g_heap s, nd_view ByRef a)
        | _ => Panic
        end
    end.

  Definition run_bw (s : gstate) (h : heap T) (y : tensor) (g : arr) : res gstate :=
    h' <- bw N (g_leaves s) (g_nodes s) (S (length (g_nodes s))) [] h (t_fn y) g ;;
    Ok (mkG h' (g_leaves s) (g_nodes s) (g_ts s)).

  Definition exec (s : gstate) (i : instr T) : res gstate :=
    match i with
    | INew sh data =>
        r <- new_array (g_heap s) sh data ;; let '(h, a) := r in
        Ok (mkG h (g_leaves s) (g_nodes s) (g_ts s ++ [mkT a false RNone]))
    | ISetGrad i b =>                                    (* set_requires_grad: src/tensor/autograd.rs 57-74 *)
        x <- vget (g_ts s) i ;;
        match t_rg x, b with
        | false, true =>
            r <- nd_full (g_heap s) (n0 N) (a_shape (t_arr x)) ;; let '(h, g) := r in
            ts <- vset (g_ts s) i (mkT (t_arr x) true (RLeaf (length (g_leaves s)))) ;;
            Ok (mkG h (g_leaves s ++ [g]) (g_nodes s) ts)
        | true, false =>
            ts <- vset (g_ts s) i (mkT (t_arr x) false RNone) ;;
            Ok (mkG (g_heap s) (g_leaves s) (g_nodes s) ts)
        | _, _ => Ok s
        end
    | INeg i =>                                          (* src/tensor/ops.rs 21-26 *)
        x <- vget (g_ts s) i ;;
        r <- a_neg N (g_heap s) (t_arr x) ;; let '(h, a) := r in
        Ok (push_op s h a (t_rg x) (NNeg (t_fn x) (a_shape (t_arr x))))
    | IBin o i j =>                                      (* src/tensor/ops.rs 52-57 *)
        x <- vget (g_ts s) i ;; y <- vget (g_ts s) j ;;
        r <- a_bin N o (g_heap s) (t_arr x) (t_arr y) ;; let '(h, a) := r in
        Ok (push_op s h a (t_rg x || t_rg y) (bnode o x y))
    | IScal o i c =>                                     (* src/tensor/ops.rs 69-74 *)
        x <- vget (g_ts s) i ;;
        r <- a_scal N o (g_heap s) (t_arr x) c ;; let '(h, a) := r in
        match o with
        | BAdd | BSub => Ok (push_same s h a x)
        | BMul => Ok (push_op s h a (t_rg x) (NMulS (t_fn x) (a_shape (t_arr x)) c))
        | BDiv => Ok (push_op s h a (t_rg x) (NDivS (t_fn x) (a_shape (t_arr x)) (ndiv N (n1 N) c)))
        end
    | IDot i j =>                                        (* src/tensor/matrix_ops.rs 23-30 *)
        x <- vget (g_ts s) i ;; y <- vget (g_ts s) j ;;
        r <- a_dot N (g_heap s) (t_arr x) (t_arr y) ;; let '(h, a) := r in
        Ok (push_op s h a (t_rg x || t_rg y) (NDot (t_fn x) (t_fn y) (t_arr x) (t_arr y)))
    | IMatmul i j =>                                     (* src/tensor/matrix_ops.rs 62-83 *)
        x <- vget (g_ts s) i ;; y <- vget (g_ts s) j ;;
        let nx := length (a_shape (t_arr x)) in let ny := length (a_shape (t_arr y)) in
        if (nx =? 1) && (ny =? 1) then
          r <- a_dot N (g_heap s) (t_arr x) (t_arr y) ;; let '(h, a) := r in
          Ok (push_op s h a (t_rg x || t_rg y) (NDot (t_fn x) (t_fn y) (t_arr x) (t_arr y)))
        else
          r <- a_matmul N (g_heap s) (t_arr x) (t_arr y) ;; let '(h, a) := r in
          if t_rg x || t_rg y then
            if (nx =? 2) && (ny =? 1) then Ok (push_op s h a true (NMatVec (t_fn x) (t_fn y) (t_arr x) (t_arr y)))
            else if (nx =? 2) && (ny =? 2) then Ok (push_op s h a true (NMatMul (t_fn x) (t_fn y) (t_arr x) (t_arr y)))
            else Panic
          else Ok (push_op s h a false (NMatMul (t_fn x) (t_fn y) (t_arr x) (t_arr y)))
    | IBmm i j =>                                        (* src/tensor/matrix_ops.rs 103-110 *)
        x <- vget (g_ts s) i ;; y <- vget (g_ts s) j ;;
        r <- a_bmm N (g_heap s) (t_arr x) (t_arr y) ;; let '(h, a) := r in
        Ok (push_op s h a (t_rg x || t_rg y) (NBmm (t_fn x) (t_fn y) (t_arr x) (t_arr y)))
    | IView m i =>
        x <- vget (g_ts s) i ;;
        r <- via_array m (fun m a => Ok (nd_view m a)) (g_heap s) (t_arr x) ;; let '(h, a) := r in
        Ok (push_same s h a x)
    | IReshape m i sh =>                                 (* src/common/reshape.rs 55-77 *)
        x <- vget (g_ts s) i ;;
        if list_eqb sh (a_shape (t_arr x)) then
          r <- via_array m (fun m a => Ok (nd_view m a)) (g_heap s) (t_arr x) ;; let '(h, a) := r in
          Ok (push_same s h a x)
        else
          r <- via_strides m (fun m a => nd_reshape m a sh) (g_heap s) (t_arr x) ;; let '(h, a) := r in
          Ok (push_op s h a (t_rg x) (NReshape (t_fn x) (a_shape (t_arr x))))
    | ISqueeze m i =>                                    (* src/common/reshape.rs 96-106 *)
        x <- vget (g_ts s) i ;;
        r <- via_strides m (fun m a => Ok (nd_squeeze m a)) (g_heap s) (t_arr x) ;; let '(h, a) := r in
        Ok (push_op s h a (t_rg x) (NReshape (t_fn x) (a_shape (t_arr x))))
    | IUnsqueeze m i axis =>                             (* src/common/reshape.rs 126-141 *)
        x <- vget (g_ts s) i ;;
        r <- via_strides m (fun m a => nd_unsqueeze m a axis) (g_heap s) (t_arr x) ;; let '(h, a) := r in
        Ok (push_op s h a (t_rg x) (NReshape (t_fn x) (a_shape (t_arr x))))
    | ITranspose m i a1 a2 =>
        x <- vget (g_ts s) i ;;
        r <- via_array m (fun m a => nd_transpose m a a1 a2) (g_heap s) (t_arr x) ;; let '(h, a) := r in
        Ok (push_op s h a (t_rg x) (NTrans (t_fn x) a1 a2))
    | IBackward i =>                                     (* backward: src/tensor/autograd.rs 177-179 *)
        y <- vget (g_ts s) i ;;
        r <- nd_full (g_heap s) (n1 N) (a_shape (t_arr y)) ;; let '(h, g) := r in
        run_bw s h y g
    | IBackwardWith i sd =>                              (* backward_with: lines 152-157 *)
        y <- vget (g_ts s) i ;;
        r <- seed_arr s sd ;; let '(h, g) := r in
        _ <- guard (list_eqb (a_shape g) (a_shape (t_arr y))) ;;
        run_bw s h y g
    | IZeroGrad i =>                                     (* zero_gradient: lines 126-128 *)
        x <- vget (g_ts s) i ;;
        match t_fn x with
        | RLeaf k =>                                     (* accumulate_grad.rs 34-36 *)
            a <- vget (g_leaves s) k ;;
            h <- nd_fill (g_heap s) a (n0 N) ;;
            Ok (mkG h (g_leaves s) (g_nodes s) (g_ts s))
        | _ => Ok s
        end
    end.

  Fixpoint run (p : list (instr T)) (s : gstate) : res gstate :=
    match p with
    | [] => Ok s
    | i :: p' => s' <- exec s i ;; run p' s'
    end.

  (** gradient(): src/tensor/autograd.rs 104-106, accumulate_grad.rs 30-32 *)
  Definition t_gradient (s : gstate) (x : tensor) : option arr :=
    match t_fn x with
    | RLeaf k => match nth_error (g_leaves s) k with Some a => Some (nd_view ByRef a) | None => None end
    | _ => None
    end.
End Program.
Arguments mkG {T}. Arguments g_heap {T}. Arguments g_leaves {T}. Arguments g_nodes {T}. Arguments g_ts {T}.
