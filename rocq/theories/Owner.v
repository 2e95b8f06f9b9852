(** Owner.v: who frees which buffer.  Two small machines run programs that create, view,
    consume, clone and drop arrays (first) and tensors (second).  The machines keep only
    what ownership depends on: the size of every buffer and the array records, whose
    pointer, length, capacity, shape, stride and flags are computed by the functions of
    Views.v.  Element values are left out; whether accesses stay inside a live buffer is
    the subject of C25.  Beside each machine stand the lifetime rules of the borrow
    checker, as given by the signatures in the sources. *)
From Coq Require Import List Arith Bool ZArith.
From Verif Require Import Base Layout Views.
Import ListNotations.

(** How a program ends: normally, by a panic, by reading or writing a buffer that is no
    longer allocated, by a deallocation that does not match a live allocation, or by
    naming a variable that is not there. *)
Inductive out (A : Type) := Done (a : A) | Panicked | BadUse | BadFree | NoVar.
Arguments Done {A} a.
Arguments Panicked {A}.
Arguments BadUse {A}.
Arguments BadFree {A}.
Arguments NoVar {A}.

Definition obind {A B} (m : out A) (k : A -> out B) : out B :=
  match m with
  | Done a => k a | Panicked => Panicked | BadUse => BadUse | BadFree => BadFree | NoVar => NoVar
  end.

Declare Scope out_scope.
Notation "x <- m ;; k" := (obind m (fun x => k)) (at level 61, m at next level, right associativity) : out_scope.
Open Scope out_scope.

(** the result of a view computation *)
Definition of_res {A} (r : res A) : out A :=
  match r with Ok a => Done a | Panic => Panicked | Oob => BadUse end.

(** cell counts of the buffers allocated so far; None once freed *)
Definition blocks := list (option nat).

Fixpoint put {A} (l : list A) (i : nat) (x : A) : list A :=
  match l, i with
  | [], _ => []
  | _ :: l', O => x :: l'
  | y :: l', S i' => y :: put l' i' x
  end.

(** the value of a live variable *)
Definition var {A} (vs : list (option A)) (x : nat) : option A :=
  match nth_error vs x with Some v => v | None => None end.

Definition look {A} (vs : list (option A)) (x : nat) : out A :=
  match var vs x with Some a => Done a | None => NoVar end.

(** an access through [a]: its buffer must still be allocated *)
Definition touch (bl : blocks) (a : arr) : out unit :=
  match var bl (a_blk a) with Some _ => Done tt | None => BadUse end.

(** Dropping Vec::from_raw_parts(ptr, len, capacity): nothing is deallocated when the
    capacity is 0; otherwise the pointer and capacity must be those of a live
    allocation. *)
Definition drop_vec (bl : blocks) (a : arr) : out blocks :=
  if a_cap a =? 0 then Done bl
  else match var bl (a_blk a) with
       | Some n => if (a_off a =? 0) && (a_cap a =? n) then Done (put bl (a_blk a) None) else BadFree
       | None => BadFree
       end.

(** Drop for NdArray: src/ndarray/constructors.rs 72-86 *)
Definition drop_arr (bl : blocks) (a : arr) : out blocks :=
  if f_owned (a_fl a) then drop_vec bl a else Done bl.

(** from_contiguous_owned_buffer: src/ndarray/constructors.rs 51-69, on a vector of
    [prod sh] elements whose capacity is its length *)
Definition new_block (bl : blocks) (sh : list nat) : blocks * arr :=
  (bl ++ [Some (prod sh)], fresh_arr (length bl) (prod sh) sh).

(** the methods of trait Reshape, available by reference and by value:
    src/common/reshape.rs *)
Inductive shape_op :=
| SView
| SReshape (sh : list nat)
| STranspose (i j : Z)
| SSqueeze
| SUnsqueeze (i : Z).

Definition apply_shape (m : mode) (a : arr) (o : shape_op) : res arr :=
  match o with
  | SView => Ok (nd_view m a)
  | SReshape sh => nd_reshape m a sh
  | STranspose i j => nd_transpose m a i j
  | SSqueeze => Ok (nd_squeeze m a)
  | SUnsqueeze i => nd_unsqueeze m a i
  end.

(** every operation that takes &'a self and returns NdArray<'a> *)
Inductive view_op :=
| VShape (o : shape_op)
| VSlice (ixs : list indexer)
| VSliceAlong (i : Z) (ix : indexer)
| VDiagonal (o i j : Z)
| VBroadcast (sh : list nat).

Definition apply_view (a : arr) (o : view_op) : res arr :=
  match o with
  | VShape s => apply_shape ByRef a s
  | VSlice ixs => nd_slice a ixs
  | VSliceAlong i ix => nd_slice_along a i ix
  | VDiagonal o i j => nd_offset_diagonal_along a o i j
  | VBroadcast sh => nd_broadcast_to a sh
  end.

(** Vec::from_raw_parts(ptr, len, capacity), the result of into_data_vector
    (src/ndarray/methods.rs 59-69); as a record, an owned one-dimensional array *)
Definition as_vec (a : arr) : arr :=
  mkArr (a_blk a) (a_off a) (a_len a) (a_cap a) [a_len a] [1] fresh_flags.

(** the slice returned by data_slice (src/ndarray/methods.rs 41-44) *)
Definition as_slice (a : arr) : arr :=
  mkArr (a_blk a) (a_off a) (a_len a) 0 [a_len a] [1] (drop_own fresh_flags).

(** ** Programs over arrays *)
(** Variables are numbered in order of creation; every instruction that yields a value
    creates the next variable. *)
Inductive instr :=
| INew (sh : list nat)              (* full, zeros, rand, from a vector of prod sh elements *)
| IView (x : nat) (o : view_op)     (* (&x).op() *)
| IMove (x : nat) (o : shape_op)    (* x.op(), consuming x *)
| IClone (x : nat)                  (* x.clone(), flatten, astype: a fresh buffer *)
| ISlice (x : nat)                  (* x.data_slice() *)
| IIntoVec (x : nat)                (* x.into_data_vector() *)
| IRead (x : nat)                   (* any access to the elements of x *)
| IDrop (x : nat).

Definition state := (blocks * list (option arr))%type.

(** no buffer, no variable *)
Definition start : state := ([], []).

Definition step (s : state) (i : instr) : out state :=
  let '(bl, vs) := s in
  match i with
  | INew sh => let '(bl', a) := new_block bl sh in Done (bl', vs ++ [Some a])
  | IView x o => a <- look vs x ;; r <- of_res (apply_view a o) ;; Done (bl, vs ++ [Some r])
  | IMove x o => a <- look vs x ;; r <- of_res (apply_shape ByValue a o) ;; Done (bl, put vs x None ++ [Some r])
  | IClone x =>
      a <- look vs x ;; _ <- touch bl a ;;
      let '(bl', r) := new_block bl (a_shape a) in Done (bl', vs ++ [Some r])
  | ISlice x =>
      a <- look vs x ;; if f_contig (a_fl a) then Done (bl, vs ++ [Some (as_slice a)]) else Panicked
  | IIntoVec x =>
      a <- look vs x ;;
      if f_owned (a_fl a) && f_contig (a_fl a) then Done (bl, put vs x None ++ [Some (as_vec a)]) else Panicked
  | IRead x => a <- look vs x ;; _ <- touch bl a ;; Done s
  | IDrop x => a <- look vs x ;; bl' <- drop_arr bl a ;; Done (bl', put vs x None)
  end.

Fixpoint run (s : state) (p : list instr) : out state :=
  match p with
  | [] => Done s
  | i :: p' => s' <- step s i ;; run s' p'
  end.

(** ** The borrow checker *)
Inductive kind := KArray | KVec | KRef.

(** The type of a live variable: what it is, and the variables its lifetime parameter
    borrows from (none for 'static).  None: moved or dropped. *)
Definition typing := list (option (kind * list nat)).

Definition mem (x : nat) (l : list nat) : bool := existsb (Nat.eqb x) l.

(** no live variable borrows from [x], so it may be moved or dropped.  NdArray has a
    Drop implementation, so a view counts as used until it is dropped itself. *)
Definition unborrowed (E : typing) (x : nat) : bool :=
  forallb (fun v => match v with Some (_, bs) => negb (mem x bs) | None => true end) E.

(** Typing of one instruction.
    - (&x).op(): &'a NdArray<'a> -> NdArray<'a>: borrows from x and from whatever x borrows
      (src/ndarray/reshape.rs 79-99, slice.rs, broadcast.rs, diagonal in src/linalg).
    - x.op(): NdArray<'_> -> NdArray<'static> (src/ndarray/reshape.rs 56-57).
    - data_slice: (&NdArray<'a>) -> &'a [T]: the lifetime of the array's type, not of the
      reference (src/ndarray/methods.rs 41).
    - clone, flatten, astype, into_data_vector: no lifetime in the result. *)
Definition tstep (E : typing) (i : instr) : option typing :=
  match i with
  | INew _ => Some (E ++ [Some (KArray, [])])
  | IView x _ =>
      match var E x with Some (KArray, bs) => Some (E ++ [Some (KArray, x :: bs)]) | _ => None end
  | IMove x _ =>
      match var E x with
      | Some (KArray, _) => if unborrowed E x then Some (put E x None ++ [Some (KArray, [])]) else None
      | _ => None
      end
  | IClone x =>
      match var E x with Some (KArray, _) => Some (E ++ [Some (KArray, [])]) | _ => None end
  | ISlice x =>
      match var E x with Some (KArray, bs) => Some (E ++ [Some (KRef, bs)]) | _ => None end
  | IIntoVec x =>
      match var E x with
      | Some (KArray, _) => if unborrowed E x then Some (put E x None ++ [Some (KVec, [])]) else None
      | _ => None
      end
  | IRead x => match var E x with Some _ => Some E | None => None end
  | IDrop x =>
      match var E x with
      | Some _ => if unborrowed E x then Some (put E x None) else None
      | None => None
      end
  end.

(** the program is accepted from [E] on, and every instruction meets [extra] *)
Fixpoint checks (extra : typing -> instr -> bool) (E : typing) (p : list instr) : bool :=
  match p with
  | [] => true
  | i :: p' =>
      extra E i && match tstep E i with Some E' => checks extra E' p' | None => false end
  end.

Definition accepted (p : list instr) : bool := checks (fun _ _ => true) [] p.

Definition is_static (E : typing) (x : nat) : bool :=
  match var E x with Some (_, []) => true | _ => false end.

(** ** Tensors *)
(** The graph behind a tensor: src/autograd.  Numbers name the shared arrays
    (Rc<NdArray>) a node keeps.
    - GAcc: accumulate_grad.rs; its gradient buffer is its own.
    - GPass: nodes that keep no array: add, sub, neg, reshape, transpose and the scalar
      variants.
    - GMul: mul_backwards.rs, dot_backwards.rs, matrix_vec_backwards.rs,
      matrix_product_backwards.rs, bmm_backwards.rs: the left gradient is computed from
      the right operand and conversely.
    - GDiv: div_backwards.rs 24-39. *)
Inductive graph :=
| GNone
| GAcc
| GPass (g1 g2 : graph)
| GMul (l r : nat) (g1 g2 : graph)
| GDiv (l r : nat) (g1 g2 : graph).

Definition is_none (g : graph) : bool := match g with GNone => true | _ => false end.

(** the shared arrays reachable from a node *)
Fixpoint saved (g : graph) : list nat :=
  match g with
  | GNone | GAcc => []
  | GPass g1 g2 => saved g1 ++ saved g2
  | GMul l r g1 g2 | GDiv l r g1 g2 => l :: r :: saved g1 ++ saved g2
  end.

(** the shared arrays backward reads, in order *)
Fixpoint reads (g : graph) : list nat :=
  match g with
  | GNone | GAcc => []
  | GPass g1 g2 => reads g1 ++ reads g2
  | GMul l r g1 g2 =>
      (if is_none g1 then [] else r :: reads g1) ++ (if is_none g2 then [] else l :: reads g2)
  | GDiv l r g1 g2 =>
      if is_none g1 then (if is_none g2 then [] else l :: r :: reads g2)
      else r :: reads g1 ++ (if is_none g2 then [] else r :: l :: reads g2)
  end.

(** Tensor: src/tensor/mod.rs 45-52: the shared array and the gradient function.  The
    requires_grad flag is set exactly when the gradient function is not NoneBackwards. *)
Definition tensor := (nat * graph)%type.

(** buffers, shared arrays (None once destroyed), variables *)
Definition tstate := (blocks * list (option arr) * list (option tensor))%type.

Definition tensor_start : tstate := ([], [], []).

(** some live tensor keeps shared array [r] alive *)
Definition held (vs : list (option tensor)) (r : nat) : bool :=
  existsb (fun v => match v with Some (r', g) => (r =? r') || mem r (saved g) | None => false end) vs.

(** Reference counts that have reached zero: the arrays are dropped. *)
Fixpoint collect (vs : list (option tensor)) (r : nat) (rcs : list (option arr)) (bl : blocks)
    : out (blocks * list (option arr)) :=
  match rcs with
  | [] => Done (bl, [])
  | Some a :: rcs' =>
      if held vs r then p <- collect vs (S r) rcs' bl ;; Done (fst p, Some a :: snd p)
      else bl' <- drop_arr bl a ;; p <- collect vs (S r) rcs' bl' ;; Done (fst p, None :: snd p)
  | None :: rcs' => p <- collect vs (S r) rcs' bl ;; Done (fst p, None :: snd p)
  end.

Definition settle (bl : blocks) (rcs : list (option arr)) (vs : list (option tensor)) : out tstate :=
  p <- collect vs 0 rcs bl ;; Done (fst p, snd p, vs).

(** Tensor::from_raw_parts: src/tensor/constructors.rs 22-38 *)
Definition new_tensor (bl : blocks) (rcs : list (option arr)) (vs : list (option tensor)) (a : arr) (g : graph)
    : tstate := (bl, rcs ++ [Some a], vs ++ [Some (length rcs, g)]).

(** lifetime_cast: src/ndarray/astype.rs 18-30 *)
Definition lifetime_cast (a : arr) : arr :=
  mkArr (a_blk a) (a_off a) (a_len a) 0 (a_shape a) (a_stride a)
    (mkFlags (f_owned (a_fl a)) (f_contig (a_fl a)) (f_unif (a_fl a)) (f_write (a_fl a)) false (f_grad (a_fl a))).

(** into_ndarray: src/tensor/methods.rs 41-46.  The array itself when no one else shares
    it, otherwise a clone.  [vs] are the variables without the consumed one, [g] the
    gradient function, still alive. *)
Definition into_ndarray (bl : blocks) (rcs : list (option arr)) (vs : list (option tensor)) (r : nat) (g : graph)
    : out (blocks * list (option arr) * arr) :=
  a <- look rcs r ;;
  if held vs r || mem r (saved g) then
    _ <- touch bl a ;; let '(bl', c) := new_block bl (a_shape a) in Done (bl', rcs, c)
  else Done (bl, put rcs r None, a).

(** the gradient function of a reshape-like result: src/tensor/reshape.rs.  A reshape to
    the same shape is a view in the sources; the extra node here keeps nothing. *)
Definition shape_graph (o : shape_op) (g : graph) : graph :=
  match o with
  | SView => g
  | _ => if is_none g then GNone else GPass g GNone
  end.

Inductive binop := BAdd | BMul | BDiv.

Definition bin_graph (o : binop) (l r : nat) (g1 g2 : graph) : graph :=
  if is_none g1 && is_none g2 then GNone
  else match o with BAdd => GPass g1 g2 | BMul => GMul l r g1 g2 | BDiv => GDiv l r g1 g2 end.

Inductive tinstr :=
| TNew (sh : list nat)                       (* a constructor *)
| TGrad (x : nat) (b : bool)                 (* x.set_requires_grad(b) *)
| TView (x : nat) (o : shape_op)             (* (&x).op() *)
| TMove (x : nat) (o : shape_op)             (* x.op() *)
| TNeg (x : nat)                             (* -&x, &x * 2.0, ...: one operand, nothing kept *)
| TBin (o : binop) (x y : nat) (sh : list nat)  (* &x op &y, dot, matmul, bmm; result of shape sh *)
| TInto (x : nat)                            (* x.into_ndarray() *)
| TRead (x : nat)
| TBackward (x : nat)
| TDrop (x : nat).

(** the shared arrays in [l] are all readable *)
Fixpoint touch_all (bl : blocks) (rcs : list (option arr)) (l : list nat) : out unit :=
  match l with
  | [] => Done tt
  | r :: l' => a <- look rcs r ;; _ <- touch bl a ;; touch_all bl rcs l'
  end.

(** src/tensor/reshape.rs, ops.rs, matrix_ops.rs, methods.rs, autograd.rs.  Operators
    taking tensors by value are the by-reference ones followed by TDrop. *)
Definition tensor_step (s : tstate) (i : tinstr) : out tstate :=
  let '(bl, rcs, vs) := s in
  match i with
  | TNew sh => let '(bl', a) := new_block bl sh in Done (new_tensor bl' rcs vs a GNone)
  | TGrad x b =>
      t <- look vs x ;; let '(r, g) := t in
      let g' := if b then (if is_none g then GAcc else g) else GNone in
      settle bl rcs (put vs x (Some (r, g')))
  | TView x o =>
      t <- look vs x ;; let '(r, g) := t in
      a <- look rcs r ;; v <- of_res (apply_shape ByRef a o) ;;
      Done (new_tensor bl rcs vs (lifetime_cast v) (shape_graph o g))
  | TMove x o =>
      t <- look vs x ;; let '(r, g) := t in
      let vs' := put vs x None in
      p <- into_ndarray bl rcs vs' r g ;; let '(bl', rcs', a) := p in
      v <- of_res (apply_shape ByValue a o) ;;
      let '(bl2, rcs2, vs2) := new_tensor bl' rcs' vs' v (shape_graph o g) in
      settle bl2 rcs2 vs2
  | TNeg x =>
      t <- look vs x ;; let '(r, g) := t in
      a <- look rcs r ;; _ <- touch bl a ;;
      let '(bl', c) := new_block bl (a_shape a) in
      Done (new_tensor bl' rcs vs c (if is_none g then GNone else GPass g GNone))
  | TBin o x y sh =>
      t <- look vs x ;; let '(r, g) := t in
      u <- look vs y ;; let '(r', g') := u in
      _ <- touch_all bl rcs [r; r'] ;;
      let '(bl', c) := new_block bl sh in
      Done (new_tensor bl' rcs vs c (bin_graph o r r' g g'))
  | TInto x =>
      t <- look vs x ;; let '(r, g) := t in
      let vs' := put vs x None in
      p <- into_ndarray bl rcs vs' r g ;; let '(bl', rcs', a) := p in
      let '(bl2, rcs2, vs2) := new_tensor bl' rcs' vs' a GNone in
      settle bl2 rcs2 vs2
  | TRead x => t <- look vs x ;; _ <- touch_all bl rcs [fst t] ;; Done s
  | TBackward x => t <- look vs x ;; _ <- touch_all bl rcs (reads (snd t)) ;; Done s
  | TDrop x => t <- look vs x ;; settle bl rcs (put vs x None)
  end.

Fixpoint tensor_run (s : tstate) (p : list tinstr) : out tstate :=
  match p with
  | [] => Done s
  | i :: p' => s' <- tensor_step s i ;; tensor_run s' p'
  end.

(** Lifetimes of tensors.  Kinds: KArray a tensor, KVec an array out of into_ndarray.
    - (&x).op(): &'a Tensor<'a> -> Tensor<'a> (src/tensor/reshape.rs 8-9);
    - x.op(): Tensor<'_> -> Tensor<'static> (reshape.rs 90-91);
    - operators, dot, matmul, bmm: any Tensor<'_> to Tensor<'static> (ops.rs, matrix_ops.rs);
    - into_ndarray: Tensor<'a> -> NdArray<'static> (methods.rs 41).
    Dropping a tensor view frees nothing, so a view that is not used again counts as
    dropped, wherever its scope ends. *)
Definition tensor_tstep (E : typing) (i : tinstr) : option typing :=
  match i with
  | TNew _ => Some (E ++ [Some (KArray, [])])
  | TGrad x _ =>
      match var E x with Some (KArray, _) => if unborrowed E x then Some E else None | _ => None end
  | TView x _ =>
      match var E x with Some (KArray, bs) => Some (E ++ [Some (KArray, x :: bs)]) | _ => None end
  | TMove x _ =>
      match var E x with
      | Some (KArray, _) => if unborrowed E x then Some (put E x None ++ [Some (KArray, [])]) else None
      | _ => None
      end
  | TNeg x => match var E x with Some (KArray, _) => Some (E ++ [Some (KArray, [])]) | _ => None end
  | TBin _ x y _ =>
      match var E x, var E y with
      | Some (KArray, _), Some (KArray, _) => Some (E ++ [Some (KArray, [])])
      | _, _ => None
      end
  | TInto x =>
      match var E x with
      | Some (KArray, _) => if unborrowed E x then Some (put E x None ++ [Some (KVec, [])]) else None
      | _ => None
      end
  | TRead x => match var E x with Some _ => Some E | None => None end
  | TBackward x => match var E x with Some (KArray, _) => Some E | _ => None end
  | TDrop x =>
      match var E x with
      | Some _ => if unborrowed E x then Some (put E x None) else None
      | None => None
      end
  end.

Fixpoint tensor_checks (extra : typing -> tinstr -> bool) (E : typing) (p : list tinstr) : bool :=
  match p with
  | [] => true
  | i :: p' =>
      extra E i && match tensor_tstep E i with Some E' => tensor_checks extra E' p' | None => false end
  end.

Definition tensor_accepted (p : list tinstr) : bool := tensor_checks (fun _ _ => true) [] p.
