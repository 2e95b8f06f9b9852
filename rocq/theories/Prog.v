(** Prog.v: programs made of the modelled operations, executed one after the other on one
    memory.  No function of the library is modelled here; each command runs the model of one
    function. *)
From Coq Require Import List Arith Lia Bool ZArith.
From Verif Require Import Base Layout Views Kernels Access Reduce Einsum Nested PropsEinsum.
Import ListNotations.
Open Scope res_scope.

(** A program creates arrays, takes views, and runs array operations in any
    order on the arrays made so far; arrays are never freed (C39 treats freeing).  Every array
    carries a mark telling whether a broadcast_to occurs in its history; the code does not look
    at it. *)

(** operations that return a view *)
Inductive vop :=
| VView (m : mode) | VReshape (m : mode) (sh : list nat) | VTranspose (m : mode) (i j : Z) | VSqueeze (m : mode) | VUnsqueeze (m : mode) (i : Z)
| VSlice (ixs : list indexer) | VSliceAlong (i : Z) (ix : indexer) | VDiagonal (o i j : Z) | VEinsum (sub out : list Z) | VBroadcast (sh : list nat).

Definition view_by (o : vop) (a : arr) : res (option arr) :=
  match o with
  | VView m => Ok (Some (nd_view m a))
  | VReshape m sh => r <- nd_reshape m a sh ;; Ok (Some r)
  | VTranspose m i j => r <- nd_transpose m a i j ;; Ok (Some r)
  | VSqueeze m => Ok (Some (nd_squeeze m a))
  | VUnsqueeze m i => r <- nd_unsqueeze m a i ;; Ok (Some r)
  | VSlice ixs => r <- nd_slice a ixs ;; Ok (Some r)
  | VSliceAlong i ix => r <- nd_slice_along a i ix ;; Ok (Some r)
  | VDiagonal o i j => r <- nd_offset_diagonal_along a o i j ;; Ok (Some r)
  | VEinsum sub out => einsum_view a sub out
  | VBroadcast sh => r <- nd_broadcast_to a sh ;; Ok (Some r)
  end.

Definition marks (o : vop) : bool := match o with VBroadcast _ => true | _ => false end.

Section Prog.
  Context {T : Type}.
  Variable zero one : T.
  Variable add mul : T -> T -> T.
  Variable eqb : T -> T -> bool.

  (** operations that store to memory or allocate; [f] and [g] are arbitrary and may panic *)
  Inductive cmd :=
  | CNew (ks : list kind) (d : nest T)
  | CFull (x : T) (sh : list nat)
  | CView (o : vop) (k : nat)
  | CBinary (f : T -> T -> res T) (k1 k2 : nat)
  | CScalarOp (f : T -> T -> res T) (k : nat) (c : T)
  | CUnary (g : T -> res T) (k : nat)
  | CAssign (f : T -> T -> res T) (k1 k2 : nat)
  | CAssignScalar (f : T -> T -> res T) (k : nat) (c : T)
  | CFill (k : nat) (v : T)
  | CIndex (k : nat) (idx : list nat)
  | CIndexSet (k : nat) (idx : list nat) (v : T)
  | CValue (k : nat)
  | CDataSlice (k : nat)
  | CFlatiter (k : nat)
  | CEqual (k1 k2 : nat)
  | CClone (k : nat)
  | CFlatten (k : nat)
  | CReduce (g : T -> T -> res T) (start : T) (k : nat)
  | CReduceAlong (g : T -> T -> res T) (start : T) (k : nat) (axes : list Z)
  | CTrace (g : T -> T -> res T) (k : nat) (o i j : Z)
  | CDot (k1 k2 : nat)
  | CMatmul (k1 k2 : nat)
  | CBmm (k1 k2 : nat)
  | CEinsum (ks : list nat) (subs : list (list Z)) (out : list Z).

  (** what a program learns from the arrays *)
  Inductive obs := OVals (l : list T) | OBool (b : bool).

  Record state := mkState { s_heap : heap T; s_env : list (arr * bool); s_out : list obs }.

  Definition nth_arr (s : state) (k : nat) : res (arr * bool) := match nth_error (s_env s) k with Some p => Ok p | None => Panic end.
  Definition made (s : state) (p : res (heap T * arr)) : res state := r <- p ;; Ok (mkState (fst r) (s_env s ++ [(snd r, false)]) (s_out s)).
  Definition stored (s : state) (p : res (heap T)) : res state := h <- p ;; Ok (mkState h (s_env s) (s_out s)).
  Definition only_read {A} (show : A -> obs) (s : state) (p : res A) : res state :=
    x <- p ;; Ok (mkState (s_heap s) (s_env s) (s_out s ++ [show x])).

  Definition exec (c : cmd) (s : state) : res state :=
    let h := s_heap s in
    match c with
    | CNew ks d => made s (nd_new h ks d)
    | CFull x sh => made s (nd_full h x sh)
    | CView o k => p <- nth_arr s k ;; r <- view_by o (fst p) ;;
        match r with Some r => Ok (mkState h (s_env s ++ [(r, snd p || marks o)]) (s_out s)) | None => Ok s end
    | CBinary f k1 k2 => a <- nth_arr s k1 ;; b <- nth_arr s k2 ;; made s (nd_binary f zero h (fst a) (fst b))
    | CScalarOp f k c => a <- nth_arr s k ;; made s (nd_scalar_op f zero h (fst a) c)
    | CUnary g k => a <- nth_arr s k ;; made s (nd_unary g zero h (fst a))
    | CAssign f k1 k2 => a <- nth_arr s k1 ;; b <- nth_arr s k2 ;; stored s (nd_assign f h (fst a) (fst b))
    | CAssignScalar f k c => a <- nth_arr s k ;; stored s (nd_assign_scalar f h (fst a) c)
    | CFill k v => a <- nth_arr s k ;; stored s (nd_fill h (fst a) v)
    | CIndex k idx => a <- nth_arr s k ;; only_read (fun v => OVals [v]) s (nd_index h (fst a) idx)
    | CIndexSet k idx v => a <- nth_arr s k ;; stored s (nd_index_set h (fst a) idx v)
    | CValue k => a <- nth_arr s k ;; only_read (fun v => OVals [v]) s (nd_value h (fst a))
    | CDataSlice k => a <- nth_arr s k ;; only_read OVals s (nd_data_slice h (fst a))
    | CFlatiter k => a <- nth_arr s k ;; only_read OVals s (nd_flatiter h (fst a))
    | CEqual k1 k2 => a <- nth_arr s k1 ;; b <- nth_arr s k2 ;; only_read OBool s (nd_eq eqb h (fst a) (fst b))
    | CClone k => a <- nth_arr s k ;; made s (nd_clone h (fst a))
    | CFlatten k => a <- nth_arr s k ;; made s (nd_flatten h (fst a))
    | CReduce g d k => a <- nth_arr s k ;; made s (nd_reduce g d h (fst a))
    | CReduceAlong g d k axes => a <- nth_arr s k ;; made s (nd_reduce_along g d h (fst a) axes)
    | CTrace g k o i j => a <- nth_arr s k ;; made s (nd_trace zero g h (fst a) o i j)
    | CDot k1 k2 => a <- nth_arr s k1 ;; b <- nth_arr s k2 ;; made s (nd_dot zero (okadd add) (okadd mul) h (fst a) (fst b))
    | CMatmul k1 k2 => a <- nth_arr s k1 ;; b <- nth_arr s k2 ;; made s (nd_matmul zero one (okadd add) (okadd mul) (okfma add mul) h (fst a) (fst b))
    | CBmm k1 k2 => a <- nth_arr s k1 ;; b <- nth_arr s k2 ;; made s (nd_bmm zero one (okadd add) (okadd mul) (okfma add mul) h (fst a) (fst b))
    | CEinsum ks subs out => l <- mapM (nth_arr s) ks ;; made s (nd_einsum zero one (okadd add) (okadd mul) (okfma add mul) h (map fst l) subs out)
    end.

  Fixpoint exec_all (cs : list cmd) (s : state) : res state :=
    match cs with [] => Ok s | c :: cs' => s' <- exec c s ;; exec_all cs' s' end.

End Prog.
