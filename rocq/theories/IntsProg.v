(** IntsProg.v: programs on arrays of integers, executed with the arithmetic of one build
    profile.  No function of the library is modelled here. *)
From Coq Require Import List Arith Lia Bool ZArith.
From Verif Require Import Base Layout Views Kernels Access Reduce Einsum Numeric Prog Ints.
Import ListNotations.
Open Scope res_scope.

(** the operations on elements *)
Record arith := mkArith {
  r_add : Z -> Z -> res Z; r_sub : Z -> Z -> res Z; r_mul : Z -> Z -> res Z;
  r_fma : Z -> Z -> Z -> res Z; r_neg : Z -> res Z; r_abs : Z -> res Z }.

(** the arithmetic of the type with values lo..hi in a build with profile p *)
Definition type_arith (p : profile) (lo hi : Z) : arith :=
  mkArith (iadd p lo hi) (isub p lo hi) (imul p lo hi) (ifma p lo hi) (ineg p lo hi) (iabs p lo hi).
(** exact arithmetic *)
Definition exact_arith : arith :=
  mkArith (fun x y => Ok (x + y)%Z) (fun x y => Ok (x - y)%Z) (fun x y => Ok (x * y)%Z) (fun x y z => Ok (x * y + z)%Z) (fun x => Ok (- x)%Z) (fun x => Ok (Z.abs x)).

Inductive iop := OAdd | OSub | OMul.
Definition op_of (A : arith) (o : iop) : Z -> Z -> res Z := match o with OAdd => r_add A | OSub => r_sub A | OMul => r_mul A end.

(** [IPlain c]: any command of Prog.v that does not use the arithmetic of the type: creation,
    views, indexing, reading, comparison, fill, max, min *)
Inductive icmd :=
| IPlain (c : @cmd Z)
| IBinary (o : iop) (k1 k2 : nat)
| IScalarOp (o : iop) (k : nat) (c : Z)
| INeg (k : nat)
| IAssign (o : iop) (k1 k2 : nat)
| IAssignScalar (o : iop) (k : nat) (c : Z)
| ISum (k : nat) | IProduct (k : nat) | IMaxMagnitude (k : nat) | IMinMagnitude (k : nat)
| ISumAlong (k : nat) (axes : list Z) | IProductAlong (k : nat) (axes : list Z)
| IMaxMagnitudeAlong (k : nat) (axes : list Z) | IMinMagnitudeAlong (k : nat) (axes : list Z)
| ITrace (k : nat) (o i j : Z)
| IDot (k1 k2 : nat) | IMatmul (k1 k2 : nat) | IBmm (k1 k2 : nat)
| IEinsum (ks : list nat) (subs : list (list Z)) (out : list Z).

Section Run.
  Variables lo hi : Z.
  Variable A : arith.
  Definition plain (c : @cmd Z) (s : @state Z) : res (@state Z) := exec 0%Z 1%Z Z.add Z.mul Z.eqb c s.
  Definition iexec (c : icmd) (s : @state Z) : res (@state Z) :=
    let h := s_heap s in
    match c with
    | IPlain c => plain c s
    | IBinary o k1 k2 => plain (CBinary (op_of A o) k1 k2) s
    | IScalarOp o k c => plain (CScalarOp (op_of A o) k c) s
    | INeg k => plain (CUnary (r_neg A) k) s
    | IAssign o k1 k2 => plain (CAssign (op_of A o) k1 k2) s
    | IAssignScalar o k c => plain (CAssignScalar (op_of A o) k c) s
    | ISum k => plain (CReduce (fun x acc => r_add A acc x) 0%Z k) s
    | IProduct k => plain (CReduce (fun x acc => r_mul A acc x) 1%Z k) s
    | IMaxMagnitude k => plain (CReduce (partial_max_magnitude Z.ltb (r_abs A)) lo k) s
    | IMinMagnitude k => plain (CReduce (partial_min_magnitude Z.ltb (r_abs A)) hi k) s
    | ISumAlong k axes => plain (CReduceAlong (fun x acc => r_add A acc x) 0%Z k axes) s
    | IProductAlong k axes => plain (CReduceAlong (fun x acc => r_mul A acc x) 1%Z k axes) s
    | IMaxMagnitudeAlong k axes => plain (CReduceAlong (partial_max_magnitude Z.ltb (r_abs A)) 0%Z k axes) s
    | IMinMagnitudeAlong k axes => plain (CReduceAlong (partial_min_magnitude Z.ltb (r_abs A)) hi k axes) s
    | ITrace k o i j => plain (CTrace (r_add A) k o i j) s
    | IDot k1 k2 => a <- nth_arr s k1 ;; b <- nth_arr s k2 ;; made s (nd_dot 0%Z (r_add A) (r_mul A) h (fst a) (fst b))
    | IMatmul k1 k2 => a <- nth_arr s k1 ;; b <- nth_arr s k2 ;; made s (nd_matmul 0%Z 1%Z (r_add A) (r_mul A) (r_fma A) h (fst a) (fst b))
    | IBmm k1 k2 => a <- nth_arr s k1 ;; b <- nth_arr s k2 ;; made s (nd_bmm 0%Z 1%Z (r_add A) (r_mul A) (r_fma A) h (fst a) (fst b))
    | IEinsum ks subs out => l <- mapM (nth_arr s) ks ;; made s (nd_einsum 0%Z 1%Z (r_add A) (r_mul A) (r_fma A) h (map fst l) subs out)
    end.
  Fixpoint iexec_all (cs : list icmd) (s : @state Z) : res (@state Z) :=
    match cs with [] => Ok s | c :: cs' => s' <- iexec c s ;; iexec_all cs' s' end.
End Run.
