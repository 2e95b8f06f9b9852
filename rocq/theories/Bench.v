(** Bench.v: the programs timed in src/bin/binary_ops.rs and src/bin/reduce.rs, for any size and
    any data, on the portable kernels. *)
From Coq Require Import List Arith Bool ZArith.
From Verif Require Import Base Spec Layout Views Kernels Access Reduce.
Import ListNotations.
Open Scope res_scope.

(** `NdArray::<f32>::rand(shape).astype::<T>()` with T = f32: an array of the values drawn,
    converted to their own type into a second array *)
Definition drawn_array {T} (h : heap T) (sh : list nat) (d : list T) : res (heap T * arr) :=
  let '(h1, a) := from_buffer h sh d in nd_astype (fun x => Ok x) h1 h1 a.

(** the array, its first column, or its first two columns: slice_along(Axis(axis), 0) and
    slice_along(Axis(axis), 0..2) *)
Inductive part := Whole | Col | TwoCols.
Definition operand {T} (h : heap T) (sh : list nat) (axis : Z) (p : part) (d : list T) : res (heap T * arr) :=
  m <- drawn_array h sh d ;;
  let '(h1, a) := m in
  match p with
  | Whole => Ok (h1, a)
  | Col => r <- nd_slice_along a axis (IUsize 0) ;; Ok (h1, r)
  | TwoCols => r <- nd_slice_along a axis (IRange 0 2) ;; Ok (h1, r)
  end.

(** binary_ops0 .. binary_ops8: src/bin/binary_ops.rs 7-93, the operands of &tensor1 + &tensor2 *)
Definition binary_operands (k : nat) (i : nat) : (list nat * part) * (list nat * part) :=
  match i with
  | 0 => (([k], Whole), ([k], Whole))
  | 1 => (([k], Whole), ([1], Whole))
  | 2 => (([k; 3], Col), ([k], Whole))
  | 3 => (([k; 3], Col), ([1], Whole))
  | 4 => (([k; 3], TwoCols), ([k; 2], Whole))
  | 5 => (([k; 3], TwoCols), ([1], Whole))
  | 6 => (([k; 3], TwoCols), ([k; 2; 2], Col))
  | 7 => (([k; 3], TwoCols), ([k; 3], TwoCols))
  | _ => (([k; 3], Col), ([k; 3], Col))
  end.

Definition bench_binary {T} (add : T -> T -> T) (zero : T) (k i : nat) (d1 d2 : list T) : res (heap T * arr) :=
  let '((s1, p1), (s2, p2)) := binary_operands k i in
  m1 <- operand [] s1 (-1) p1 d1 ;; let '(h1, a) := m1 in
  m2 <- operand h1 s2 (-1) p2 d2 ;; let '(h2, b) := m2 in
  nd_binary (fun x y => Ok (add x y)) zero h2 a b.

(** reduce0 .. reduce23: src/bin/reduce.rs 11-97; the first digit says which part of which array,
    the second which reduction (given here by its operation and its start) *)
Definition reduce_operand (n : nat) (i : nat) : list nat * part :=
  match i with
  | 0 => ([n], Whole)
  | 1 => ([n; 2], Col)
  | _ => ([n; 3], TwoCols)
  end.

Definition bench_reduce {T} (op : T -> T -> T) (start : T) (n i : nat) (d : list T) : res (heap T * arr) :=
  let '(s, p) := reduce_operand n i in
  m <- operand [] s 1 p d ;; let '(h1, a) := m in
  nd_reduce (fun x acc => Ok (op acc x)) start h1 a.
