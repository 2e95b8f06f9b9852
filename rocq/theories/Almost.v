(** Almost.v: model of the assert_almost_eq! macro. *)
From Coq Require Import List Arith Bool.
From Verif Require Import Base Layout Views Kernels Access Reduce.
Import ListNotations.
Open Scope res_scope.

Section Almost.
  Context {T : Type}.
  (** subtraction of the element type, its comparisons, its least value and the initial value
      of new buffers; [far x] is (x as f64).abs() > tol *)
  Variables (sub : T -> T -> res T) (ltb eqb : T -> T -> bool) (min_value dflt : T) (far : T -> bool).

  (** flatiter().next().unwrap(): src/ndarray/iterator/flat_iterator.rs 18-22 *)
  Definition first_element (h : heap T) (a : arr) : res T :=
    is <- fig_list (a_shape a) (a_stride a) ;;
    match is with [] => Panic | i :: _ => ld h (padd (a_ptr a) i) end.

  (** assert_almost_eq!(left, right, tol): src/macros.rs 149-154.  The macro names its operands
      twice; here they are evaluated once. *)
  Definition assert_almost_eq (h : heap T) (a b : arr) : res unit :=
    d <- nd_binary sub dflt h a b ;;
    m <- nd_reduce (partial_max ltb) min_value (fst d) (snd d) ;;
    x <- first_element (fst m) (snd m) ;;
    if far x then e <- nd_eq eqb h a b ;; (if (e : bool) then Ok tt else Panic) else Ok tt.
End Almost.
