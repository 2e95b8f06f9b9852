(** Ints.v: the integer element types (u8 .. u128, usize, i8 .. i128, isize) in builds with
    and without overflow checks. *)
From Coq Require Import List Arith Lia Bool ZArith.
From Verif Require Import Base Layout Views Kernels Access Reduce Einsum Numeric.
Import ListNotations.
Open Scope res_scope.
Local Open Scope Z_scope.

(** Cargo.toml [profile.release] overflow-checks = false; the dev profile has them *)
Inductive profile := Checks | NoChecks.

(** the value of the type that is congruent to v *)
Definition wrap (lo hi v : Z) : Z := lo + (v - lo) mod (hi - lo + 1).

Section Ints.
  Variable p : profile.
  (** smallest and largest value of the type *)
  Variables lo hi : Z.

  (** the result of a built-in + - * or unary minus whose exact value is v *)
  Definition imk (v : Z) : res Z := match p with Checks => checked lo hi v | NoChecks => Ok (wrap lo hi v) end.
  Definition iadd (x y : Z) : res Z := imk (x + y).
  Definition isub (x y : Z) : res Z := imk (x - y).
  Definition imul (x y : Z) : res Z := imk (x * y).
  Definition ineg (x : Z) : res Z := imk (- x).
  (** num::traits::MulAdd for integers is (self * a) + b *)
  Definition ifma (x y z : Z) : res Z := t <- imul x y ;; iadd t z.
  (** src/util/absolute.rs 14-48: num::Signed::abs is if x < 0 { -x } else { x }; the
      unsigned types (7-12) return the value itself *)
  Definition iabs (x : Z) : res Z := if x <? 0 then ineg x else Ok x.

  (** NdArray::sum, product, max, min and the magnitude variants on integers: the generic
      kernels of src/ops/reduce_*.rs (impl<T: IntegerDataType> ... for T {}) *)
  Definition int_sum := nd_reduce (fun x acc => iadd acc x) 0.
  Definition int_product := nd_reduce (fun x acc => imul acc x) 1.
  Definition int_max_magnitude := nd_reduce (partial_max_magnitude Z.ltb iabs) lo.
  Definition int_min_magnitude := nd_reduce (partial_min_magnitude Z.ltb iabs) hi.
  Definition int_sum_along := nd_reduce_along (fun x acc => iadd acc x) 0.
  Definition int_product_along := nd_reduce_along (fun x acc => imul acc x) 1.
  Definition int_trace := nd_trace 0 iadd.
  Definition int_dot := nd_dot 0 iadd imul.
  Definition int_matmul := nd_matmul 0 1 iadd imul ifma.
  Definition int_bmm := nd_bmm 0 1 iadd imul ifma.
  Definition int_einsum := nd_einsum 0 1 iadd imul ifma.
  Definition int_add := nd_binary iadd 0.
  Definition int_sub := nd_binary isub 0.
  Definition int_mul := nd_binary imul 0.
  Definition int_add_scalar := nd_scalar_op iadd 0.
  Definition int_sub_scalar := nd_scalar_op isub 0.
  Definition int_mul_scalar := nd_scalar_op imul 0.
  Definition int_neg := nd_unary ineg 0.
  Definition int_add_assign := nd_assign iadd.
  Definition int_sub_assign := nd_assign isub.
  Definition int_mul_assign := nd_assign imul.
  Definition int_add_assign_scalar := nd_assign_scalar iadd.
  Definition int_sub_assign_scalar := nd_assign_scalar isub.
  Definition int_mul_assign_scalar := nd_assign_scalar imul.
End Ints.
