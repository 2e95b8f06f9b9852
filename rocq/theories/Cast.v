(** Cast.v: model of astype with the conversions between the numeric element types. *)
From Coq Require Import List Arith Lia Bool ZArith Floats.SpecFloat.
From Verif Require Import Base Layout Views Access Numeric.
Import ListNotations.
Open Scope res_scope.

(** The element types of NumericDataType, src/util/dtype.rs 45-135: the integers lo..hi, and the
    two floating-point formats. *)
Inductive dtype := IntT (lo hi : Z) | FloatT (f : fmt).
Definition carrier (t : dtype) : Type := match t with IntT _ _ => Z | FloatT _ => spec_float end.

Definition unsigned (bits : Z) : dtype := IntT 0 (2 ^ bits - 1).
Definition signed_t (bits : Z) : dtype := IntT (- 2 ^ (bits - 1)) (2 ^ (bits - 1) - 1).

(** src/util/dtype.rs 65-135; usize and isize have 64 bits *)
Definition dtypes : list dtype :=
  [unsigned 8; unsigned 16; unsigned 32; unsigned 64; unsigned 128; unsigned 64;
   signed_t 8; signed_t 16; signed_t 32; signed_t 64; signed_t 128; signed_t 64;
   FloatT f32; FloatT f64].

(** a finite float without its fraction *)
Definition trunc_Z (m e : Z) : Z := if (0 <=? e)%Z then (m * 2 ^ e)%Z else Z.quot m (2 ^ (- e)).

(** NumCast::from of the num crate, called in src/ndarray/astype.rs 12; its expect turns None
    into a panic.  The crate is not part of /repo; this is its documented behaviour: an integer is
    converted when it fits, a float when its integer part fits, and conversion to a float
    rounds to nearest and never fails. *)
Definition cast (s d : dtype) : carrier s -> res (carrier d) :=
  match s, d with
  | IntT _ _, IntT lo hi => fun x => checked lo hi x
  | IntT _ _, FloatT f => fun x => Ok (of_Z f x)
  | FloatT _, IntT lo hi => fun x =>
      match x with
      | S754_zero _ => checked lo hi 0
      | S754_finite sg m e => checked lo hi (trunc_Z (if sg then Zneg m else Zpos m) e)
      | _ => Panic
      end
  | FloatT _, FloatT f => fun x => Ok (convert f x)
  end.

(** astype: src/ndarray/astype.rs 7-16 *)
Definition nd_cast (s d : dtype) (h : heap (carrier s)) (hF : heap (carrier d)) (a : arr) : res (heap (carrier d) * arr) :=
  nd_astype (cast s d) h hF a.
