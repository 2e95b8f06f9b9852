(** Random.v: model of uniform, randn and of randint for floating-point element types. *)
From Coq Require Import List Arith Lia Bool ZArith Floats.SpecFloat.
From Verif Require Import Base Layout Views Numeric.
Import ListNotations.
Open Scope res_scope.

Definition is_finite (x : spec_float) : bool :=
  match x with S754_zero _ | S754_finite _ _ _ => true | _ => false end.

(** Uniform::new(low, high) of the rand crate (0.8.5, not part of /repo): it panics unless both
    ends are finite, low < high, and high - low is finite. *)
Definition uniform_new (f : fmt) (low high : spec_float) : res unit :=
  _ <- guard (vltb low high) ;; guard (is_finite (fsub f high low)).

(** uniform: src/common/random.rs 72-86.  [samples] are the values drawn by the sampler, one for
    every element; NumCast::from of a float is a conversion that rounds and never fails. *)
Definition nd_uniform (f : fmt) (h : heap spec_float) (sh : list nat) (low high : spec_float)
  (samples : list spec_float) : res (heap spec_float * arr) :=
  _ <- uniform_new f low high ;;
  Ok (from_buffer h sh (map (convert f) samples)).

(** randn: src/common/random.rs 19-34.  Normal::new(0.0, 1.0) is a sampler of f64; each sample is
    converted to the element type. *)
Definition nd_randn (f : fmt) (h : heap spec_float) (sh : list nat) (samples : list spec_float)
  : res (heap spec_float * arr) :=
  Ok (from_buffer h sh (map (convert f) samples)).

(** Float::round, and the conversion of the result to its own type: src/common/random.rs 110.
    The sign of a zero is that of the argument. *)
Definition round_float (f : fmt) (x : spec_float) : spec_float :=
  match x with
  | S754_finite s _ _ =>
      match round_Z x with
      | Some 0%Z => S754_zero s
      | Some r => of_Z f r
      | None => x
      end
  | _ => x
  end.

(** randint for f32 and f64: src/common/random.rs 98-114.  The bounds pass through to_float,
    which for f64 rounds them to f32 first (src/util/dtype.rs 52-54). *)
Definition nd_randint_float (f : fmt) (h : heap spec_float) (sh : list nat) (low high : spec_float)
  (samples : list spec_float) : res (heap spec_float * arr) :=
  _ <- guard (vltb low high) ;;
  let N := float_type f in
  _ <- uniform_new f (to_float N low) (to_float N high) ;;
  Ok (from_buffer h sh (map (round_float f) samples)).
