(** Numeric.v: model of the numeric constructors (arange, linspace, randint) with
    the floating-point arithmetic they use.  Floating point is the axiom-free
    [SpecFloat] of the standard library: round to nearest, ties to even. *)
From Coq Require Import List Arith Lia Bool ZArith Floats.SpecFloat.
From Verif Require Import Base Layout Views.
Import ListNotations.
Open Scope res_scope.

(** A binary format: number of mantissa bits and exponent of the infinities. *)
Record fmt := mkFmt { prec : Z; emax : Z }.
Definition f32 : fmt := mkFmt 24 128.
Definition f64 : fmt := mkFmt 53 1024.

(** `v as f32`, `v as f64` for an integer v *)
Definition of_Z (f : fmt) (v : Z) : spec_float := binary_normalize (prec f) (emax f) v 0 false.

(** `x as f32` for an f64 x, and the lossless conversion f32 -> f64 *)
Definition convert (f : fmt) (x : spec_float) : spec_float :=
  match x with
  | S754_finite s m e => binary_round (prec f) (emax f) s m e
  | _ => x
  end.

Definition fadd (f : fmt) := SFadd (prec f) (emax f).
Definition fsub (f : fmt) := SFsub (prec f) (emax f).
Definition fmul (f : fmt) := SFmul (prec f) (emax f).
Definition fdiv (f : fmt) := SFdiv (prec f) (emax f).

(** The operations of NumericDataType used by the constructors,
    src/util/dtype.rs 45-63.  [n_float] is AsFloatType. *)
Record ntype (T : Type) := mkNtype {
  n_sub : T -> T -> res T;
  n_mul : T -> T -> res T;
  n_add : T -> T -> res T;
  n_one : T;
  n_of_usize : nat -> res T;        (* NumCast::from(i).unwrap() *)
  n_to_f32 : T -> spec_float;       (* ToPrimitive::to_f32().unwrap() *)
  n_float : fmt }.
Arguments n_sub {T}. Arguments n_mul {T}. Arguments n_add {T}. Arguments n_one {T}.
Arguments n_of_usize {T}. Arguments n_to_f32 {T}. Arguments n_float {T}.

(** Integer types with values lo..hi.  Arithmetic is checked, as in a build with
    overflow checks. *)
Definition checked (lo hi v : Z) : res Z :=
  if ((lo <=? v) && (v <=? hi))%Z then Ok v else Panic.

Definition int_type (lo hi : Z) (f : fmt) : ntype Z :=
  mkNtype Z (fun x y => checked lo hi (x - y)) (fun x y => checked lo hi (x * y))
    (fun x y => checked lo hi (x + y)) 1%Z (fun i => checked lo hi (Z.of_nat i))
    (of_Z f32) f.

(** src/util/dtype.rs 65-111 *)
Definition u8 := int_type 0 255 f32.
Definition i8 := int_type (-128) 127 f32.
Definition u32 := int_type 0 (2 ^ 32 - 1) f32.
Definition i32 := int_type (- 2 ^ 31) (2 ^ 31 - 1) f32.
Definition u64 := int_type 0 (2 ^ 64 - 1) f64.
Definition i64 := int_type (- 2 ^ 63) (2 ^ 63 - 1) f64.

(** f32 and f64, src/util/dtype.rs 113-135.  to_f32 of an f64 rounds. *)
Definition float_type (f : fmt) : ntype spec_float :=
  mkNtype spec_float (fun x y => Ok (fsub f x y)) (fun x y => Ok (fmul f x y))
    (fun x y => Ok (fadd f x y)) (of_Z f 1) (fun i => Ok (of_Z f (Z.of_nat i)))
    (convert f32) f.

(** to_float: src/util/dtype.rs 52-54.  Always goes through f32. *)
Definition to_float {T} (N : ntype T) (x : T) : spec_float :=
  convert (n_float N) (n_to_f32 N x).

(** the integer above a finite value m * 2^e *)
Definition ceil_Z (m e : Z) : Z :=
  if (0 <=? e)%Z then (m * 2 ^ e)%Z else (- ((- m) / 2 ^ (- e)))%Z.

(** .ceil() followed by NumCast::from(_).unwrap() to usize:
    src/common/constructors.rs 182-183.  ceil is exact, so the two are merged;
    the conversion fails for NaN, infinities and values outside 0..2^64. *)
Definition ceil_usize (x : spec_float) : res Z :=
  match x with
  | S754_zero _ => Ok 0%Z
  | S754_finite s m e =>
      let c := ceil_Z (if s then Zneg m else Zpos m) e in
      if ((0 <=? c) && (c <? 2 ^ 64))%Z then Ok c else Panic
  | _ => Panic
  end.

(** the number of items: src/common/constructors.rs 182-183 *)
Definition arange_count {T} (N : ntype T) (start stop step : T) : res Z :=
  d <- n_sub N stop start ;;
  ceil_usize (fdiv (n_float N) (to_float N d) (to_float N step)).

(** one item: src/common/constructors.rs 186-188 *)
Definition arange_item {T} (N : ntype T) (start step : T) (i : nat) : res T :=
  k <- n_of_usize N i ;; p <- n_mul N k step ;; n_add N p start.

(** the buffer built by arange_with_step: src/common/constructors.rs 178-191.
    Not modelled: failure to allocate n items. *)
Definition arange_data {T} (N : ntype T) (start stop step : T) : res (list T) :=
  n <- arange_count N start stop step ;;
  mapM (arange_item N start step) (seq 0 (Z.to_nat n)).

Definition nd_arange_with_step {T} (N : ntype T) (h : heap T) (start stop step : T)
  : res (heap T * arr) :=
  data <- arange_data N start stop step ;; Ok (from_buffer h [length data] data).

(** arange: src/common/constructors.rs 157-162 *)
Definition nd_arange {T} (N : ntype T) (h : heap T) (start stop : T) : res (heap T * arr) :=
  nd_arange_with_step N h start stop (n_one N).

(** linspace: src/common/constructors.rs 213-227; the element type is a float. *)
Definition linspace_data (f : fmt) (start stop : spec_float) (num : nat) : res (list spec_float) :=
  _ <- guard (0 <? num) ;;
  if num =? 1 then Ok [start]
  else
    let step := fdiv f (fsub f stop start) (fsub f (of_Z f (Z.of_nat num)) (of_Z f 1)) in
    arange_data (float_type f) start (fadd f stop step) step.

Definition nd_linspace (f : fmt) (h : heap spec_float) (start stop : spec_float) (num : nat)
  : res (heap spec_float * arr) :=
  data <- linspace_data f start stop num ;; Ok (from_buffer h [length data] data).

(** linspace_exclusive: src/common/constructors.rs 249-261 *)
Definition linspace_exclusive_data (f : fmt) (start stop : spec_float) (num : nat)
  : res (list spec_float) :=
  _ <- guard (0 <? num) ;;
  if num =? 1 then Ok [start]
  else
    let step := fdiv f (fsub f stop start) (of_Z f (Z.of_nat num)) in
    arange_data (float_type f) start stop step.

Definition nd_linspace_exclusive (f : fmt) (h : heap spec_float) (start stop : spec_float)
  (num : nat) : res (heap spec_float * arr) :=
  data <- linspace_exclusive_data f start stop num ;; Ok (from_buffer h [length data] data).

(** round half away from zero, as an integer: Float::round *)
Definition round_Z (x : spec_float) : option Z :=
  match x with
  | S754_zero _ => Some 0%Z
  | S754_finite s m e =>
      let r := if (0 <=? e)%Z then (Zpos m * 2 ^ e)%Z
               else ((Zpos m * 2 + 2 ^ (- e)) / (2 * 2 ^ (- e)))%Z in
      Some (if s then (- r)%Z else r)
  | _ => None
  end.

(** mantissa and exponent of a finite value *)
Definition sval (x : spec_float) : option (Z * Z) :=
  match x with
  | S754_zero _ => Some (0, 0)%Z
  | S754_finite s m e => Some (if s then Zneg m else Zpos m, e)
  | _ => None
  end.

(** x < y and x <= y for finite values *)
Definition vcmp (x y : spec_float) : option comparison :=
  match sval x, sval y with
  | Some (m1, e1), Some (m2, e2) =>
      let e := Z.min e1 e2 in Some (m1 * 2 ^ (e1 - e) ?= m2 * 2 ^ (e2 - e))%Z
  | _, _ => None
  end.

Definition vltb (x y : spec_float) : bool :=
  match vcmp x y with Some Lt => true | _ => false end.
Definition vleb (x y : spec_float) : bool :=
  match vcmp x y with Some Lt | Some Eq => true | _ => false end.

(** Uniform::new(low, high) of the rand crate panics unless low < high are finite; a
    sample is some float x with low <= x < high. *)
Definition drawn (low high x : spec_float) : bool := vleb low x && vltb x high.

(** randint for integer types: src/common/random.rs 98-114.  [samples] are the values
    drawn, one for every element. *)
Definition randint_item (lo hi : Z) (x : spec_float) : res Z :=
  match round_Z x with Some r => checked lo hi r | None => Panic end.

Definition nd_randint (lo hi : Z) (f : fmt) (h : heap Z) (sh : list nat) (low high : Z)
  (samples : list spec_float) : res (heap Z * arr) :=
  _ <- guard (low <? high)%Z ;;
  let N := int_type lo hi f in
  _ <- guard (vltb (to_float N low) (to_float N high)) ;;
  data <- mapM (randint_item lo hi) samples ;;
  Ok (from_buffer h sh data).

(** rand: src/common/random.rs 46-60.  Uniform::new(0.0, 1.0) is a sampler of f64, whose
    samples are the multiples k / 2^52 with k < 2^52; each is converted to the element
    type. *)
Definition rand_item (f : fmt) (k : Z) : spec_float := convert f (binary_normalize 53 1024 k (-52) false).

Definition nd_rand (f : fmt) (h : heap spec_float) (sh : list nat) (samples : list Z)
  : res (heap spec_float * arr) :=
  Ok (from_buffer h sh (map (rand_item f) samples)).
