(** SpecCert.v: numbers that carry a bound on their rounding error, for C84.  A certified number
    is an exact rational and a bound on the distance of a float from it, or no bound.  The rules
    are those of running error analysis: the errors of the operands, carried through the exact
    operation, plus one rounding.  No function of the library is modelled here. *)
From Coq Require Import List Bool ZArith QArith Qcanon Qabs Qpower Qround Floats.SpecFloat.
From Verif Require Import Base Numeric SpecGrad.
Close Scope Qc_scope.
Open Scope Q_scope.

Record cert := mkCert { c_val : Qc; c_err : option Q }.

Section Cert.
  Variable f : fmt.
  (** one rounding changes a number by at most the fraction 2^-prec, and below the normal range
      by at most half the smallest positive float; a number below [limit] does not overflow *)
  Definition unit_roundoff : Q := 2 ^ (- prec f).
  Definition half_least : Q := 2 ^ (2 - emax f - prec f).
  Definition limit : Q := 2 ^ emax f * (1 - 2 ^ (- prec f - 1)).

  (** bounds are kept as multiples of [half_least], rounded up, so that they stay short *)
  Definition coarse (e : Q) : Q := Qred (inject_Z (Qceiling (e / half_least)) * half_least).

  (** [v] has at most [prec] digits and is in range, so it is a float *)
  Definition fits (v : Qc) : bool :=
    let n := Qnum v in let j := Z.log2 (Zpos (Qden v)) in let t := Z.max 0 (Z.log2 (Z.abs n) + 1 - prec f) in
    ((Zpos (Qden v) =? 2 ^ j) && (n mod 2 ^ t =? 0) && (3 - emax f - prec f <=? t - j) && (Z.log2 (Z.abs n) - j <? emax f))%Z.

  (** the operands' errors move the exact result [v] by at most [w]; then it is rounded; exact
      operands and a result that is a float leave no error *)
  Definition rounded (v : Qc) (w slack : Q) : cert :=
    let m := Qabs v + w in
    mkCert v (if Qeq_bool w 0 && fits v then Some 0 else if Qle_bool limit m then None else Some (coarse (w + unit_roundoff * m + slack))).
  Definition lost (v : Qc) : cert := mkCert v None.

  Definition c_add (x y : cert) : cert :=
    match c_err x, c_err y with
    | Some a, Some b => rounded (c_val x + c_val y)%Qc (a + b) 0
    | _, _ => lost (c_val x + c_val y)%Qc
    end.
  Definition c_sub (x y : cert) : cert :=
    match c_err x, c_err y with
    | Some a, Some b => rounded (c_val x - c_val y)%Qc (a + b) 0
    | _, _ => lost (c_val x - c_val y)%Qc
    end.
  Definition c_mul (x y : cert) : cert :=
    match c_err x, c_err y with
    | Some a, Some b => rounded (c_val x * c_val y)%Qc (Qabs (c_val x) * b + Qabs (c_val y) * a + a * b) half_least
    | _, _ => lost (c_val x * c_val y)%Qc
    end.
  (** the divisor is away from zero *)
  Definition c_div (x y : cert) : cert :=
    match c_err x, c_err y with
    | Some a, Some b =>
        if Qle_bool (Qabs (c_val y)) b then lost (c_val x / c_val y)%Qc
        else rounded (c_val x / c_val y)%Qc ((a * Qabs (c_val y) + Qabs (c_val x) * b) / ((Qabs (c_val y) - b) * Qabs (c_val y))) half_least
    | _, _ => lost (c_val x / c_val y)%Qc
    end.
  (** x * y + z rounded once *)
  Definition c_fma (x y z : cert) : cert :=
    match c_err x, c_err y, c_err z with
    | Some a, Some b, Some c =>
        rounded (c_val x * c_val y + c_val z)%Qc (Qabs (c_val x) * b + Qabs (c_val y) * a + a * b + c) half_least
    | _, _, _ => lost (c_val x * c_val y + c_val z)%Qc
    end.
  Definition c_neg (x : cert) : cert := mkCert (- c_val x)%Qc (c_err x).
  Definition c_exact (q : Qc) : cert := mkCert q (Some 0).
  Definition cert_num : num cert := mkNum (c_exact 0%Qc) (c_exact 1%Qc) c_add c_sub c_mul c_div c_neg.
End Cert.
