(** Reduce.v: model of the reductions. *)
From Coq Require Import List Arith Lia Bool ZArith.
From Verif Require Import Base Layout Views Kernels Access.
Import ListNotations.
Open Scope res_scope.

(** the comparison-based element operations, src/util/partial_ord.rs 3-19.  [ltb] is
    partial_cmp == Some(Less); Greater is its converse.  abs may panic (i::MIN). *)
Section PartialOrd.
  Context {T : Type}.
  Variable ltb : T -> T -> bool.
  Variable abs : T -> res T.
  Definition partial_min (a b : T) : res T := Ok (if ltb a b then a else b).
  Definition partial_max (a b : T) : res T := Ok (if ltb b a then a else b).
  Definition partial_min_magnitude (val acc : T) : res T :=
    v <- abs val ;; Ok (if ltb acc v then acc else v).
  Definition partial_max_magnitude (val acc : T) : res T :=
    v <- abs val ;; Ok (if ltb v acc then acc else v).
End PartialOrd.

Section Reduce.
  Context {T : Type}.
  (** g value accumulator: acc + val, acc * val, partial_max val acc, ... *)
  Variable g : T -> T -> res T.

  (** sum_uniform_stride: src/ops/reduce_sum.rs 21-30 (sum_contiguous, 13-15, is stride 1).
      reduce_product.rs 21-30, reduce_min.rs, reduce_max.rs, reduce_min_magnitude.rs and
      reduce_max_magnitude.rs have the same loop with their own g and start value. *)
  Fixpoint fold_run (h : heap T) (p : ptr) (count s : nat) (acc : T) : res T :=
    match count with
    | O => Ok acc
    | S c => x <- ld h p ;; acc' <- g x acc ;; fold_run h (padd p s) c s acc'
    end.

  (** the loop over a FlatIndexGenerator: reduce_sum.rs 51-55 *)
  Fixpoint fold_idx (h : heap T) (p : ptr) (is : list nat) (acc : T) : res T :=
    match is with
    | [] => Ok acc
    | i :: is' => x <- ld h (padd p i) ;; acc' <- g x acc ;; fold_idx h p is' acc'
    end.

  (** sum: reduce_sum.rs 42-56, and the other five kernels *)
  Definition k_reduce (dflt : T) (h : heap T) (p : ptr) (shape stride : list nat) : res T :=
    match has_uniform_stride shape stride with
    | Some s => if s =? 1 then fold_run h p (prod shape) 1 dflt else fold_run h p (prod shape) s dflt
    | None => is <- fig_list shape stride ;; fold_idx h p is dflt
    end.

  (** NdArray::sum, product, min, max, min_magnitude, max_magnitude:
      src/ndarray/reduce.rs 124-127, 143-146, 162-165, 181-184, 200-203, 219-222 *)
  Definition nd_reduce (dflt : T) (h : heap T) (a : arr) : res (heap T * arr) :=
    v <- k_reduce dflt h (a_ptr a) (a_shape a) (a_stride a) ;; nd_scalar h v.

  (** the axis mask: reduce.rs 26-35 *)
  Fixpoint mask_go (nd : nat) (axes : list Z) (mask : list bool) : res (list bool) :=
    match axes with
    | [] => Ok mask
    | ax :: axes' =>
        k <- as_absolute ax nd ;;
        b <- vget mask k ;;
        if b : bool then Panic else mask' <- vset mask k true ;; mask_go nd axes' mask'
    end.

  (** the loop from the last axis: reduce.rs 40-49; first component is [stride] *)
  Fixpoint rss_go (mask : list bool) (shape : list nat) : nat * list nat * list nat :=
    match mask, shape with
    | m :: mask', n :: sh' =>
        let '(s, nsh, nst) := rss_go mask' sh' in
        if m : bool then (s, nsh, 0 :: nst) else (s * n, n :: nsh, s :: nst)
    | _, _ => (1, [], [])
    end.

  (** reduced_shape_and_stride: reduce.rs 25-52; ndims - axes.len() (38) is checked *)
  Definition reduced_shape_and_stride (axes : list Z) (shape : list nat) : res (list nat * list nat) :=
    mask <- mask_go (length shape) axes (repeat false (length shape)) ;;
    _ <- csub (length shape) (length axes) ;;
    let '(_, nsh, nst) := rss_go mask shape in Ok (nsh, nst).

  (** the loop of reduce_along: reduce.rs 86-92; output is a local Vec written through
      a raw pointer, so an index outside it is [Oob]; unwrap of an exhausted generator
      panics *)
  Fixpoint along_go (h : heap T) (p : ptr) (is js : list nat) (out : list T) : res (list T) :=
    match is with
    | [] => Ok out
    | i :: is' =>
        el <- ld h (padd p i) ;;
        match js with
        | [] => Panic
        | j :: js' =>
            match nth_error out j with
            | None => Oob
            | Some old =>
                v <- g el old ;;
                match upd out j v with None => Oob | Some out' => along_go h p is' js' out' end
            end
        end
    end.

  (** reduce_along: reduce.rs 78-96 *)
  Definition nd_reduce_along (dflt : T) (h : heap T) (a : arr) (axes : list Z) : res (heap T * arr) :=
    r <- reduced_shape_and_stride axes (a_shape a) ;;
    let '(osh, mst) := r in
    let '(msh, mst') := collapse (a_shape a) mst in
    js <- fig_list msh mst' ;;
    is <- fig_list (a_shape a) (a_stride a) ;;
    out <- along_go h (a_ptr a) is js (repeat dflt (prod osh)) ;;
    Ok (from_buffer h osh out).
End Reduce.

Section Mean.
  Context {T : Type}.
  Variable add div : T -> T -> res T.
  (** NumCast::from(usize) into the float type, unwrapped *)
  Variable of_nat : nat -> res T.

  (** mean: reduce.rs 238-244.  [self.sum() / n] consumes the sum, which is dropped. *)
  Definition nd_mean (zero : T) (h : heap T) (a : arr) : res (heap T * arr) :=
    n <- of_nat (prod (a_shape a)) ;;
    r <- nd_reduce (fun v acc => add acc v) zero h a ;;
    let '(h1, s) := r in nd_scalar_op div zero h1 s n.

  (** the product of the aggregated axis lengths: reduce.rs 252-256 *)
  Fixpoint mean_count (shape : list nat) (axes : list Z) (n : nat) : res nat :=
    match axes with
    | [] => Ok n
    | ax :: axes' =>
        _ <- guard (0 <=? ax)%Z ;; d <- vget shape (Z.to_nat ax) ;; mean_count shape axes' (n * d)
    end.

  (** mean_along: reduce.rs 246-260 *)
  Definition nd_mean_along (zero : T) (h : heap T) (a : arr) (axes : list Z) : res (heap T * arr) :=
    c <- mean_count (a_shape a) axes 1 ;;
    n <- of_nat c ;;
    r <- nd_reduce_along (fun v acc => add acc v) zero h a axes ;;
    let '(h1, s) := r in nd_scalar_op div zero h1 s n.
End Mean.
