(** Word.v: the size arithmetic of constructors, reshape and indexing on machine words.  The
    other files compute sizes in nat; here additions and multiplications of [usize] are those
    of a build with overflow checks or of the release profile, which switches them off
    (Cargo.toml 34-35). *)
From Coq Require Import List Arith Bool.
From Verif Require Import Base Layout Views Kernels Access.
Import ListNotations.
Open Scope res_scope.

(** builds with [overflow-checks] on and off *)
Inductive build := Checked | Wrapping.

Section Word.
  (** number of values of [usize] *)
  Variable W : nat.
  Variable bld : build.

  Definition word (x : nat) : res nat :=
    match bld with
    | Checked => if x <? W then Ok x else Panic
    | Wrapping => Ok (x mod W)
    end.

  (** [shape.iter().product()]: a left fold starting from 1 *)
  Definition wprod_from (p : nat) (sh : list nat) : res nat :=
    fold_left (fun acc n => x <- acc ;; word (x * n)) sh (Ok p).
  Definition wprod (sh : list nat) : res nat := wprod_from 1 sh.

  (** the loops of stride_from_shape, src/ndarray/constructors.rs 40-44, and of reshape,
      src/common/reshape.rs 69-74: strides and the final value of the running product *)
  Fixpoint wstrides (acc : nat) (sh : list nat) : res (list nat * nat) :=
    match sh with
    | [] => Ok ([], acc)
    | n :: sh' => r <- wstrides acc sh' ;; p <- word (snd r * n) ;; Ok (snd r :: fst r, p)
    end.

  (** full: src/common/constructors.rs 69-76, with from_contiguous_owned_buffer,
      src/ndarray/constructors.rs 51-69 *)
  Definition wfull {T} (h : heap T) (x : T) (sh : list nat) : res (heap T * arr) :=
    n <- wprod sh ;;
    let data := repeat x n in
    _ <- guard (negb (length data =? 0)) ;;
    r <- wstrides 1 sh ;;
    let '(h', b) := alloc h data in
    Ok (h', mkArr b 0 (length data) (length data) sh (fst r) fresh_flags).

  (** reshape: src/common/reshape.rs 55-77 on a borrowed array.  The length field of the view,
      src/ndarray/reshape.rs 89, is the product just computed.  Simplified: the products of
      update_flags_with_contiguity are taken in nat. *)
  Definition wreshape (a : arr) (new_shape : list nat) : res arr :=
    if list_eqb new_shape (a_shape a) then Ok (nd_view ByRef a)
    else
      _ <- guard (f_unif (a_fl a)) ;;
      s <- wprod (a_shape a) ;;
      p <- wprod new_shape ;;
      _ <- guard (s =? p) ;;
      d <- csub (length (a_shape a)) 1 ;;
      acc <- vget (a_stride a) d ;;
      r <- wstrides acc new_shape ;;
      Ok (mkArr (a_blk a) (a_off a) p (a_cap a) new_shape (fst r) (drop_own (update_flags (a_fl a) new_shape (fst r)))).

  (** the sum of idx * stride, src/ndarray/index_impl.rs 11-13: [map] multiplies, [sum] is a
      left fold starting from 0 *)
  Fixpoint woffset_from (acc : nat) (idx stride : list nat) : res nat :=
    match idx, stride with
    | i :: idx', s :: st => t <- word (i * s) ;; acc' <- word (acc + t) ;; woffset_from acc' idx' st
    | _, _ => Ok acc
    end.

  (** a[[..]]: src/ndarray/index_impl.rs 8-17 *)
  Definition windex {T} (h : heap T) (a : arr) (idx : list nat) : res T :=
    _ <- guard (length idx =? length (a_shape a)) ;;
    i <- woffset_from 0 idx (a_stride a) ;;
    _ <- guard (i <? a_len a) ;;
    ld h (padd (a_ptr a) i).
End Word.
