(** Iter.v: NdIterator, the iterator over sub-arrays. *)
From Coq Require Import List Arith ZArith Bool.
From Verif Require Import Base Spec Layout Views Kernels Access.
Import ListNotations.
Open Scope res_scope.

(** bitset of split_by_indices: src/ndarray/iterator/util.rs 10-21; bitset[index] panics
    when out of range *)
Fixpoint set_bits (bits : list bool) (ix : list nat) : res (list bool) :=
  match ix with
  | [] => Ok bits
  | i :: ix' => b <- vget bits i ;; if b : bool then Panic else bits' <- vset bits i true ;; set_bits bits' ix'
  end.

(** split_by_indices: util.rs 4-32.  max_index - indices.len() is a checked subtraction. *)
Definition split_by_indices (data ix : list nat) : res (list nat * list nat) :=
  _ <- csub (length data) (length ix) ;;
  bits <- set_bits (repeat false (length data)) ix ;;
  Ok (map snd (filter fst (combine bits data)), map snd (filter (fun p => negb (fst p)) (combine bits data))).

(** struct NdIterator: src/ndarray/iterator/tensor_iterator.rs 7-17 *)
Record nditer := mkIt { it_res : arr; it_shape : list nat; it_stride : list nat; it_idx : list nat; it_k : nat; it_size : nat }.

(** NdIterator::from: lines 26-44.  tensor is a reference, so reshaped_view borrows. *)
Definition nditer_from (a : arr) (axes : list nat) : res nditer :=
  p <- split_by_indices (a_shape a) axes ;;
  q <- split_by_indices (a_stride a) axes ;;
  Ok (mkIt (reshaped_view ByRef a (snd p) (snd q)) (fst p) (fst q) (repeat 0 (length axes)) 0 (prod (fst p))).

(** offset_ptr: lines 19-23 *)
Definition set_off (a : arr) (o : nat) : arr := mkArr (a_blk a) o (a_len a) (a_cap a) (a_shape a) (a_stride a) (a_fl a).

(** the loop of next, lines 57-66, from the last axis to the first; the flag is "break taken".
    The negative pointer offset is a checked subtraction: an axis is reset only after it moved
    the pointer by stride * shape. *)
Fixpoint nditer_carry (sh st idx : list nat) (off : nat) : res (list nat * nat * bool) :=
  match sh, st, idx with
  | n :: sh', s :: st', i :: idx' =>
      r <- nditer_carry sh' st' idx' off ;;
      let '(idx1, off1, stop) := r in
      if stop : bool then Ok (i :: idx1, off1, true)
      else if negb (i =? n) then Ok (S i :: idx1, off1 + s, true)
      else m <- csub n 1 ;; off2 <- csub off1 (s * m) ;; Ok (0 :: idx1, off2, false)
  | _, _, _ => Ok ([], off, false)
  end.

Section Iter.
  Context {T : Type}.
  (** next: lines 50-69; the item is a clone *)
  Definition nditer_next (h : heap T) (it : nditer) : res (option (heap T * arr * nditer)) :=
    if it_k it =? it_size it then Ok None
    else
      c <- nd_clone h (it_res it) ;;
      r <- nditer_carry (it_shape it) (it_stride it) (it_idx it) (a_off (it_res it)) ;;
      let '(idx, off, _) := r in
      Ok (Some (fst c, snd c, mkIt (set_off (it_res it) off) (it_shape it) (it_stride it) idx (S (it_k it)) (it_size it))).

  (** run the iterator to the end *)
  Fixpoint nditer_collect (fuel : nat) (h : heap T) (it : nditer) : res (heap T * list arr) :=
    match fuel with
    | O => Panic
    | S fuel' =>
        r <- nditer_next h it ;;
        match r with
        | None => Ok (h, [])
        | Some (h1, x, it1) => q <- nditer_collect fuel' h1 it1 ;; Ok (fst q, x :: snd q)
        end
    end.

  (** nditer, iter_along, iter: src/ndarray/iterator/iterators.rs 18-30, collected.  The fuel
      is the number of items plus one, so it never runs out. *)
  Definition nd_nditer (h : heap T) (a : arr) (axes : list nat) : res (heap T * list arr) :=
    it <- nditer_from a axes ;; nditer_collect (S (it_size it)) h it.
  Definition nd_iter_along (h : heap T) (a : arr) (axis : Z) : res (heap T * list arr) :=
    k <- as_absolute axis (length (a_shape a)) ;; nd_nditer h a [k].
  Definition nd_iter (h : heap T) (a : arr) : res (heap T * list arr) := nd_nditer h a [0].
End Iter.
