(** Chain.v: arrays a user can reach from one allocation by view operations. *)
From Coq Require Import List Arith ZArith.
From Verif Require Import Base Spec Layout Views ViewsFacts2 Einsum.
Import ListNotations.

(** [chain b n bc a]: [a] was obtained from a freshly built, non-empty array that owns
    block [b] of [n] cells, by view operations that returned normally.  [bc] tells
    whether some broadcast_to occurs in the chain.  Slices must be in range (the code
    does not check it, see C09); reshape must not follow a broadcast (see C05);
    einsum_view takes letters only (see C54).
    Consuming (ByValue) and borrowing (ByRef) variants are both covered. *)
Inductive chain (b n : nat) : bool -> arr -> Prop :=
| Ch_new sh : prod sh = n -> 0 < n -> chain b n false (fresh_arr b n sh)
| Ch_view bc a m : chain b n bc a -> chain b n bc (nd_view m a)
| Ch_reshape a m sh r : chain b n false a -> nd_reshape m a sh = Ok r -> chain b n false r
| Ch_transpose bc a m i j r : chain b n bc a -> nd_transpose m a i j = Ok r -> chain b n bc r
| Ch_squeeze bc a m : chain b n bc a -> chain b n bc (nd_squeeze m a)
| Ch_unsqueeze bc a m i r : chain b n bc a -> nd_unsqueeze m a i = Ok r -> chain b n bc r
| Ch_slice bc a ixs r : chain b n bc a -> slice_ok ixs (a_shape a) -> nd_slice a ixs = Ok r -> chain b n bc r
| Ch_slice_along bc a i k ix r : chain b n bc a ->
    as_absolute i (length (a_shape a)) = Ok k ->
    pick_ok (region ix (nth k (a_shape a) 0)) (nth k (a_shape a) 0) ->
    nd_slice_along a i ix = Ok r -> chain b n bc r
| Ch_diagonal bc a o i j r : chain b n bc a -> nd_offset_diagonal_along a o i j = Ok r -> chain b n bc r
| Ch_einsum bc a sub out r : chain b n bc a -> Forall letter sub -> Forall letter out ->
    einsum_view a sub out = Ok (Some r) -> chain b n bc r
| Ch_broadcast bc a sh r : chain b n bc a -> nd_broadcast_to a sh = Ok r -> chain b n true r.

(** block [b] of [h] is live and has [n] cells *)
Definition live {T} (h : heap T) (b n : nat) : Prop :=
  exists l, nth_error h b = Some (Some l) /\ length l = n.
