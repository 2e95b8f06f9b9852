(** Layout.v: model of layout computations and of the flat index generator. *)
From Coq Require Import List Arith Lia Bool ZArith.
From Verif Require Import Base.
Import ListNotations.
Open Scope res_scope.

(** collapse_to_uniform_stride: src/ndarray/iterator/collapse_contiguous.rs 45-76.
    The Rust loop keeps the last pushed axis at [last_idx]; here it is the pair
    (n, s) carried by the recursion and emitted when a new axis starts.
    Simplified: shape and stride are taken to have equal length (always the case). *)
Fixpoint collapse_go (n s : nat) (sh st : list nat) : list nat * list nat :=
  match sh, st with
  | n' :: sh', s' :: st' =>
      if (s =? n' * s') || ((s =? 0) && (n =? 1))
      then collapse_go (n * n') s' sh' st'
      else let '(a, b) := collapse_go n' s' sh' st' in (n :: a, s :: b)
  | _, _ => ([n], [s])
  end.

Definition collapse (sh st : list nat) : list nat * list nat :=
  match sh, st with
  | n :: sh', s :: st' => collapse_go n s sh' st'
  | _, _ => ([], [])
  end.

(** has_uniform_stride: src/ndarray/iterator/collapse_contiguous.rs 78-91. *)
Fixpoint has_uniform_go (s : nat) (sh st : list nat) : option nat :=
  match sh, st with
  | n' :: sh', s' :: st' =>
      if negb (s =? 0) && negb (s =? n' * s') then None else has_uniform_go s' sh' st'
  | _, _ => Some s
  end.

Definition has_uniform_stride (sh st : list nat) : option nat :=
  match sh, st with
  | _ :: sh', s :: st' => has_uniform_go s sh' st'
  | _, _ => Some 0
  end.

(** stride_from_shape: src/ndarray/constructors.rs 36-47.  The reverse loop with the
    running product [p] is the right-to-left recursion; [p] is the second result. *)
Fixpoint stride_from_shape_go (sh : list nat) : list nat * nat :=
  match sh with
  | [] => ([], 1)
  | n :: sh' => let '(st, p) := stride_from_shape_go sh' in (p :: st, p * n)
  end.

Definition stride_from_shape (sh : list nat) : list nat := fst (stride_from_shape_go sh).

(** FlatIndexGenerator: src/ndarray/iterator/flat_index_generator.rs 5-16.
    ndims is the length of the lists. *)
Record fig := mkFig {
  g_shape : list nat;
  g_stride : list nat;
  g_size : nat;
  g_iter : nat;
  g_idx : list nat;
  g_flat : nat }.

(** FlatIndexGenerator::from, lines 19-39.  copy_from_slice into [_; MAX_DIMS]
    panics when there are more than MAX_DIMS collapsed axes. *)
Definition fig_from (sh st : list nat) : res fig :=
  let '(s, t) := collapse sh st in
  if MAX_DIMS <? length s then Panic
  else Ok (mkFig s t (prod s) 0 (repeat 0 (length s)) 0).

(** The while loop of next, lines 76-91, from the last axis to the first.  Result:
    new indices, new flat index, and whether the carry ran off the first axis. *)
Fixpoint fig_carry (sh st idx : list nat) (flat : nat) : res (list nat * nat * bool) :=
  match sh, st, idx with
  | n :: sh', s :: st', i :: idx' =>
      r <- fig_carry sh' st' idx' flat ;;
      let '(idx1, flat1, c) := r in
      if c : bool then
        if i + 1 <? n then Ok (i + 1 :: idx1, flat1 + s, false)
        else d <- csub n 1 ;; f <- csub flat1 (s * d) ;; Ok (0 :: idx1, f, true)
      else Ok (i :: idx1, flat1, false)
  | _, _, _ => Ok ([], flat, true)
  end.

(** next, lines 69-96. *)
Definition fig_next (g : fig) : res (option (nat * fig)) :=
  if g_iter g =? g_size g then Ok None
  else
    r <- fig_carry (g_shape g) (g_stride g) (g_idx g) (g_flat g) ;;
    let '(idx, flat, _) := r in
    Ok (Some (g_flat g, mkFig (g_shape g) (g_stride g) (g_size g) (g_iter g + 1) idx flat)).

(** Driving the iterator to the end.  [fuel] only makes the definition total; running
    out of it is reported as [Panic] and is proved not to happen. *)
Fixpoint fig_run (fuel : nat) (g : fig) : res (list nat) :=
  match fuel with
  | O => Panic
  | S fuel' =>
      r <- fig_next g ;;
      match r with
      | None => Ok []
      | Some (i, g') => is <- fig_run fuel' g' ;; Ok (i :: is)
      end
  end.

(** All flat indices produced by FlatIndexGenerator::from(shape, stride).
    A Rust `for` over the generator is modelled as a loop over this list. *)
Definition fig_list (sh st : list nat) : res (list nat) :=
  g <- fig_from sh st ;; fig_run (S (g_size g)) g.

(** advance_by: flat_index_generator.rs 42-62.  Line 60 computes
    stride[i] * (idx - self.indices[i]) after idx (a reference into self.indices)
    has been overwritten, so the difference is always 0. *)
Fixpoint fig_adv_go (sh idx : list nat) (carry : nat) : list nat * nat :=
  match sh, idx with
  | n :: sh', i :: idx' =>
      let '(idx1, c) := fig_adv_go sh' idx' carry in
      let total := i + c in
      (total mod n :: idx1, total / n)
  | _, _ => ([], carry)
  end.

Definition fig_advance_by (g : fig) (n : nat) : fig :=
  let n := Nat.min n (g_size g - g_iter g) in
  if n =? 0 then g
  else
    let '(idx, _) := fig_adv_go (g_shape g) (g_idx g) n in
    mkFig (g_shape g) (g_stride g) (g_size g) (g_iter g + n) idx (g_flat g + 0).
