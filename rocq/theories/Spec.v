(** Spec.v: the independent specification vocabulary.  Nothing here is taken from
    the library; theorems relate the model to these definitions. *)
From Coq Require Import List Arith Lia Bool ZArith.
From Verif Require Import Base.
Import ListNotations.
Open Scope res_scope.

(** All multi-indices of a box, in row-major order (last axis fastest). *)
Fixpoint indices (shape : list nat) : list (list nat) :=
  match shape with
  | [] => [[]]
  | n :: sh => flat_map (fun i => map (cons i) (indices sh)) (seq 0 n)
  end.

(** An index is inside a box. *)
Definition in_range (idx shape : list nat) : Prop := Forall2 lt idx shape.

(** Position of an index relative to the first element. *)
Fixpoint dot (idx stride : list nat) : nat :=
  match idx, stride with
  | i :: idx', s :: st => i * s + dot idx' st
  | _, _ => 0
  end.

(** Row-major rank of an index in a box. *)
Fixpoint rank (idx shape : list nat) : nat :=
  match idx, shape with
  | i :: idx', _ :: sh => i * prod sh + rank idx' sh
  | _, _ => 0
  end.

(** Element of an array at an index, and all of them in row-major order. *)
Definition get {T} (h : heap T) (a : arr) (idx : list nat) : res T :=
  load h (a_blk a) (a_off a + dot idx (a_stride a)).

Definition elems {T} (h : heap T) (a : arr) : res (list T) :=
  mapM (get h a) (indices (a_shape a)).

(** Every index of the box denotes a live cell. *)
Definition valid {T} (h : heap T) (a : arr) : Prop :=
  length (a_stride a) = length (a_shape a) /\
  forall idx, in_range idx (a_shape a) -> exists v, get h a idx = Ok v.

(** Layout in which different indices denote different cells. *)
Definition distinct (a : arr) : Prop :=
  forall i j, in_range i (a_shape a) -> in_range j (a_shape a) ->
    dot i (a_stride a) = dot j (a_stride a) -> i = j.

(** No axis longer than 1 has stride 0 (the layout is not a broadcast one). *)
Definition no_bcast (shape stride : list nat) : Prop :=
  Forall2 (fun n s => n <= 1 \/ s <> 0) shape stride.

(** NumPy broadcasting of one index: index of the operand of shape [sh] that the
    result index [idx] refers to. *)
Fixpoint clamp (idx sh : list nat) : list nat :=
  match idx, sh with
  | i :: idx', n :: sh' => (if n =? 1 then 0 else i) :: clamp idx' sh'
  | _, _ => []
  end.

Definition bidx (sh idx : list nat) : list nat :=
  clamp (skipn (length idx - length sh) idx) sh.

(** One shape broadcasts to another: right-aligned, each axis equal or 1. *)
Definition broadcastable (sh target : list nat) : Prop :=
  length sh <= length target /\
  Forall2 (fun n m => n = 1 \/ n = m) sh (skipn (length target - length sh) target).

(** Cells of the heap. *)
Definition same_elsewhere {T} (h h' : heap T) (touched : nat -> nat -> Prop) : Prop :=
  length h = length h' /\
  forall b o, ~ touched b o -> load h' b o = load h b o.

(** [r] is a view of [a]: same allocation, and the element of [r] at an index is the
    element of [a] at the mapped index (hence it has the same address). *)
Definition views (r a : arr) (f : list nat -> list nat) : Prop :=
  a_blk r = a_blk a /\
  length (a_stride r) = length (a_shape r) /\
  forall idx, in_range idx (a_shape r) ->
    in_range (f idx) (a_shape a) /\
    a_off r + dot idx (a_stride r) = a_off a + dot (f idx) (a_stride a).

(** ** Index maps of the view operations *)
(** exchange positions i and j *)
Definition swap_pos (i j k : nat) : nat := if k =? i then j else if k =? j then i else k.
Definition swap_at (i j : nat) (l : list nat) : list nat :=
  map (fun k => nth (swap_pos i j k) l 0) (seq 0 (length l)).

(** put a 0 at every unit axis of [sh] *)
Fixpoint expand_unit (sh idx : list nat) : list nat :=
  match sh with
  | [] => []
  | n :: sh' =>
      if n =? 1 then 0 :: expand_unit sh' idx
      else match idx with i :: idx' => i :: expand_unit sh' idx' | [] => [] end
  end.

(** delete position k *)
Definition delete_at (k : nat) (l : list nat) : list nat := firstn k l ++ skipn (S k) l.
(** insert x at position k *)
Definition insert_at (k x : nat) (l : list nat) : list nat := firstn k l ++ x :: skipn k l.

(** index with a given row-major rank *)
Definition unrank (k : nat) (sh : list nat) : list nat := nth k (indices sh) [].

(** index of an n-axis array with x at ax1, y at ax2 and [rest] elsewhere, starting at axis i *)
Fixpoint undiag (i ax1 ax2 x y : nat) (n : nat) (rest : list nat) : list nat :=
  match n with
  | O => []
  | S n' =>
      if i =? ax1 then x :: undiag (S i) ax1 ax2 x y n' rest
      else if i =? ax2 then y :: undiag (S i) ax1 ax2 x y n' rest
      else match rest with
           | r :: rest' => r :: undiag (S i) ax1 ax2 x y n' rest'
           | [] => []
           end
  end.

(** Meaning of the Rust range kinds on an axis of length n: half-open interval.  The
    argument is a tag-free description; Views.indexer values are translated in
    ViewsFacts by [region]. *)
Definition interval := (nat * nat)%type.

(** one slicing request per axis: a single position or an interval *)
Inductive pick := PickOne (i : nat) | PickInt (lo hi : nat).

(** request lies within the axis and is not empty *)
Definition pick_ok (p : pick) (n : nat) : Prop :=
  match p with PickOne i => i < n | PickInt lo hi => lo < hi <= n end.

(** shape of the selected box: picks for the leading axes, the rest kept whole *)
Fixpoint pick_shape (ps : list pick) (sh : list nat) : list nat :=
  match ps, sh with
  | PickOne _ :: ps', _ :: sh' => pick_shape ps' sh'
  | PickInt lo hi :: ps', _ :: sh' => (hi - lo) :: pick_shape ps' sh'
  | _, _ => sh
  end.

(** index of the source selected by an index of the box *)
Fixpoint pick_index (ps : list pick) (idx : list nat) : list nat :=
  match ps with
  | [] => idx
  | PickOne i :: ps' => i :: pick_index ps' idx
  | PickInt lo _ :: ps' =>
      match idx with i :: idx' => lo + i :: pick_index ps' idx' | [] => [] end
  end.

(** k-th axis length counted from the right; missing axes count as 1 *)
Definition dim_r (sh : list nat) (k : nat) : nat := nth k (rev sh) 1.

(** NumPy compatibility and combination of two axis lengths *)
Definition dim_compat (a b : nat) : Prop := a = b \/ a = 1 \/ b = 1.
Definition dim_join (a b : nat) : nat := if a =? 1 then b else a.

(** [r] is the common broadcast shape of [a] and [b] *)
Definition join_shape (a b r : list nat) : Prop :=
  length r = Nat.max (length a) (length b) /\
  forall k, dim_compat (dim_r a k) (dim_r b k) /\ dim_r r k = dim_join (dim_r a k) (dim_r b k).

(** (b, o) is the cell of some element of [a] *)
Definition cell_of (a : arr) (b o : nat) : Prop :=
  exists idx, in_range idx (a_shape a) /\ b = a_blk a /\ o = a_off a + dot idx (a_stride a).

(** left-to-right fold with a partial step (step value accumulator) *)
Fixpoint foldM {A B} (g : A -> B -> res B) (l : list A) (acc : B) : res B :=
  match l with
  | [] => Ok acc
  | x :: r => acc' <- g x acc ;; foldM g r acc'
  end.

(** remove the listed axes *)
Definition drop_axes (ax : list nat) (l : list nat) : list nat :=
  map snd (filter (fun p => negb (existsb (Nat.eqb (fst p)) ax)) (combine (seq 0 (length l)) l)).

(** the indices of a box that agree with [o] on the axes that are kept *)
Definition fibre (ax sh o : list nat) : list (list nat) :=
  filter (fun idx => if list_eq_dec Nat.eq_dec (drop_axes ax idx) o then true else false) (indices sh).

(** ** Algebra for sums of products *)
Record is_csr {T} (zero one : T) (add mul : T -> T -> T) : Prop := mkCsr {
  csr_add_comm : forall x y, add x y = add y x;
  csr_add_assoc : forall x y z, add x (add y z) = add (add x y) z;
  csr_add_0 : forall x, add zero x = x;
  csr_mul_comm : forall x y, mul x y = mul y x;
  csr_mul_assoc : forall x y z, mul x (mul y z) = mul (mul x y) z;
  csr_mul_1 : forall x, mul one x = x;
  csr_mul_0 : forall x, mul zero x = zero;
  csr_distr : forall x y z, mul x (add y z) = add (mul x y) (mul x z) }.

(** sum and product of a list *)
Definition bigsum {T} (add : T -> T -> T) (zero : T) (l : list T) : T := fold_right add zero l.

(** value given to label l when the labels ls have the values idx *)
Fixpoint lookup (ls : list Z) (idx : list nat) (l : Z) : nat :=
  match ls, idx with
  | x :: ls', i :: idx' => if (x =? l)%Z then i else lookup ls' idx' l
  | _, _ => 0
  end.

(** an ASCII letter *)
Definition letter (c : Z) : Prop := (65 <= c <= 90 \/ 97 <= c <= 122)%Z.

(** the elements of an array are given by v *)
Definition holds {T} (h : heap T) (a : arr) (v : list nat -> T) : Prop :=
  length (a_stride a) = length (a_shape a) /\
  forall idx, in_range idx (a_shape a) -> get h a idx = Ok (v idx).

(** Einstein summation at output index oidx: operand k has label list subs[k] and elements
    vals[k]; out are the output labels, sm the labels summed over, dm the range of a label. *)
Definition einsum_value {T} (zero one : T) (add mul : T -> T -> T) (dm : Z -> nat) (subs : list (list Z))
    (vals : list (list nat -> T)) (out sm : list Z) (oidx : list nat) : T :=
  bigsum add zero (map (fun e =>
    bigsum mul one (map (fun p => snd p (map (lookup (out ++ sm) (oidx ++ e)) (fst p))) (combine subs vals)))
    (indices (map dm sm))).
