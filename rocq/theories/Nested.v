(** Nested.v: building an array from nested Vec and fixed-size array data. *)
From Coq Require Import List Arith Bool.
From Verif Require Import Base Spec Layout Views Kernels Access.
Import ListNotations.
Open Scope res_scope.

(** a value of a nested container type, e.g. Vec<Vec<[f32; 3]>> *)
Inductive nest (T : Type) := Leaf (x : T) | Node (l : list (nest T)).
Arguments Leaf {T}. Arguments Node {T}.

(** the container type, outermost level first: Vec or [_; N] *)
Inductive kind := KVec | KArr (n : nat).

(** the values a container type has *)
Fixpoint typed {T} (ks : list kind) (d : nest T) : Prop :=
  match ks with
  | [] => exists x, d = Leaf x
  | KVec :: ks' => exists l, d = Node l /\ Forall (typed ks') l
  | KArr n :: ks' => exists l, d = Node l /\ length l = n /\ Forall (typed ks') l
  end.

Definition children {T} (d : nest T) : list (nest T) := match d with Node l => l | Leaf _ => [] end.

(** Shape::shape: src/util/shape.rs 8-34; the innermost level does not look at its elements,
    the others follow the first child (self[0] panics when there is none) *)
Fixpoint nest_shape {T} (ks : list kind) (d : nest T) : res (list nat) :=
  match ks with
  | [] => Ok []
  | [_] => Ok [length (children d)]
  | _ :: ks' => x <- vget (children d) 0 ;; s <- nest_shape ks' x ;; Ok (length (children d) :: s)
  end.

(** Iterator::all with a closure that may panic *)
Fixpoint allM {A} (f : A -> res bool) (l : list A) : res bool :=
  match l with
  | [] => Ok true
  | x :: l' => b <- f x ;; if b : bool then allM f l' else Ok false
  end.

(** Homogenous::check_homogenous: src/util/homogenous.rs 12-36 *)
Definition check_homogenous {T} (ks : list kind) (d : nest T) : res bool :=
  match ks with
  | KVec :: ((_ :: _) as ks') =>
      x <- vget (children d) 0 ;; s <- nest_shape ks' x ;;
      allM (fun v => s' <- nest_shape ks' v ;; Ok (if list_eq_dec Nat.eq_dec s' s then true else false)) (children d)
  | _ => Ok true
  end.

Definition is_arr (k : kind) : bool := match k with KArr _ => true | KVec => false end.

(** the elements of a value with no Vec inside, in memory order *)
Fixpoint nest_mem {T} (ks : list kind) (d : nest T) : list T :=
  match ks with
  | [] => match d with Leaf x => [x] | Node _ => [] end
  | _ :: ks' => flat_map (nest_mem ks') (children d)
  end.

(** Flatten::flatten: src/util/flatten.rs 16-66.  A Vec concatenates its flattened children.
    A fixed-size array copies product(shape) elements starting at its own address: right when
    only fixed-size arrays are inside; with a Vec inside it reads the Vec headers (or beyond)
    as elements, modelled as Oob. *)
Fixpoint nest_flatten {T} (ks : list kind) (d : nest T) : res (list T) :=
  match ks with
  | [] => Panic
  | [_] => Ok (nest_mem ks d)
  | KVec :: ks' => ls <- mapM (nest_flatten ks') (children d) ;; Ok (concat ls)
  | KArr _ :: ks' =>
      s <- nest_shape ks d ;;
      if forallb is_arr ks' && (length (nest_mem ks d) =? prod s) then Ok (nest_mem ks d) else Oob
  end.

(** Constructors::new: src/common/constructors.rs 40-49 *)
Definition nd_new {T} (h : heap T) (ks : list kind) (d : nest T) : res (heap T * arr) :=
  ok <- check_homogenous ks d ;; _ <- guard ok ;;
  s <- nest_shape ks d ;; data <- nest_flatten ks d ;;
  _ <- guard (negb (length data =? 0)) ;;
  Ok (from_buffer h s data).

(** src/util/nested.rs:5-23, [trait Nested<D>]: the bound on the argument of
    src/common/constructors.rs:40.  One constructor for each impl, lines 5-14 for Vec and 16-23
    for arrays; a type is given by its levels, outermost first, as in [typed].  The impl of
    Nested<5> for Vec (line 10) asks for Nested<6>. *)
Inductive nested : nat -> list kind -> Prop :=
| NV1 : nested 1 [KVec]                                     | NA1 n : nested 1 [KArr n]
| NV2 ks : nested 1 ks -> nested 2 (KVec :: ks)             | NA2 n ks : nested 1 ks -> nested 2 (KArr n :: ks)
| NV3 ks : nested 2 ks -> nested 3 (KVec :: ks)             | NA3 n ks : nested 2 ks -> nested 3 (KArr n :: ks)
| NV4 ks : nested 3 ks -> nested 4 (KVec :: ks)             | NA4 n ks : nested 3 ks -> nested 4 (KArr n :: ks)
| NV5 ks : nested 6 ks -> nested 5 (KVec :: ks)             | NA5 n ks : nested 4 ks -> nested 5 (KArr n :: ks)
| NV6 ks : nested 5 ks -> nested 6 (KVec :: ks)             | NA6 n ks : nested 5 ks -> nested 6 (KArr n :: ks)
| NV7 ks : nested 6 ks -> nested 7 (KVec :: ks)             | NA7 n ks : nested 6 ks -> nested 7 (KArr n :: ks)
| NV8 ks : nested 7 ks -> nested 8 (KVec :: ks)             | NA8 n ks : nested 7 ks -> nested 8 (KArr n :: ks).
