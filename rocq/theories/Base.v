(** Base.v: failure monad, heap of blocks, array record.  No Rust function of the
    library is modelled here; this file fixes what a pointer access means. *)
From Coq Require Import List Arith Lia Bool ZArith.
Import ListNotations.

Set Implicit Arguments.
Generalizable All Variables.

(** Outcome of running modelled code.
    [Panic]: the Rust code panics (assert!, Vec index, unwrap, checked arithmetic).
    [Oob]: raw pointer access outside a live allocation (undefined behaviour). *)
Inductive res (A : Type) : Type :=
| Ok (a : A)
| Panic
| Oob.
Arguments Ok {A} a.
Arguments Panic {A}.
Arguments Oob {A}.

Definition bind {A B} (m : res A) (k : A -> res B) : res B :=
  match m with Ok a => k a | Panic => Panic | Oob => Oob end.

Declare Scope res_scope.
Delimit Scope res_scope with res.
Notation "x <- m ;; k" := (bind m (fun x => k))
  (at level 61, m at next level, right associativity) : res_scope.
Notation "' p <- m ;; k" := (bind m (fun p => k))
  (at level 61, p pattern, m at next level, right associativity) : res_scope.
Open Scope res_scope.

(** assert!(b) *)
Definition guard (b : bool) : res unit := if b then Ok tt else Panic.

(** checked usize subtraction *)
Definition csub (a b : nat) : res nat := if a <? b then Panic else Ok (a - b).

(** v[i] on a Vec or slice *)
Definition vget {A} (l : list A) (i : nat) : res A :=
  match nth_error l i with Some v => Ok v | None => Panic end.

(** list update, [None] when out of range *)
Fixpoint upd {A} (l : list A) (i : nat) (v : A) : option (list A) :=
  match l, i with
  | [], _ => None
  | _ :: r, O => Some (v :: r)
  | x :: r, S i' => match upd r i' v with Some r' => Some (x :: r') | None => None end
  end.

(** v[i] = x on a Vec or slice *)
Definition vset {A} (l : list A) (i : nat) (v : A) : res (list A) :=
  match upd l i v with Some l' => Ok l' | None => Panic end.

Fixpoint mapM {A B} (f : A -> res B) (l : list A) : res (list B) :=
  match l with
  | [] => Ok []
  | x :: r => y <- f x ;; ys <- mapM f r ;; Ok (y :: ys)
  end.

(** ** Heap *)
Definition heap (T : Type) := list (option (list T)).

Definition load {T} (h : heap T) (b o : nat) : res T :=
  match nth_error h b with
  | Some (Some l) => match nth_error l o with Some v => Ok v | None => Oob end
  | _ => Oob
  end.

Definition store {T} (h : heap T) (b o : nat) (v : T) : res (heap T) :=
  match nth_error h b with
  | Some (Some l) =>
      match upd l o v with
      | Some l' => match upd h b (Some l') with Some h' => Ok h' | None => Oob end
      | None => Oob
      end
  | _ => Oob
  end.

(** vec![..]: a new allocation *)
Definition alloc {T} (h : heap T) (l : list T) : heap T * nat := (h ++ [Some l], length h).

(** ** Array record.  Mirrors struct NdArray (src/ndarray.rs) and NdArrayFlags
    (src/ndarray/flags.rs 4-12): ptr is (a_blk, a_off). *)
Record flags := mkFlags {
  f_owned : bool;
  f_contig : bool;
  f_unif : bool;
  f_write : bool;
  f_user : bool;
  f_grad : bool }.

Record arr := mkArr {
  a_blk : nat;
  a_off : nat;
  a_len : nat;
  a_cap : nat;
  a_shape : list nat;
  a_stride : list nat;
  a_fl : flags }.

Definition prod (l : list nat) : nat := fold_right Nat.mul 1 l.

Definition MAX_DIMS : nat := 32.
