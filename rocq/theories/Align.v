(** Align.v: building an array from nested data, with the alignment assertion that Nested.v
    leaves out. *)
From Coq Require Import List Arith Bool.
From Verif Require Import Base Spec Layout Views Kernels Access Nested.
Import ListNotations.
Open Scope res_scope.

(** align_of::<T>() for a container type, [al] being the alignment of the elements: a Vec is three
    machine words, an array is aligned like its elements. *)
Fixpoint align_of (al : nat) (ks : list kind) : nat :=
  match ks with
  | [] => al
  | KVec :: _ => 8
  | KArr _ :: ks' => align_of al ks'
  end.

(** Flatten::flatten: src/util/flatten.rs 16-66, as [nest_flatten], with the assertion of line 34. *)
Fixpoint flatten_al {T} (al : nat) (ks : list kind) (d : nest T) : res (list T) :=
  match ks with
  | [] => Panic
  | [_] => Ok (nest_mem ks d)
  | KVec :: ks' => ls <- mapM (flatten_al al ks') (children d) ;; Ok (concat ls)
  | KArr _ :: ks' =>
      _ <- guard (al <=? align_of al ks') ;;
      s <- nest_shape ks d ;;
      if forallb is_arr ks' && (length (nest_mem ks d) =? prod s) then Ok (nest_mem ks d) else Oob
  end.

(** Constructors::new: src/common/constructors.rs 40-49 *)
Definition new_al {T} (al : nat) (h : heap T) (ks : list kind) (d : nest T) : res (heap T * arr) :=
  ok <- check_homogenous ks d ;; _ <- guard ok ;;
  s <- nest_shape ks d ;; data <- flatten_al al ks d ;;
  _ <- guard (negb (length data =? 0)) ;;
  Ok (from_buffer h s data).
