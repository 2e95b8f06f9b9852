(** Print.v: the Debug text of arrays and tensors, and the unused helper that merges
    contiguously stored axes. *)
From Coq Require Import List Arith Bool Ascii.
From Verif Require Import Base Access.
Import ListNotations.
Open Scope res_scope.

Section Print.
  Context {T : Type}.
  (** [{:?}] of one element *)
  Variable show : T -> list ascii.

  (** [iter.next().unwrap()] followed by printing, src/ndarray/print.rs 13, 20 *)
  Definition fmt_elem (it : list T) : res (list ascii * list T) :=
    match it with
    | [] => Panic
    | x :: it' => Ok (show x, it')
    end.

  (** the loops [for i in 0..shape[0]], src/ndarray/print.rs 18-21 and 25-32: [pre i] is
      what is written before item [i], [body] writes the item.  The iterator state is the
      list of elements still to come; the texts written are concatenated. *)
  Fixpoint fmt_items (pre : nat -> list ascii) (body : list T -> res (list ascii * list T))
           (n i : nat) (it : list T) : res (list ascii * list T) :=
    match n with
    | O => Ok ([], it)
    | S n' =>
        sr <- body it ;;
        tr <- fmt_items pre body n' (S i) (snd sr) ;;
        Ok (pre i ++ fst sr ++ fst tr, snd tr)
    end.

  (** [fmt_inner], src/ndarray/print.rs 8-36.  [write!(f, "{:indent$}", "")] writes [indent]
      spaces; the formatter itself never fails. *)
  Fixpoint fmt_inner (sh : list nat) (level : nat) (it : list T) : res (list ascii * list T) :=
    match sh with
    | [] => fmt_elem it
    | n :: sh' =>
        match sh' with
        | [] =>
            r <- fmt_items (fun i => if 0 <? i then [","%char; " "%char] else []) fmt_elem n 0 it ;;
            Ok ("["%char :: fst r ++ ["]"%char], snd r)
        | _ :: _ =>
            r <- fmt_items (fun i => (if 0 <? i then [","%char] else []) ++ repeat " "%char ((level + 1) * 2))
                           (fmt_inner sh' (level + 1)) n 0 it ;;
            Ok ("["%char :: fst r ++ repeat " "%char (level * 2) ++ ["]"%char], snd r)
        end
    end.

  (** [fmt], src/ndarray/print.rs 38 (and, by delegation, src/tensor/print.rs 5-7).  The
      iterator is read completely first; printing does not write to the heap. *)
  Definition nd_fmt (h : heap T) (a : arr) : res (list ascii) :=
    it <- nd_flatiter h a ;;
    r <- fmt_inner (a_shape a) 0 it ;;
    Ok (fst r).
End Print.

(** the loop of [collapse_contiguous], src/ndarray/iterator/collapse_contiguous.rs 11-17, over
    the axes from the last to the first: axes still uncollapsed and the size collapsed *)
Fixpoint contig_go (rsh rst : list nat) (ndims acc : nat) : nat * nat :=
  match rsh, rst with
  | n :: rsh', s :: rst' =>
      if negb (acc =? s) then (ndims, acc) else contig_go rsh' rst' (ndims - 1) (acc * n)
  | _, _ => (ndims, acc)
  end.

(** [collapse_contiguous], src/ndarray/iterator/collapse_contiguous.rs 3-30 *)
Definition collapse_contiguous (sh st : list nat) : list nat * list nat :=
  if negb (last st 0 =? 1) then (sh, st)
  else
    let '(nd, acc) := contig_go (rev sh) (rev st) (length sh) 1 in
    if acc =? 1 then (sh, st)
    else (firstn nd sh ++ [acc], firstn nd st ++ [1]).
