(** SpecFlow.v: which tensor programs panic, decided from shapes and strides alone.  A program is
    followed on layouts: no memory, no numbers and no gradients are involved.  What a tensor
    keeps besides its layout is the way its gradient will travel to the leaves, written as a
    tree. *)
From Coq Require Import List Arith Bool ZArith.
From Verif Require Import Base Spec SpecGrad.
Import ListNotations.

(** strides of an array stored row by row *)
Fixpoint row_major (sh : list nat) : list nat :=
  match sh with
  | [] => []
  | _ :: sh' => fold_right Nat.mul 1 sh' :: row_major sh'
  end.

(** every axis steps over the whole of the next one, so that all elements are evenly spaced *)
Fixpoint evenly (sh st : list nat) : bool :=
  match sh, st with
  | _ :: (n :: _) as sh', s :: (s' :: _) as st' => (s =? n * s') && evenly sh' st'
  | _, _ => true
  end.

(** arrays that a different shape of the same size can be given: evenly spaced and not scalars *)
Definition reshapable (sh st : list nat) : bool :=
  match sh with [] => false | _ => evenly sh st end.
(** ... and the strides they then have: those of a row-major array, times the distance between
    neighbours *)
Definition reshaped (st sh : list nat) : list nat := map (fun n => last st 0 * n) (row_major sh).

(** a gradient of shape [t] summed down to an operand of shape [s] that is all ones where it was
    stretched, and has no other axis: nothing is left of the gradient's axes, while the operand
    has some *)
Definition sums_away (s t : list nat) : bool :=
  match s with
  | [] => false
  | _ => forallb (fun p => (fst p =? 1) && (1 <? snd p)) (combine s (skipn (length t - length s) t))
  end.

(** how a gradient reaches one operand: as it is; through a new array of the same shape (both
    are then summed down to the operand's shape if that is different); through a new array of
    the operand's shape; reshaped; with two axes exchanged *)
Inductive way := WSame | WNew | WWhole | WReshape | WSwap (axis1 axis2 : Z).

(** the journey of a gradient: it stops in a tensor that needs none, is added to a leaf, goes
    to one operand (of the given shape) or to two *)
Inductive flow :=
| FNone
| FLeaf
| FTo (w : way) (sh : list nat) (x : flow)
| FBoth (x y : flow).

(** does the journey of a gradient with this shape and these strides panic? *)
Fixpoint stuck (e : flow) (sh st : list nat) : bool :=
  match e with
  | FNone | FLeaf => false
  | FBoth x y => stuck x sh st || stuck y sh st
  | FTo WSame s x =>
      if list_eq_dec Nat.eq_dec s sh then stuck x sh st else sums_away s sh || stuck x s (row_major s)
  | FTo WNew s x =>
      if list_eq_dec Nat.eq_dec s sh then stuck x sh (row_major sh) else sums_away s sh || stuck x s (row_major s)
  | FTo WWhole s x => stuck x s (row_major s)
  | FTo WReshape s x =>
      if list_eq_dec Nat.eq_dec s sh then stuck x sh st else negb (reshapable sh st) || stuck x s (reshaped st s)
  | FTo (WSwap a1 a2) _ x =>
      let i := axis_of a1 (length sh) in let j := axis_of a2 (length sh) in
      stuck x (swap_at i j sh) (swap_at i j st)
  end.

(** a tensor: does it require a gradient; shape and strides; the journey of its gradient *)
Record ltensor := mkL { l_rg : bool; l_sh : list nat; l_st : list nat; l_flow : flow }.

Definition toward (w : way) (x : ltensor) : flow := if l_rg x then FTo w (l_sh x) (l_flow x) else FNone.
(** a tensor with a new array *)
Definition l_new (rg : bool) (sh : list nat) (e : flow) : ltensor := mkL rg sh (row_major sh) (if rg then e else FNone).
(** a tensor that looks at the array of another one *)
Definition l_look (x : ltensor) (sh st : list nat) (w : way) : ltensor := mkL (l_rg x) sh st (toward w x).
(** a shared tensor that is consumed is copied first *)
Definition kept (m : tmode) (sh st : list nat) : list nat := match m with TClone => row_major sh | _ => st end.

(** extents of two operands agree, aligned on the right, or one of them is 1 *)
Definition compatible (a b : list nat) : bool :=
  forallb (fun p => (fst p =? snd p) || (fst p =? 1) || (snd p =? 1)) (combine (ones_left (length b) a) (ones_left (length a) b)).
Definition axis_ok (axis : Z) (nd : nat) : bool := ((- Z.of_nat nd <=? axis) && (axis <? Z.of_nat nd))%Z.
Definition same_shape (a b : list nat) : bool := if list_eq_dec Nat.eq_dec a b then true else false.
(** a buffer of the right length, not empty *)
Definition fills {T} (sh : list nat) (data : list T) : bool := (length data =? prod sh) && negb (length data =? 0).

(** one instruction; [None]: it panics *)
Definition lstep {T} (ts : list ltensor) (i : instr T) : option (list ltensor) :=
  let on1 i f := match nth_error ts i with Some x => f x | None => None end in
  let on2 i j f := on1 i (fun x => on1 j (fun y => f x y)) in
  let add t := Some (ts ++ [t]) in
  let when (b : bool) (r : option (list ltensor)) := if b then r else None in
  let product x y sh := add (l_new (l_rg x || l_rg y) sh (FBoth (toward WWhole x) (toward WWhole y))) in
  let look m x := add (mkL (l_rg x) (l_sh x) (kept m (l_sh x) (l_st x)) (l_flow x)) in
  match i with
  | INew sh data => when (fills sh data) (add (l_new false sh FNone))
  | ISetGrad i b => on1 i (fun x =>
      if Bool.eqb b (l_rg x) then Some ts
      else Some (set_nth ts i (mkL b (l_sh x) (l_st x) (if b then FLeaf else FNone))))
  | INeg i => on1 i (fun x => add (l_new (l_rg x) (l_sh x) (toward WNew x)))
  | IBin o i j => on2 i j (fun x y => when (compatible (l_sh x) (l_sh y))
      (add (l_new (l_rg x || l_rg y) (join (l_sh x) (l_sh y))
        match o with
        | BAdd => FBoth (toward WSame x) (toward WSame y)
        | BSub => FBoth (toward WSame x) (toward WNew y)
        | BMul | BDiv => FBoth (toward WNew x) (toward WNew y)
        end)))
  | IScal o i _ => on1 i (fun x => add (l_new (l_rg x) (l_sh x)
      match o with BAdd | BSub => l_flow x | BMul | BDiv => toward WNew x end))
  | IDot i j => on2 i j (fun x y =>
      match l_sh x, l_sh y with
      | [n], [n'] => when (n =? n') (product x y [])
      | _, _ => None
      end)
  | IMatmul i j => on2 i j (fun x y =>
      match l_sh x, l_sh y with
      | [n], [n'] => when (n =? n') (product x y [])
      | [n; k], [k'] => when (k =? k') (product x y [n])
      | [n; k], [k'; m] => when (k =? k') (product x y [n; m])
      | _, _ => None
      end)
  | IBmm i j => on2 i j (fun x y =>
      match l_sh x, l_sh y with
      | [q; n; k], [q'; k'; m] => when ((q =? q') && (k =? k')) (product x y [q; n; m])
      | _, _ => None
      end)
  | IView m i => on1 i (look m)
  | IReshape m i sh => on1 i (fun x =>
      if same_shape sh (l_sh x) then look m x
      else when ((prod sh =? prod (l_sh x)) && reshapable (l_sh x) (l_st x))
             (add (l_look x sh (reshaped (l_st x) sh) WReshape)))
  | ISqueeze m i => on1 i (fun x =>
      let l := filter (fun p => negb (fst p =? 1)) (combine (l_sh x) (l_st x)) in
      add (l_look x (map fst l) (map snd l) WReshape))
  | IUnsqueeze m i axis => on1 i (fun x =>
      let nd := length (l_sh x) in let k := axis_of axis (nd + 1) in
      when (axis_ok axis (nd + 1))
        (add (l_look x (insert_at k 1 (l_sh x))
                (insert_at k (if k =? nd then 1 else nth k (l_st x) 0 * nth k (l_sh x) 0) (l_st x)) WReshape)))
  | ITranspose m i a1 a2 => on1 i (fun x =>
      let nd := length (l_sh x) in let p := axis_of a1 nd in let q := axis_of a2 nd in
      when (axis_ok a1 nd && axis_ok a2 nd)
        (add (l_look x (swap_at p q (l_sh x)) (swap_at p q (kept m (l_sh x) (l_st x))) (WSwap a1 a2))))
  | IBackward i => on1 i (fun y => when (negb (stuck (l_flow y) (l_sh y) (row_major (l_sh y)))) (Some ts))
  | IBackwardWith i (SNew sh data) => on1 i (fun y =>
      when (fills sh data && same_shape sh (l_sh y) && negb (stuck (l_flow y) sh (row_major sh))) (Some ts))
  | IBackwardWith i (SVal j) => on2 i j (fun y z =>
      when (same_shape (l_sh z) (l_sh y) && negb (stuck (l_flow y) (l_sh z) (l_st z))) (Some ts))
  | IBackwardWith _ (SBcast _ _ _) | IBackwardWith _ (SGrad _) => None     (* not in_scope *)
  | IZeroGrad i => on1 i (fun _ => Some ts)
  end.

Fixpoint lrun {T} (p : list (instr T)) (ts : list ltensor) : option (list ltensor) :=
  match p with
  | [] => Some ts
  | i :: p' => match lstep ts i with Some ts' => lrun p' ts' | None => None end
  end.
