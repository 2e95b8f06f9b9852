(** SpecGrad.v: what a program of tensor operations computes, and what its gradients are.
    Nothing here is taken from the library: values are functions of an index, and the
    derivative of a program is its value over dual numbers x + x' eps with eps^2 = 0. *)
From Coq Require Import List Arith Bool ZArith.
From Verif Require Import Base Spec.
Import ListNotations.

(** ** Scalars *)
Record num (T : Type) := mkNum {
  n0 : T; n1 : T; nadd : T -> T -> T; nsub : T -> T -> T; nmul : T -> T -> T; ndiv : T -> T -> T; nneg : T -> T }.
Arguments mkNum {T}. Arguments n0 {T}. Arguments n1 {T}. Arguments nadd {T}. Arguments nsub {T}.
Arguments nmul {T}. Arguments ndiv {T}. Arguments nneg {T}.

(** a commutative ring with a multiplicative inverse function: every field with inv 0 = 0 *)
Record is_field {T} (N : num T) (inv : T -> T) : Prop := mkField {
  fld_csr : is_csr (n0 N) (n1 N) (nadd N) (nmul N);
  fld_neg : forall x, nadd N x (nneg N x) = n0 N;
  fld_sub : forall x y, nsub N x y = nadd N x (nneg N y);
  fld_div : forall x y, ndiv N x y = nmul N x (inv y);
  fld_inv : forall x y, inv (nmul N x y) = nmul N (inv x) (inv y) }.

(** dual numbers: (x, x') stands for x + x' eps *)
Definition dual {T} (N : num T) : num (T * T) := mkNum
  (n0 N, n0 N) (n1 N, n0 N)
  (fun x y => (nadd N (fst x) (fst y), nadd N (snd x) (snd y)))
  (fun x y => (nsub N (fst x) (fst y), nsub N (snd x) (snd y)))
  (fun x y => (nmul N (fst x) (fst y), nadd N (nmul N (snd x) (fst y)) (nmul N (fst x) (snd y))))
  (fun x y => (ndiv N (fst x) (fst y),
               nsub N (ndiv N (snd x) (fst y)) (ndiv N (nmul N (fst x) (snd y)) (nmul N (fst y) (fst y)))))
  (fun x => (nneg N (fst x), nneg N (snd x))).

Definition total {T} (N : num T) (l : list T) : T := bigsum (nadd N) (n0 N) l.

(** pairing of two arrays of the same shape *)
Definition inner {T} (N : num T) (sh : list nat) (u v : list nat -> T) : T :=
  total N (map (fun i => nmul N (u i) (v i)) (indices sh)).

(** ** Programs.  Tensors are numbered in order of creation. *)
Inductive bop := BAdd | BSub | BMul | BDiv.

(** how a view operation is called: on a reference; on a value that nothing else shares;
    on a value whose data is shared with the graph (it is then copied first) *)
Inductive tmode := TRef | TMove | TClone.

(** the argument of backward_with: a new array; a new array broadcast to another shape; the
    data of a tensor; the gradient of a tensor *)
Inductive seed (T : Type) :=
| SNew (sh : list nat) (data : list T)
| SBcast (sh : list nat) (data : list T) (to : list nat)
| SVal (j : nat)
| SGrad (j : nat).
Arguments SNew {T}. Arguments SBcast {T}. Arguments SVal {T}. Arguments SGrad {T}.

Inductive instr (T : Type) :=
| INew (sh : list nat) (data : list T)
| ISetGrad (i : nat) (b : bool)
| INeg (i : nat)
| IBin (o : bop) (i j : nat)
| IScal (o : bop) (i : nat) (c : T)
| IDot (i j : nat)
| IMatmul (i j : nat)
| IBmm (i j : nat)
| IView (m : tmode) (i : nat)
| IReshape (m : tmode) (i : nat) (sh : list nat)
| ISqueeze (m : tmode) (i : nat)
| IUnsqueeze (m : tmode) (i : nat) (axis : Z)
| ITranspose (m : tmode) (i : nat) (axis1 axis2 : Z)
| IBackward (i : nat)
| IBackwardWith (i : nat) (s : seed T)
| IZeroGrad (i : nat).
Arguments INew {T}. Arguments ISetGrad {T}. Arguments INeg {T}. Arguments IBin {T}. Arguments IScal {T}.
Arguments IDot {T}. Arguments IMatmul {T}. Arguments IBmm {T}. Arguments IView {T}. Arguments IReshape {T}.
Arguments ISqueeze {T}. Arguments IUnsqueeze {T}. Arguments ITranspose {T}. Arguments IBackward {T}.
Arguments IBackwardWith {T}. Arguments IZeroGrad {T}.

Definition bopf {T} (N : num T) (o : bop) : T -> T -> T :=
  match o with BAdd => nadd N | BSub => nsub N | BMul => nmul N | BDiv => ndiv N end.

(** common broadcast shape *)
Definition ones_left (n : nat) (l : list nat) : list nat := repeat 1 (n - length l) ++ l.
Definition join (a b : list nat) : list nat :=
  map (fun p => dim_join (fst p) (snd p)) (combine (ones_left (length b) a) (ones_left (length a) b)).

(** axis counted from either end *)
Definition axis_of (axis : Z) (nd : nat) : nat := Z.to_nat (axis mod Z.of_nat nd).

(** ** Mathematical meaning of the operators, over any scalars *)
Section Meaning.
  Context {S : Type} (M : num S).
  Notation fn := (list nat -> S).

  Definition m_bin (o : bop) (sx : list nat) (x : fn) (sy : list nat) (y : fn) : fn :=
    fun idx => bopf M o (x (bidx sx idx)) (y (bidx sy idx)).
  Definition m_dot (n : nat) (x y : fn) : fn :=
    fun _ => total M (map (fun k => nmul M (x [k]) (y [k])) (seq 0 n)).
  Definition m_matvec (k : nat) (x y : fn) : fn :=
    fun idx => total M (map (fun t => nmul M (x [nth 0 idx 0; t]) (y [t])) (seq 0 k)).
  Definition m_matmul (k : nat) (x y : fn) : fn :=
    fun idx => total M (map (fun t => nmul M (x [nth 0 idx 0; t]) (y [t; nth 1 idx 0])) (seq 0 k)).
  Definition m_bmm (k : nat) (x y : fn) : fn :=
    fun idx => total M (map (fun t => nmul M (x [nth 0 idx 0; nth 1 idx 0; t]) (y [nth 0 idx 0; t; nth 2 idx 0])) (seq 0 k)).

  (** matmul by the number of axes *)
  Definition m_product (sx : list nat) (x : fn) (sy : list nat) (y : fn) : list nat * fn :=
    match sx, sy with
    | [n], [_] => ([], m_dot n x y)
    | [n; k], [_] => ([n], m_matvec k x y)
    | [n; k], [_; m] => ([n; m], m_matmul k x y)
    | _, _ => ([], fun _ => n0 M)
    end.
  Definition m_batched (sx : list nat) (x : fn) (sy : list nat) (y : fn) : list nat * fn :=
    match sx, sy with
    | [q; n; k], [_; _; m] => ([q; n; m], m_bmm k x y)
    | _, _ => ([], fun _ => n0 M)
    end.
End Meaning.

(** ** The reference machine *)
Section Machine.
  Context {T : Type} (N : num T).
  Notation D := (dual N).

  (** a perturbation: for each leaf (numbered in order of creation) an array *)
  Definition pert := nat -> list nat -> T.

  (** a tensor: does it require a gradient; the leaf whose gradient it shows, if any; is it
      known to be stored row-major; its shape; its value over dual numbers when the leaves
      are perturbed *)
  Record stensor := mkS { s_rg : bool; s_leaf : option nat; s_rm : bool; s_shape : list nat;
                          s_val : pert -> list nat -> T * T }.

  (** tensors; shapes of the leaves; accumulated gradients of the leaves *)
  Record sstate := mkSS { s_ts : list stensor; s_leaves : list (list nat); s_G : nat -> list nat -> T }.

  Definition s0 : sstate := mkSS [] [] (fun _ _ => n0 N).
  Definition s_push (s : sstate) (t : stensor) : sstate := mkSS (s_ts s ++ [t]) (s_leaves s) (s_G s).

  (** unit perturbation of one entry of one leaf *)
  Definition unit_pert (k : nat) (idx : list nat) : pert :=
    fun k' idx' => if (k' =? k) && (if list_eq_dec Nat.eq_dec idx' idx then true else false) then n1 N else n0 N.

  (** vector-Jacobian product: the sum over the entries o of y of g(o) * dy(o)/dx_k(idx) *)
  Definition vjp (y : stensor) (g : list nat -> T) (k : nat) (idx : list nat) : T :=
    inner N (s_shape y) g (fun o => snd (s_val y (unit_pert k idx) o)).

  Definition s_backward (s : sstate) (y : stensor) (g : list nat -> T) : sstate :=
    mkSS (s_ts s) (s_leaves s) (fun k idx => nadd N (s_G s k idx) (vjp y g k idx)).

  Definition seed_val (s : sstate) (sd : seed T) : list nat -> T :=
    match sd with
    | SNew sh data => fun idx => nth (rank idx sh) data (n0 N)
    | SBcast sh data _ => fun idx => nth (rank (bidx sh idx) sh) data (n0 N)
    | SVal j => match nth_error (s_ts s) j with Some t => fun idx => fst (s_val t (fun _ _ => n0 N) idx) | None => fun _ => n0 N end
    | SGrad j => match nth_error (s_ts s) j with
                 | Some t => match s_leaf t with Some k => s_G s k | None => fun _ => n0 N end
                 | None => fun _ => n0 N
                 end
    end.

  Definition with1 (s : sstate) (i : nat) (f : stensor -> sstate) : sstate :=
    match nth_error (s_ts s) i with Some t => f t | None => s end.
  Definition with2 (s : sstate) (i j : nat) (f : stensor -> stensor -> sstate) : sstate :=
    with1 s i (fun x => with1 s j (fun y => f x y)).

  Definition set_nth {A} (l : list A) (i : nat) (x : A) : list A := firstn i l ++ x :: skipn (Datatypes.S i) l.

  (** result of an operator with a new buffer *)
  Definition s_result (rg : bool) (sh : list nat) (v : pert -> list nat -> T * T) : stensor := mkS rg None true sh v.
  (** result of a view operation on x *)
  Definition s_view (m : tmode) (rm : bool) (x : stensor) (sh : list nat) (f : list nat -> list nat) : stensor :=
    mkS (s_rg x) None rm sh (fun d idx => s_val x d (f idx)).
  Definition keeps_rm (m : tmode) (x : stensor) : bool := match m with TClone => true | _ => s_rm x end.

  Definition sstep (s : sstate) (i : instr T) : sstate :=
    match i with
    | INew sh data => s_push s (s_result false sh (fun _ idx => (nth (rank idx sh) data (n0 N), n0 N)))
    | ISetGrad i b => with1 s i (fun x =>
        if b then
          if s_rg x then s
          else let k := length (s_leaves s) in
            mkSS (set_nth (s_ts s) i (mkS true (Some k) (s_rm x) (s_shape x) (fun d idx => (fst (s_val x d idx), d k idx))))
                 (s_leaves s ++ [s_shape x]) (fun k' idx => if k' =? k then n0 N else s_G s k' idx)
        else mkSS (set_nth (s_ts s) i (mkS false None (s_rm x) (s_shape x) (fun d idx => (fst (s_val x d idx), n0 N))))
                  (s_leaves s) (s_G s))
    | INeg i => with1 s i (fun x => s_push s (s_result (s_rg x) (s_shape x) (fun d idx => nneg D (s_val x d idx))))
    | IBin o i j => with2 s i j (fun x y => s_push s (s_result (s_rg x || s_rg y) (join (s_shape x) (s_shape y))
        (fun d => m_bin D o (s_shape x) (s_val x d) (s_shape y) (s_val y d))))
    | IScal o i c => with1 s i (fun x => s_push s (mkS (s_rg x) (match o with BAdd | BSub => s_leaf x | _ => None end) true
        (s_shape x) (fun d idx => bopf D o (s_val x d idx) (c, n0 N))))
    | IDot i j => with2 s i j (fun x y => s_push s (s_result (s_rg x || s_rg y) []
        (fun d => m_dot D (hd 0 (s_shape x)) (s_val x d) (s_val y d))))
    | IMatmul i j => with2 s i j (fun x y => s_push s (s_result (s_rg x || s_rg y)
        (fst (m_product N (s_shape x) (fun _ => n0 N) (s_shape y) (fun _ => n0 N)))
        (fun d => snd (m_product D (s_shape x) (s_val x d) (s_shape y) (s_val y d)))))
    | IBmm i j => with2 s i j (fun x y => s_push s (s_result (s_rg x || s_rg y)
        (fst (m_batched N (s_shape x) (fun _ => n0 N) (s_shape y) (fun _ => n0 N)))
        (fun d => snd (m_batched D (s_shape x) (s_val x d) (s_shape y) (s_val y d)))))
    | IView m i => with1 s i (fun x => s_push s (mkS (s_rg x) (s_leaf x) (keeps_rm m x) (s_shape x) (s_val x)))
    | IReshape m i sh => with1 s i (fun x =>
        if list_eq_dec Nat.eq_dec sh (s_shape x)
        then s_push s (mkS (s_rg x) (s_leaf x) (keeps_rm m x) (s_shape x) (s_val x))
        else s_push s (s_view m (keeps_rm m x) x sh (fun idx => unrank (rank idx sh) (s_shape x))))
    | ISqueeze m i => with1 s i (fun x => s_push s (s_view m (keeps_rm m x) x
        (filter (fun n => negb (n =? 1)) (s_shape x)) (expand_unit (s_shape x))))
    | IUnsqueeze m i axis => with1 s i (fun x => let k := axis_of axis (length (s_shape x) + 1) in
        s_push s (s_view m (keeps_rm m x) x (insert_at k 1 (s_shape x)) (delete_at k)))
    | ITranspose m i a1 a2 => with1 s i (fun x => let nd := length (s_shape x) in
        let p := axis_of a1 nd in let q := axis_of a2 nd in
        s_push s (s_view m false x (swap_at p q (s_shape x)) (swap_at p q)))
    | IBackward i => with1 s i (fun y => s_backward s y (fun _ => n1 N))
    | IBackwardWith i sd => with1 s i (fun y => s_backward s y (seed_val s sd))
    | IZeroGrad i => with1 s i (fun x =>
        match s_leaf x with
        | Some k => mkSS (s_ts s) (s_leaves s) (fun k' idx => if k' =? k then n0 N else s_G s k' idx)
        | None => s
        end)
    end.

  (** ** The programs that the engine is proved to run correctly.  Excluded: a shared tensor of
      unknown storage order consumed by reshape, squeeze or unsqueeze; a gradient, or an array
      produced by broadcasting, used as the argument of backward_with; results with more than
      MAX_DIMS axes. *)
  Definition in_scope (s : sstate) (i : instr T) : Prop :=
    match i with
    | IReshape TClone i _ | ISqueeze TClone i | IUnsqueeze TClone i _ =>
        forall x, nth_error (s_ts s) i = Some x -> s_rm x = true
    | IBackwardWith _ (SBcast _ _ _) | IBackwardWith _ (SGrad _) => False
    | _ => True
    end.
  Definition small (s : sstate) : Prop := Forall (fun t => length (s_shape t) <= MAX_DIMS) (s_ts s).
  Fixpoint admissible (p : list (instr T)) (s : sstate) : Prop :=
    match p with
    | [] => True
    | i :: p' => in_scope s i /\ small (sstep s i) /\ admissible p' (sstep s i)
    end.

  Definition srun (p : list (instr T)) (s : sstate) : sstate := fold_left sstep p s.
End Machine.
Arguments mkS {T}. Arguments s_rg {T}. Arguments s_leaf {T}. Arguments s_rm {T}. Arguments s_shape {T}. Arguments s_val {T}.
Arguments mkSS {T}. Arguments s_ts {T}. Arguments s_leaves {T}. Arguments s_G {T}.
