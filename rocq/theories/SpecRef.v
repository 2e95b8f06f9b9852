(** SpecRef.v: a reference machine for the programs of Prog.v.  An array is a shape together with
    the table of its cells in row-major order; there are no strides, flags, lengths or pointers.
    Nothing here is taken from the library; only the syntax of programs is shared. *)
From Coq Require Import List Arith Lia Bool ZArith.
From Verif Require Import Base Nested PropsNew Spec Views ViewsFacts2 ViewsFacts3 Prog.
Import ListNotations.
Open Scope res_scope.

(** buffer, shape, cells of the buffer in row-major order, may be assigned to *)
Record table := mkTable { t_buf : nat; t_shape : list nat; t_cells : list nat; t_write : bool }.

(** the cell of an element *)
Definition cell (t : table) (idx : list nat) : nat := nth (rank idx (t_shape t)) (t_cells t) 0.

(** the array of shape sh whose element at idx is the element of t at f idx *)
Definition select (t : table) (sh : list nat) (f : list nat -> list nat) : table :=
  mkTable (t_buf t) sh (map (fun idx => cell t (f idx)) (indices sh)) (t_write t).

(** the same cells with another shape *)
Definition reshaped (t : table) (sh : list nat) : table := mkTable (t_buf t) sh (t_cells t) (t_write t).

(** axis number, counted from the end when negative *)
Definition ref_axis (k : Z) (nd : nat) : res nat :=
  if ((- Z.of_nat nd <=? k) && (k <? Z.of_nat nd))%Z then Ok (Z.to_nat (k mod Z.of_nat nd)) else Panic.

Definition pick_okb (p : pick) (n : nat) : bool :=
  match p with PickOne i => i <? n | PickInt lo hi => (lo <? hi) && (hi <=? n) end.

Definition broadcastableb (sh target : list nat) : bool :=
  (length sh <=? length target) &&
  forallb (fun p => (fst p =? 1) || (fst p =? snd p)) (combine sh (skipn (length target - length sh) target)).

(** common shape of two shapes written last axis first *)
Fixpoint join_rev (a b : list nat) : res (list nat) :=
  match a, b with
  | [], _ => Ok b
  | _, [] => Ok a
  | x :: a', y :: b' =>
      if (x =? y) || (x =? 1) || (y =? 1) then r <- join_rev a' b' ;; Ok ((if x =? 1 then y else x) :: r) else Panic
  end.
Definition join (a b : list nat) : res (list nat) := r <- join_rev (rev a) (rev b) ;; Ok (rev r).

Fixpoint nodupb {A} (eqb : A -> A -> bool) (l : list A) : bool :=
  match l with [] => true | x :: r => negb (existsb (eqb x) r) && nodupb eqb r end.

(** extent of each letter, from the first place it occurs; all occurrences agree *)
Definition ext (subs : list (list Z)) (shs : list (list nat)) : Z -> nat := lookup (concat subs) (concat shs).
Fixpoint shapeseqb (a b : list nat) : bool :=
  match a, b with [], [] => true | x :: a', y :: b' => (x =? y) && shapeseqb a' b' | _, _ => false end.
Definition agree (dm : Z -> nat) (sub : list Z) (sh : list nat) : bool := shapeseqb (map dm sub) sh.

(** view operations; the subscripted view is None when a letter would have to be summed over *)
Definition ref_view (o : vop) (t : table) : res (option table) :=
  let sh := t_shape t in let nd := length sh in
  match o with
  | VView _ => Ok (Some t)
  | VReshape _ sh' => if prod sh =? prod sh' then Ok (Some (reshaped t sh')) else Panic
  | VTranspose _ k1 k2 => i <- ref_axis k1 nd ;; j <- ref_axis k2 nd ;; Ok (Some (select t (swap_at i j sh) (swap_at i j)))
  | VSqueeze _ => Ok (Some (reshaped t (filter (fun d => negb (d =? 1)) sh)))
  | VUnsqueeze _ k => i <- ref_axis k (nd + 1) ;; Ok (Some (reshaped t (insert_at i 1 sh)))
  | VSlice ixs =>
      let ps := regions ixs sh in
      if (length ixs <=? nd) && forallb (fun p => pick_okb (fst p) (snd p)) (combine ps sh)
      then Ok (Some (select t (pick_shape ps sh) (pick_index ps))) else Panic
  | VSliceAlong k ix => i <- ref_axis k nd ;;
      let p := region ix (nth i sh 0) in
      if pick_okb p (nth i sh 0) then Ok (Some (select t (along_shape i p sh) (along_index i p))) else Panic
  | VDiagonal o k1 k2 => i <- ref_axis k1 nd ;; j <- ref_axis k2 nd ;;
      let d1 := nth i sh 0 in let d2 := nth j sh 0 in
      if negb (i =? j) && (- Z.of_nat d1 <? o)%Z && (o <? Z.of_nat d2)%Z
      then Ok (Some (select t (drop_two 0 i j sh ++ [Nat.min (d1 - Z.to_nat (- o)) (d2 - Z.to_nat o)]) (diag_index nd i j o))) else Panic
  | VEinsum sub out =>
      let dm := ext [sub] [sh] in
      if agree dm sub sh && (length sub <=? 32) && nodupb Z.eqb out && forallb (fun l => existsb (Z.eqb l) sub) out
      then Ok (if forallb (fun l => existsb (Z.eqb l) out) sub then Some (select t (map dm out) (fun idx => map (lookup out idx) sub)) else None)
      else Panic
  | VBroadcast sh' =>
      if broadcastableb sh sh' then let v := select t sh' (bidx sh) in Ok (Some (mkTable (t_buf v) (t_shape v) (t_cells v) false)) else Panic
  end.

(** shape of nested data: follow the first entries *)
Fixpoint nest_dims {T} (d : nest T) : list nat :=
  match d with Leaf _ => [] | Node l => length l :: match l with [] => [] | d' :: _ => nest_dims d' end end.

Section Ref.
  Context {T : Type}.
  Variable zero one : T.
  Variable add mul : T -> T -> T.
  Variable eqb : T -> T -> bool.

  Record rstate := mkRef { r_bufs : list (list T); r_env : list table; r_out : list (@obs T) }.

  Definition orPanic {A} (o : option A) : res A := match o with Some x => Ok x | None => Panic end.

  (** the elements of an array in row-major order; one of them *)
  Definition data (r : rstate) (t : table) : res (list T) := mapM (fun c => orPanic (nth_error (nth (t_buf t) (r_bufs r) []) c)) (t_cells t).
  Definition at_ (sh : list nat) (vs : list T) (idx : list nat) : res T := orPanic (nth_error vs (rank idx sh)).

  (** a new buffer holding vs *)
  Definition ref_new (r : rstate) (sh : list nat) (vs : list T) : rstate :=
    mkRef (r_bufs r ++ [vs]) (r_env r ++ [mkTable (length (r_bufs r)) sh (seq 0 (length vs)) true]) (r_out r).
  (** a new array of shape sh with the element f idx at idx *)
  Definition ref_make (r : rstate) (sh : list nat) (f : list nat -> res T) : res rstate := vs <- mapM f (indices sh) ;; Ok (ref_new r sh vs).

  Fixpoint replace (l : list T) (c : nat) (v : T) : list T :=
    match l, c with [], _ => [] | _ :: l', O => v :: l' | x :: l', S c' => x :: replace l' c' v end.
  (** give the cells cs of buffer b the values vs *)
  Definition put (bufs : list (list T)) (b : nat) (cs : list nat) (vs : list T) : list (list T) :=
    map (fun p => if fst p =? b then fold_left (fun l q => replace l (fst q) (snd q)) (combine cs vs) (snd p) else snd p)
      (combine (seq 0 (length bufs)) bufs).
  Definition ref_put (r : rstate) (t : table) (vs : list T) : rstate := mkRef (put (r_bufs r) (t_buf t) (t_cells t) vs) (r_env r) (r_out r).
  Definition ref_say (r : rstate) (o : @obs T) : rstate := mkRef (r_bufs r) (r_env r) (r_out r ++ [o]).

  Definition tab (r : rstate) (k : nat) : res table := orPanic (nth_error (r_env r) k).
  Definition inside (idx sh : list nat) : bool := (length idx =? length sh) && forallb (fun p => fst p <? snd p) (combine idx sh).
  Fixpoint same_vals (l m : list T) : bool :=
    match l, m with [], [] => true | x :: l', y :: m' => eqb x y && same_vals l' m' | _, _ => false end.

  (** sum over t < k of mul (x t) (y t) *)
  Definition sum_products (k : nat) (x y : nat -> res T) : res T :=
    vs <- mapM (fun t => u <- x t ;; v <- y t ;; Ok (mul u v)) (seq 0 k) ;; Ok (bigsum add zero vs).

  Definition value_at (sh : list nat) (vs : list T) (idx : list nat) : T := nth (rank idx sh) vs zero.

  Definition ref (c : @cmd T) (r : rstate) : res rstate :=
    match c with
    | CNew _ d => ref_make r (nest_dims d) (fun idx => PropsNew.lookup idx d)
    | CFull x sh => if prod sh =? 0 then Panic else ref_make r sh (fun _ => Ok x)
    | CView o k => t <- tab r k ;; v <- ref_view o t ;;
        Ok (match v with Some v => mkRef (r_bufs r) (r_env r ++ [v]) (r_out r) | None => r end)
    | CBinary f k1 k2 => a <- tab r k1 ;; b <- tab r k2 ;; xs <- data r a ;; ys <- data r b ;; sh <- join (t_shape a) (t_shape b) ;;
        ref_make r sh (fun idx => x <- at_ (t_shape a) xs (bidx (t_shape a) idx) ;; y <- at_ (t_shape b) ys (bidx (t_shape b) idx) ;; f x y)
    | CScalarOp f k c => a <- tab r k ;; xs <- data r a ;; vs <- mapM (fun x => f x c) xs ;; Ok (ref_new r (t_shape a) vs)
    | CUnary g k => a <- tab r k ;; xs <- data r a ;; vs <- mapM g xs ;; Ok (ref_new r (t_shape a) vs)
    | CAssign f k1 k2 => a <- tab r k1 ;; b <- tab r k2 ;; xs <- data r a ;; ys <- data r b ;;
        if t_write a && broadcastableb (t_shape b) (t_shape a)
        then vs <- mapM (fun idx => x <- at_ (t_shape a) xs idx ;; y <- at_ (t_shape b) ys (bidx (t_shape b) idx) ;; f x y) (indices (t_shape a)) ;;
             Ok (ref_put r a vs)
        else Panic
    | CAssignScalar f k c => a <- tab r k ;; xs <- data r a ;; if t_write a then vs <- mapM (fun x => f x c) xs ;; Ok (ref_put r a vs) else Panic
    | CFill k v => a <- tab r k ;; Ok (ref_put r a (map (fun _ => v) (t_cells a)))
    | CIndex k idx => a <- tab r k ;; xs <- data r a ;; if inside idx (t_shape a) then x <- at_ (t_shape a) xs idx ;; Ok (ref_say r (OVals [x])) else Panic
    | CIndexSet k idx v => a <- tab r k ;;
        if inside idx (t_shape a) then Ok (mkRef (put (r_bufs r) (t_buf a) [cell a idx] [v]) (r_env r) (r_out r)) else Panic
    | CValue k => a <- tab r k ;; xs <- data r a ;; match xs with [x] => Ok (ref_say r (OVals [x])) | _ => Panic end
    | CDataSlice k => a <- tab r k ;; xs <- data r a ;; Ok (ref_say r (OVals xs))
    | CFlatiter k => a <- tab r k ;; xs <- data r a ;; Ok (ref_say r (OVals xs))
    | CEqual k1 k2 => a <- tab r k1 ;; b <- tab r k2 ;; xs <- data r a ;; ys <- data r b ;;
        Ok (ref_say r (OBool (shapeseqb (t_shape a) (t_shape b) && same_vals xs ys)))
    | CClone k => a <- tab r k ;; xs <- data r a ;; Ok (ref_new r (t_shape a) xs)
    | CFlatten k => a <- tab r k ;; xs <- data r a ;; Ok (ref_new r [prod (t_shape a)] xs)
    | CReduce g start k => a <- tab r k ;; xs <- data r a ;; v <- foldM g xs start ;; Ok (ref_new r [] [v])
    | CReduceAlong g start k axes => a <- tab r k ;; xs <- data r a ;; ax <- mapM (fun k => ref_axis k (length (t_shape a))) axes ;;
        if nodupb Nat.eqb ax
        then ref_make r (drop_axes ax (t_shape a)) (fun o => vs <- mapM (at_ (t_shape a) xs) (fibre ax (t_shape a) o) ;; foldM g vs start)
        else Panic
    | CTrace g k o k1 k2 => a <- tab r k ;; d <- ref_view (VDiagonal o k1 k2) a ;;
        match d with
        | None => Panic
        | Some d => xs <- data r d ;;
            let nd := length (t_shape d) - 1 in
            ref_make r (firstn nd (t_shape d)) (fun idx => vs <- mapM (fun i => at_ (t_shape d) xs (idx ++ [i])) (seq 0 (nth nd (t_shape d) 0)) ;;
              foldM (fun x acc => g acc x) vs zero)
        end
    | CDot k1 k2 => a <- tab r k1 ;; b <- tab r k2 ;; xs <- data r a ;; ys <- data r b ;;
        match t_shape a, t_shape b with
        | [n], [m] => if n =? m then ref_make r [] (fun _ => sum_products n (fun t => at_ [n] xs [t]) (fun t => at_ [n] ys [t])) else Panic
        | _, _ => Panic
        end
    | CMatmul k1 k2 => a <- tab r k1 ;; b <- tab r k2 ;; xs <- data r a ;; ys <- data r b ;;
        match t_shape a, t_shape b with
        | [n], [m] => if n =? m then ref_make r [] (fun _ => sum_products n (fun t => at_ [n] xs [t]) (fun t => at_ [n] ys [t])) else Panic
        | [n; k], [k'] => if k =? k' then ref_make r [n] (fun idx => sum_products k (fun t => at_ [n; k] xs [nth 0 idx 0; t]) (fun t => at_ [k] ys [t])) else Panic
        | [n; k], [k'; m] => if k =? k' then ref_make r [n; m] (fun idx => sum_products k (fun t => at_ [n; k] xs [nth 0 idx 0; t]) (fun t => at_ [k; m] ys [t; nth 1 idx 0])) else Panic
        | _, _ => Panic
        end
    | CBmm k1 k2 => a <- tab r k1 ;; b <- tab r k2 ;; xs <- data r a ;; ys <- data r b ;;
        match t_shape a, t_shape b with
        | [q; n; k], [q'; k'; m] => if (q =? q') && (k =? k')
            then ref_make r [q; n; m] (fun idx => sum_products k (fun t => at_ [q; n; k] xs [nth 0 idx 0; nth 1 idx 0; t]) (fun t => at_ [q; k; m] ys [nth 0 idx 0; t; nth 2 idx 0]))
            else Panic
        | _, _ => Panic
        end
    | CEinsum ks subs out => ts <- mapM (tab r) ks ;; xss <- mapM (data r) ts ;;
        let dm := ext subs (map t_shape ts) in
        let sm := filter (fun l => negb (existsb (Z.eqb l) out)) (nodup Z.eq_dec (concat subs)) in
        Ok (ref_new r (map dm out)
          (map (einsum_value zero one add mul dm subs (map (fun p => value_at (t_shape (fst p)) (snd p)) (combine ts xss)) out sm) (indices (map dm out))))
    end.

  Fixpoint ref_all (cs : list (@cmd T)) (r : rstate) : res rstate :=
    match cs with [] => Ok r | c :: cs' => r' <- ref c r ;; ref_all cs' r' end.
End Ref.
