(** Conform.v: the repository's own tests, run on the model.  These are tests, not proofs: each
    Example evaluates the model on the literal data of one test and checks that every assertion of
    the test holds, or that it panics where the test is marked should_panic.  They guard the model
    against mistakes; no property rests on them.  Tests on random data are run on
    fixed data, or left out where they assert only facts about the generator.  Where a loop runs
    over fewer sizes or element types than in the test, the comment above it says so. *)
From Coq Require Import Ascii String.
From Coq Require Import List Arith Bool ZArith Floats.SpecFloat.
From Verif Require Import Base Layout Views Nested Kernels Access Iter Reduce Einsum Numeric Almost Cast FloatDot.
Import ListNotations.
Local Open Scope Z_scope.

(** ** The element types the tests are instantiated with: src/macros.rs 42-134 *)
Record dt := mkDt {
  C : Type;
  of : Z -> C;                                  (* a literal, or astype of one *)
  add : C -> C -> res C; sub : C -> C -> res C; mul : C -> C -> res C; div : C -> C -> res C; rem : C -> C -> res C;
  neg : C -> res C; absv : C -> res C; fma : C -> C -> C -> res C;
  ltb : C -> C -> bool; eqb : C -> C -> bool;
  least : C; greatest : C;
  far : C -> bool;                              (* (x as f64).abs() > 1e-5 *)
  nty : ntype C }.

Definition okb (b : bool) (v : Z) : res Z := if b then Ok v else Panic.
Definition int_dt (lo hi : Z) : dt :=
  mkDt Z (fun z => z) (fun x y => checked lo hi (x + y)) (fun x y => checked lo hi (x - y)) (fun x y => checked lo hi (x * y))
    (fun x y => okb (negb (y =? 0)) (Z.quot x y)) (fun x y => okb (negb (y =? 0)) (Z.rem x y)) (fun x => checked lo hi (- x)) (fun x => checked lo hi (Z.abs x))
    (fun x y z => p <- checked lo hi (x * y) ;; checked lo hi (p + z))%res
    Z.ltb Z.eqb lo hi (fun x => negb (x =? 0)) (int_type lo hi f32).

(** literals such as 0.01 are quotients of literals in the tests below *)
Definition flt_dt (f : fmt) (greatest : spec_float) : dt :=
  mkDt spec_float (of_Z f) (fun x y => Ok (fadd f x y)) (fun x y => Ok (fsub f x y)) (fun x y => Ok (fmul f x y)) (fun x y => Ok (fdiv f x y)) (fun _ _ => Panic)
    (fun x => Ok (SFopp x)) (fun x => Ok (SFabs x)) (fun x y z => Ok (ffma f x y z))
    SFltb SFeqb (SFopp greatest) greatest
    (fun x => SFltb (fdiv f64 (of_Z f64 1) (of_Z f64 100000)) (SFabs (convert f64 x))) (float_type f).

Definition signed (b : Z) := int_dt (- 2 ^ (b - 1)) (2 ^ (b - 1) - 1).
Definition unsigned (b : Z) := int_dt 0 (2 ^ b - 1).
Definition t_f32 := flt_dt f32 (of_Z f32 (2 ^ 128 - 2 ^ 104)).
Definition t_f64 := flt_dt f64 (of_Z f64 (2 ^ 1024 - 2 ^ 971)).
Definition t_i32 := signed 32.

Definition float_dtypes := [t_f32; t_f64].
Definition common_signed_int := map signed [32; 64; 128; 64].
Definition common_unsigned_int := map unsigned [32; 64; 128].
Definition signed_int := common_signed_int ++ map signed [8; 16].
Definition unsigned_dtypes := common_unsigned_int ++ map unsigned [8; 16].
Definition signed_dtypes := float_dtypes ++ signed_int.
Definition common_integer := common_signed_int ++ common_unsigned_int.
Definition all_numeric := signed_int ++ unsigned_dtypes ++ float_dtypes.
Definition common_numeric := common_integer ++ float_dtypes.

(** ** Running a test: the heap is threaded through, a failing assertion panics *)
Definition M (D : dt) (A : Type) := heap (C D) -> res (heap (C D) * A).
Definition ret {D A} (x : A) : M D A := fun h => Ok (h, x).
Definition bnd {D A B} (m : M D A) (k : A -> M D B) : M D B := fun h => (r <- m h ;; k (snd r) (fst r))%res.
Notation "x <~ m ;~ k" := (bnd m (fun x => k)) (at level 60, m at next level, right associativity).
Notation "m ;~ k" := (bnd m (fun _ : unit => k)) (at level 60, right associativity).
Definition pure {D A} (r : res A) : M D A := fun h => (x <- r ;; Ok (h, x))%res.
Definition heap_op {D} (f : heap (C D) -> res (heap (C D))) : M D unit := fun h => (h' <- f h ;; Ok (h', tt))%res.
Definition read {D A} (f : heap (C D) -> res A) : M D A := fun h => (x <- f h ;; Ok (h, x))%res.
Definition assert {D} (b : bool) : M D unit := fun h => if b then Ok (h, tt) else Panic.
Fixpoint for_each {D A} (l : list A) (body : A -> M D unit) : M D unit :=
  match l with [] => ret tt | x :: l' => bnd (body x) (fun _ => for_each l' body) end.

Definition passes (ds : list dt) (t : forall D, M D unit) : bool :=
  forallb (fun D => match t D [] with Ok _ => true | _ => false end) ds.
Definition panics (ds : list dt) (t : forall D, M D unit) : bool :=
  forallb (fun D => match t D [] with Panic => true | _ => false end) ds.

(** range.step_by *)
Definition from_to (a b : nat) : list nat := seq a (b - a).
Definition stepped (a b s : nat) : list nat := map (fun i => a + i * s)%nat (seq 0 ((b - a + s - 1) / s)).

Fixpoint nest_map {A B} (f : A -> B) (d : nest A) : nest B :=
  match d with Leaf x => Leaf (f x) | Node l => Node (map (nest_map f) l) end.
Fixpoint array_kinds {A} (d : nest A) : list kind :=
  match d with Leaf _ => [] | Node l => KArr (length l) :: match l with [] => [] | x :: _ => array_kinds x end end.
Definition v1 (l : list Z) : nest Z := Node (map Leaf l).
Definition v2 (l : list (list Z)) : nest Z := Node (map v1 l).
Definition v3 (l : list (list (list Z))) : nest Z := Node (map v2 l).
Definition v4 (l : list (list (list (list Z)))) : nest Z := Node (map v3 l).

Section Ops.
  Context {D : dt}.
  Notation T := (C D).
  Definition zero := of D 0.
  Definition new (d : nest Z) : M D arr := fun h => nd_new h (array_kinds d) (nest_map (of D) d).
  Definition new_vec (n : nat) (d : nest Z) : M D arr := fun h => nd_new h (repeat KVec n) (nest_map (of D) d).
  Definition new_data (l : list T) : M D arr := fun h => nd_new h [KVec] (Node (map Leaf l)).
  Definition scalar (x : Z) : M D arr := fun h => nd_scalar h (of D x).
  Definition full (x : Z) (sh : list nat) : M D arr := fun h => nd_full h (of D x) sh.
  (** arange(a, b).astype::<T>(): the points are computed in i32 *)
  Definition arange_step (a b s : Z) : M D arr := fun h => (l <- arange_data i32 a b s ;; nd_new h [KVec] (Node (map (fun z => Leaf (of D z)) l)))%res.
  Definition arange (a b : nat) : M D arr := arange_step (Z.of_nat a) (Z.of_nat b) 1.
  (** arange in the element type itself *)
  Definition arange_t (a b s : T) : M D arr := fun h => nd_arange_with_step (nty D) h a b s.
  Definition op2 (f : T -> T -> res T) (a b : arr) : M D arr := fun h => nd_binary f zero h a b.
  Definition op1 (f : T -> res T) (a : arr) : M D arr := fun h => nd_unary f zero h a.
  Definition ops (f : T -> T -> res T) (a : arr) (c : T) : M D arr := fun h => nd_scalar_op f zero h a c.
  Definition assign (f : T -> T -> res T) (a b : arr) : M D unit := heap_op (fun h => nd_assign f h a b).
  Definition assign_s (f : T -> T -> res T) (a : arr) (c : T) : M D unit := heap_op (fun h => nd_assign_scalar f h a c).
  Definition slice (a : arr) (l : list indexer) : M D arr := pure (nd_slice a l).
  Definition slice_along (a : arr) (k : Z) (i : indexer) : M D arr := pure (nd_slice_along a k i).
  Definition reshape (a : arr) (sh : list nat) : M D arr := pure (nd_reshape ByRef a sh).
  Definition squeeze (a : arr) : M D arr := ret (nd_squeeze ByRef a).
  Definition clone (a : arr) : M D arr := fun h => nd_clone h a.
  Definition flatten (a : arr) : M D arr := fun h => nd_flatten h a.
  Definition flat (a : arr) : M D (list T) := read (fun h => nd_flatiter h a).
  Definition fill (a : arr) (x : Z) : M D unit := heap_op (fun h => nd_fill h a (of D x)).
  Definition f_add := fun v acc => add D acc v.
  Definition f_mul := fun v acc => mul D acc v.
  Definition sum (a : arr) : M D arr := fun h => nd_reduce f_add zero h a.
  Definition sum_along (a : arr) (k : list Z) : M D arr := fun h => nd_reduce_along f_add zero h a k.
  Definition product (a : arr) : M D arr := fun h => nd_reduce f_mul (of D 1) h a.
  Definition product_along (a : arr) (k : list Z) : M D arr := fun h => nd_reduce_along f_mul (of D 1) h a k.
  Definition einsum (l : list arr) (subs : list string) (out : string) : M D arr :=
    fun h => nd_einsum zero (of D 1) (add D) (mul D) (fma D) h l
      (map (fun s => map (fun c => Z.of_nat (nat_of_ascii c)) (list_ascii_of_string s)) subs) (map (fun c => Z.of_nat (nat_of_ascii c)) (list_ascii_of_string out)).
  Definition einsum_v (a : arr) (s o : string) : M D arr :=
    pure (r <- einsum_view a (map (fun c => Z.of_nat (nat_of_ascii c)) (list_ascii_of_string s)) (map (fun c => Z.of_nat (nat_of_ascii c)) (list_ascii_of_string o)) ;;
      match r with Some v => Ok v | None => Panic end)%res.
  Definition dot (a b : arr) : M D arr := fun h => nd_dot zero (add D) (mul D) h a b.
  Definition matmul (a b : arr) : M D arr := fun h => nd_matmul zero (of D 1) (add D) (mul D) (fma D) h a b.
  Definition bmm (a b : arr) : M D arr := fun h => nd_bmm zero (of D 1) (add D) (mul D) (fma D) h a b.
  Definition trace (a : arr) (k p q : Z) : M D arr := fun h => nd_trace zero (add D) h a k p q.
  Definition diagonal (a : arr) (k p q : Z) : M D arr := pure (nd_offset_diagonal_along a k p q).
  Definition uniform (a : arr) : M D (option nat) := pure (nd_has_uniform_stride a).

  (** assert_eq! of two arrays, of an element, of a shape and of strides *)
  Definition eq (a b : arr) : M D unit := e <~ read (fun h => nd_eq (eqb D) h a b) ;~ assert e.
  Definition almost (a b : arr) : M D unit := read (fun h => assert_almost_eq (sub D) (ltb D) (eqb D) (least D) zero (far D) h a b).
  Definition at_ (a : arr) (i : list nat) (x : Z) : M D unit := y <~ read (fun h => nd_index h a i) ;~ assert (eqb D y (of D x)).
  Definition lists {A} (e : A -> A -> bool) (l m : list A) : bool := (length l =? length m)%nat && forallb (fun p => e (fst p) (snd p)) (combine l m).
  Definition shape (a : arr) (s : list nat) : M D unit := assert (lists Nat.eqb (a_shape a) s).
  Definition strides (a : arr) (s : list nat) : M D unit := assert (lists Nat.eqb (a_stride a) s).
  (** len: src/common/methods.rs 68-74 *)
  Definition len (a : arr) (n : nat) : M D unit := assert (match a_shape a with [] => 0 | d :: _ => d end =? n)%nat.
  Definition flat_is (a : arr) (l : list Z) : M D unit := x <~ flat a ;~ assert (lists (eqb D) x (map (of D) l)).
  Definition is_uniform (a : arr) (o : option nat) : M D unit :=
    u <~ uniform a ;~ assert (match u, o with Some x, Some y => x =? y | None, None => true | _, _ => false end)%nat.
  Definition contiguous (a : arr) (b : bool) : M D unit := assert (Bool.eqb (f_contig (a_fl a)) b).
End Ops.

Local Open Scope string_scope.
Local Open Scope list_scope.
Local Open Scope Z_scope.

(** ** tests/ndarray.rs *)
Definition dims {D} (a : arr) (l : nat) (sh st : list nat) (size : nat) : M D unit :=
  len a l ;~ shape a sh ;~ strides a st ;~ assert (prod (a_shape a) =? size)%nat.
(** lines 3-32 *)
Example from_vector : passes [t_i32] (fun D =>
  a <~ new_vec 1 (v1 [0; 50; 100]) ;~ dims a 3 [3]%nat [1]%nat 3 ;~
  a <~ new_vec 2 (v2 [[50]; [50]; [50]]) ;~ dims a 3 [3; 1]%nat [1; 1]%nat 3 ;~
  a <~ new_vec 3 (v3 [[[50]]; [[50]]]) ;~ dims a 2 [2; 1; 1]%nat [1; 1; 1]%nat 2 ;~
  a <~ new_vec 3 (v3 [[[50; 50; 50]]; [[50; 50; 50]]]) ;~ dims a 2 [2; 1; 3]%nat [3; 3; 1]%nat 6) = true.
Proof. vm_compute; reflexivity. Qed.
(** lines 34-59 *)
Example from_array : passes [t_i32] (fun D =>
  a <~ new (v1 [500; 50; 100]) ;~ dims a 3 [3]%nat [1]%nat 3 ;~
  a <~ new (v2 [[500]; [50]; [100]]) ;~ dims a 3 [3; 1]%nat [1; 1]%nat 3 ;~
  a <~ new (v3 [[[500]; [50]; [30]]; [[50]; [0]; [0]]]) ;~ dims a 2 [2; 3; 1]%nat [3; 1; 1]%nat 6 ;~
  a <~ new (v3 [[[50; 50; 50]]; [[50; 50; 50]]]) ;~ dims a 2 [2; 1; 3]%nat [3; 3; 1]%nat 6) = true.
Proof. vm_compute; reflexivity. Qed.
(** lines 61-71, should_panic *)
Example from_inhomogeneous_vector1 : panics [t_i32] (fun D => _a <~ new_vec 2 (v2 [[50; 50]; [50]]) ;~ ret tt) = true.
Proof. vm_compute; reflexivity. Qed.
Example from_inhomogeneous_vector2 : panics [t_i32] (fun D => _a <~ new_vec 3 (v3 [[[50; 50]]; [[50]]; [[50]]]) ;~ ret tt) = true.
Proof. vm_compute; reflexivity. Qed.
(** lines 73-77: the second array of this test is built from vectors inside an array, which reads
    the headers of the vectors as elements (C02); the test only prints it *)
Example println_reads_headers : nd_new [] [KArr 1; KVec; KVec] (v3 [[[5; 10]; [500; 100]]]) = Oob.
Proof. vm_compute; reflexivity. Qed.
(** lines 79-88 *)
Example index : passes [t_i32] (fun D =>
  a <~ new (v1 [10; 20; 30; 40]) ;~ at_ a [0]%nat 10 ;~ at_ a [3]%nat 40 ;~
  a <~ new (v2 [[10; 20]; [30; 40]]) ;~ at_ a [0; 1]%nat 20 ;~ at_ a [1; 1]%nat 40) = true.
Proof. vm_compute; reflexivity. Qed.
(** lines 90-140 *)
Definition sliced {D} (a : arr) (l : nat) (sh : list nat) (probes : list (list nat * Z)) : M D unit :=
  len a l ;~ shape a sh ;~ for_each probes (fun p => at_ a (fst p) (snd p)).
Example slice_along_1d : passes [t_i32] (fun D =>
  a <~ new (v1 [10; 20; 30; 40]) ;~
  s <~ slice_along a 0 (IUsize 1) ;~ sliced s 0 [] [] ;~
  s <~ slice_along a 0 IFull ;~ sliced s 4 [4]%nat [([0]%nat, 10); ([3]%nat, 40)] ;~
  s <~ slice_along a 0 (IFrom 2) ;~ sliced s 2 [2]%nat [([0]%nat, 30); ([1]%nat, 40)] ;~
  s <~ slice_along a 0 (ITo 3) ;~ sliced s 3 [3]%nat [([0]%nat, 10); ([2]%nat, 30)] ;~
  s <~ slice_along a 0 (IToIncl 3) ;~ sliced s 4 [4]%nat [([0]%nat, 10); ([3]%nat, 40)] ;~
  s <~ slice_along a 0 (IRange 1 3) ;~ sliced s 2 [2]%nat [([0]%nat, 20); ([1]%nat, 30)] ;~
  s <~ slice_along a 0 (IIncl 1 3) ;~ sliced s 3 [3]%nat [([0]%nat, 20); ([2]%nat, 40)]) = true.
Proof. vm_compute; reflexivity. Qed.
(** lines 142-199 *)
Example slice_along_nd : passes [t_i32] (fun D =>
  a <~ new (v2 [[10]; [20]; [30]; [40]]) ;~
  s <~ slice_along a 0 (IUsize 1) ;~ sliced s 1 [1]%nat [([0]%nat, 20)] ;~
  s <~ slice_along a 1 (IUsize 0) ;~ sliced s 4 [4]%nat [([0]%nat, 10)] ;~
  a <~ new (v3 [[[10; 20; 30]; [40; 50; 60]]; [[70; 80; 90]; [100; 110; 120]]]) ;~
  s <~ slice_along a 2 (IUsize 2) ;~ sliced s 2 [2; 2]%nat [([0; 0]%nat, 30); ([1; 0]%nat, 90)] ;~
  s <~ slice_along a 1 (IUsize 1) ;~ sliced s 2 [2; 3]%nat [([0; 0]%nat, 40); ([1; 2]%nat, 120)] ;~
  s <~ slice_along a 2 (IFrom 1) ;~
  sliced s 2 [2; 2; 2]%nat [([0; 0; 0]%nat, 20); ([0; 0; 1]%nat, 30); ([0; 1; 0]%nat, 50); ([1; 0; 0]%nat, 80); ([1; 1; 1]%nat, 120)] ;~
  s <~ slice_along a 1 (IFrom 1) ;~
  sliced s 2 [2; 1; 3]%nat [([0; 0; 0]%nat, 40); ([0; 0; 2]%nat, 60); ([1; 0; 0]%nat, 100); ([1; 0; 2]%nat, 120)]) = true.
Proof. vm_compute; reflexivity. Qed.
(** lines 201-238 *)
Example slice_homogenous : passes [t_i32] (fun D =>
  a <~ new (v3 [[[1; 2; 3]; [4; 5; 6]]; [[7; 8; 9]; [10; 11; 12]]]) ;~
  s <~ slice a [IUsize 1; IUsize 1] ;~ sliced s 3 [3]%nat [([0]%nat, 10); ([1]%nat, 11); ([2]%nat, 12)] ;~
  s <~ slice a [IIncl 1 1; IIncl 1 1] ;~ sliced s 1 [1; 1; 3]%nat [([0; 0; 0]%nat, 10); ([0; 0; 1]%nat, 11); ([0; 0; 2]%nat, 12)] ;~
  s <~ slice a [IIncl 0 0; IIncl 0 1; IIncl 0 1] ;~
  sliced s 1 [1; 2; 2]%nat [([0; 0; 0]%nat, 1); ([0; 0; 1]%nat, 2); ([0; 1; 0]%nat, 4); ([0; 1; 1]%nat, 5)]) = true.
Proof. vm_compute; reflexivity. Qed.
(** lines 240-253 *)
Example slice_heterogeneous : passes [t_i32] (fun D =>
  a <~ new (v3 [[[1; 2; 3]; [4; 5; 6]]; [[7; 8; 9]; [10; 11; 12]]; [[13; 14; 15]; [16; 17; 18]]]) ;~
  s <~ slice a [IUsize 0; IFull; IIncl 0 1] ;~ sliced s 2 [2; 2]%nat []) = true.
Proof. vm_compute; reflexivity. Qed.
(** lines 255-282 *)
Example test_clone : passes [t_i32] (fun D =>
  t <~ new (v3 [[[10; 20; 30]]; [[40; 50; 60]]]) ;~ a <~ clone t ;~
  dims a 2 [2; 1; 3]%nat [3; 3; 1]%nat 6 ;~ at_ a [0; 0; 0]%nat 10 ;~ at_ a [1; 0; 2]%nat 60 ;~
  s <~ slice a [IUsize 1; IUsize 0; IFull] ;~ b <~ clone s ;~
  dims b 3 [3]%nat [1]%nat 3 ;~ flat_is b [40; 50; 60]) = true.
Proof. vm_compute; reflexivity. Qed.
(** lines 284-304 *)
Example clone_contiguous : passes [t_i32] (fun D =>
  a <~ new (v3 [[[10; 11; 12]; [13; 14; 15]]; [[16; 17; 18]; [19; 20; 21]]; [[22; 23; 24]; [25; 26; 27]]]) ;~
  v <~ slice a [IFull] ;~ _c <~ clone v ;~ at_ v [0; 0; 0]%nat 10 ;~ at_ v [2; 1; 2]%nat 27 ;~
  a <~ new_vec 1 (v1 (repeat 5 10)) ;~ v <~ slice a [IFull] ;~ _c <~ clone v ;~ at_ v [0]%nat 5 ;~ at_ v [9]%nat 5) = true.
Proof. vm_compute; reflexivity. Qed.
(** lines 306-328 *)
Example flat_iter : passes [t_i32] (fun D =>
  a <~ new (v3 [[[10; 11; 12]; [13; 14; 15]]; [[16; 17; 18]; [19; 20; 21]]; [[22; 23; 24]; [25; 26; 27]]]) ;~
  flat_is a [10; 11; 12; 13; 14; 15; 16; 17; 18; 19; 20; 21; 22; 23; 24; 25; 26; 27] ;~
  b <~ slice a [IFull; IUsize 0] ;~ flat_is b [10; 11; 12; 16; 17; 18; 22; 23; 24] ;~
  b <~ slice a [IUsize 1] ;~ flat_is b [16; 17; 18; 19; 20; 21] ;~
  b <~ slice a [ITo 2; IUsize 1; IFrom 1] ;~ flat_is b [14; 15; 20; 21]) = true.
Proof. vm_compute; reflexivity. Qed.
(** lines 330-361 *)
Definition enumerated {D} (m : M D (list arr)) (n : nat) (first last_ : nest Z) : M D unit :=
  l <~ m ;~ assert (List.length l =? n)%nat ;~
  f <~ match first with Leaf x => scalar x | _ => new first end ;~
  g <~ match last_ with Leaf x => scalar x | _ => new last_ end ;~
  match l with [] => assert false | x :: _ => eq x f end ;~
  match rev l with [] => assert false | x :: _ => eq x g end.
Example iterate_one_axis : passes [t_i32] (fun D =>
  a <~ new (v3 [[[1; 2; 3]; [4; 5; 6]]; [[7; 8; 9]; [10; 11; 12]]]) ;~
  enumerated (fun h => nd_iter h a) 2 (v2 [[1; 2; 3]; [4; 5; 6]]) (v2 [[7; 8; 9]; [10; 11; 12]]) ;~
  enumerated (fun h => nd_iter_along h a 1) 2 (v2 [[1; 2; 3]; [7; 8; 9]]) (v2 [[4; 5; 6]; [10; 11; 12]]) ;~
  enumerated (fun h => nd_iter_along h a 2) 3 (v2 [[1; 4]; [7; 10]]) (v2 [[3; 6]; [9; 12]])) = true.
Proof. vm_compute; reflexivity. Qed.
Example iterate_several_axes : passes [t_i32] (fun D =>
  a <~ new (v3 [[[1; 2; 3]; [4; 5; 6]]; [[7; 8; 9]; [10; 11; 12]]]) ;~
  enumerated (fun h => nd_nditer h a [0; 1]%nat) 4 (v1 [1; 2; 3]) (v1 [10; 11; 12]) ;~
  enumerated (fun h => nd_nditer h a [0; 2]%nat) 6 (v1 [1; 4]) (v1 [9; 12]) ;~
  enumerated (fun h => nd_nditer h a [1; 2]%nat) 6 (v1 [1; 7]) (v1 [6; 12]) ;~
  enumerated (fun h => nd_nditer h a [0; 1; 2]%nat) 12 (Leaf 1) (Leaf 12)) = true.
Proof. vm_compute; reflexivity. Qed.
(** the test checks the number of sub-arrays, the first and the last; the fourth is [4, 7]
    instead of [7, 10] (C38) *)
Example iterate_fourth : passes [t_i32] (fun D =>
  a <~ new (v3 [[[1; 2; 3]; [4; 5; 6]]; [[7; 8; 9]; [10; 11; 12]]]) ;~
  l <~ (fun h => nd_nditer h a [0; 2]%nat) ;~ match l with [_; _; _; x; _; _] => flat_is x [4; 7] | _ => assert false end) = true.
Proof. vm_compute; reflexivity. Qed.

(** ** tests/constructors.rs *)
Definition fresh_like {D} (a : arr) (sh st : list nat) (x : Z) : M D unit :=
  shape a sh ;~ strides a st ;~ l <~ flat a ;~ assert (forallb (fun y => eqb D y (of D x)) l) ;~ contiguous a true ;~ is_uniform a (Some 1)%nat.
Definition owned {D} (a : arr) : M D unit := assert (f_owned (a_fl a)).
(** lines 4-14 *)
Example test_full : passes all_numeric (fun D => a <~ full 3 [2; 3]%nat ;~ fresh_like a [2; 3]%nat [3; 1]%nat 3) = true.
Proof. vm_compute; reflexivity. Qed.
(** lines 26-49 *)
Example test_ones_zeros : passes all_numeric (fun D => a <~ full 1 [3; 5; 3]%nat ;~ fresh_like a [3; 5; 3]%nat [15; 3; 1]%nat 1 ;~
  a <~ full 0 [3; 5; 3]%nat ;~ fresh_like a [3; 5; 3]%nat [15; 3; 1]%nat 0) = true.
Proof. vm_compute; reflexivity. Qed.
(** lines 111-121 *)
Example test_scalar : passes all_numeric (fun D => a <~ scalar 5 ;~ shape a [] ;~ owned a ;~ contiguous a true ;~ is_uniform a (Some 0)%nat ;~ flat_is a [5]) = true.
Proof. vm_compute; reflexivity. Qed.
(** lines 123-138 *)
Example test_arange : passes all_numeric (fun D =>
  a <~ arange_t (of D 0) (of D 1) (of D 1) ;~ e <~ new (v1 [0]) ;~ eq a e ;~ shape a [1]%nat ;~ owned a ;~ contiguous a true ;~ is_uniform a (Some 1)%nat ;~
  a <~ arange_t (of D 8) (of D 15) (of D 1) ;~ e <~ new (v1 [8; 9; 10; 11; 12; 13; 14]) ;~ eq a e) = true.
Proof. vm_compute; reflexivity. Qed.
(** lines 140-155 *)
Example test_arange_with_step : passes all_numeric (fun D =>
  a <~ arange_t (of D 0) (of D 1) (of D 2) ;~ e <~ new (v1 [0]) ;~ eq a e ;~ shape a [1]%nat ;~ owned a ;~ contiguous a true ;~ is_uniform a (Some 1)%nat ;~
  a <~ arange_t (of D 8) (of D 15) (of D 2) ;~ e <~ new (v1 [8; 10; 12; 14]) ;~ eq a e) = true.
Proof. vm_compute; reflexivity. Qed.
(** lines 157-167 *)
Example test_arange_with_negative_step : passes signed_dtypes (fun D =>
  a <~ arange_t (of D 15) (of D 8) (of D (-3)) ;~ e <~ new (v1 [15; 12; 9]) ;~ eq a e ;~
  a <~ arange_t (of D 21) (of D (-48)) (of D (-7)) ;~ e <~ new (v1 [21; 14; 7; 0; -7; -14; -21; -28; -35; -42]) ;~ eq a e) = true.
Proof. vm_compute; reflexivity. Qed.
(** a literal of tenths, correctly rounded *)
Definition tenth (D : dt) (n : Z) : C D := match div D (of D n) (of D 10) with Ok x => x | _ => of D 0 end.
Definition new_tenths {D} (l : list Z) : M D arr := new_data (map (tenth D) l).
(** lines 169-179.  The second expected array of this test is wrong, it ends in 0.3, 1.3 and not in
    -0.3, 0.7; assert_almost_eq! accepts it because it looks at the largest signed difference (C87) *)
Example test_float_arange : passes float_dtypes (fun D =>
  a <~ arange_t (tenth D 15) (tenth D 64) (of D 1) ;~ e <~ new_tenths [15; 25; 35; 45; 55] ;~ almost a e ;~
  a <~ arange_t (tenth D (-53)) (tenth D 14) (of D 1) ;~ e <~ new_tenths [-53; -43; -33; -23; -13; 3; 13] ;~ almost a e) = true.
Proof. vm_compute; reflexivity. Qed.
Example test_float_arange_values : passes float_dtypes (fun D =>
  a <~ arange_t (tenth D (-53)) (tenth D 14) (of D 1) ;~ e <~ new_tenths [-53; -43; -33; -23; -13; -3; 7] ;~ almost a e ;~ almost e a) = true /\
  panics float_dtypes (fun D =>
  a <~ arange_t (tenth D (-53)) (tenth D 14) (of D 1) ;~ e <~ new_tenths [-53; -43; -33; -23; -13; 3; 13] ;~ almost e a) = true.
Proof. split; vm_compute; reflexivity. Qed.
(** lines 181-195 *)
Example test_linspace : forallb (fun p => let '(f, D) := p in
    let lit l := map (fun n => fdiv f (of_Z f n) (of_Z f 10)) l in
    let check r l := match r with Ok (h, a) => match nd_new h [KVec] (Node (map Leaf (lit l))) with
      Ok (h', e) => match assert_almost_eq (fun x y => Ok (fsub f x y)) SFltb SFeqb D (of_Z f 0)
        (fun x => SFltb (fdiv f64 (of_Z f64 1) (of_Z f64 100000)) (SFabs (convert f64 x))) h' a e with Ok _ => true | _ => false end | _ => false end | _ => false end in
    check (nd_linspace_exclusive f [] (of_Z f 1) (of_Z f 3) 5%nat) [10; 14; 18; 22; 26] &&
    check (nd_linspace f [] (of_Z f 1) (of_Z f 3) 5%nat) [10; 15; 20; 25; 30] &&
    check (nd_linspace f [] (of_Z f 1) (of_Z f 3) 1%nat) [10]) [(f32, SFopp (of_Z f32 (2 ^ 128 - 2 ^ 104))); (f64, SFopp (of_Z f64 (2 ^ 1024 - 2 ^ 971)))] = true.
Proof. vm_compute; reflexivity. Qed.

(** ** tests/fill.rs *)
(** lines 5-21 *)
Definition all_are {D} (a : arr) (x : Z) : M D unit := l <~ flat a ;~ assert (forallb (fun y => eqb D y (of D x)) l).
Example test_fill : passes all_numeric (fun D =>
  a <~ full 0 [3; 5; 3]%nat ;~ all_are a 0 ;~ fill a 5 ;~ all_are a 5 ;~
  for_each (from_to 1 23) (fun n => a <~ full 0 [n] ;~ all_are a 0 ;~ fill a 5 ;~ all_are a 5)) = true.
Proof. vm_compute; reflexivity. Qed.
(** lines 24-41 *)
Example test_fill_slice : passes all_numeric (fun D =>
  a <~ full 0 [3; 5]%nat ;~ s <~ slice a [IFull; IUsize 1] ;~ fill s 5 ;~ s <~ slice a [IFrom 1; IUsize 0] ;~ fill s 2 ;~
  e <~ new (v2 [[0; 5; 0; 0; 0]; [2; 5; 0; 0; 0]; [2; 5; 0; 0; 0]]) ;~ eq a e ;~
  a <~ full 0 [3; 5]%nat ;~ s <~ slice a [IFull; IRange 1 4] ;~ fill s 5 ;~
  e <~ new (v2 [[0; 5; 5; 5; 0]; [0; 5; 5; 5; 0]; [0; 5; 5; 5; 0]]) ;~ eq a e) = true.
Proof. vm_compute; reflexivity. Qed.
(** lines 43-53 *)
Example test_fill_signed_slice : passes signed_int (fun D =>
  a <~ full 0 [3; 5]%nat ;~ s <~ slice a [IFull; IUsize 1] ;~ fill s (-5) ;~ s <~ slice a [IFrom 1; IUsize 0] ;~ fill s 2 ;~
  s <~ slice a [ITo 2; IFrom 3] ;~ fill s (-7) ;~
  e <~ new (v2 [[0; -5; 0; -7; -7]; [2; -5; 0; -7; -7]; [2; -5; 0; 0; 0]]) ;~ eq a e) = true.
Proof. vm_compute; reflexivity. Qed.

(** ** tests/broadcast.rs *)
Definition broadcast {D} (d : nest Z) (sh : list nat) : M D arr := a <~ new d ;~ pure (nd_broadcast_to a sh).
Definition broadcasts (d : nest Z) (sh : list nat) (e : nest Z) : bool :=
  passes [t_i32] (fun D => a <~ broadcast d sh ;~ shape a sh ;~ e <~ new e ;~ eq a e).
(** lines 3-25, 49-84 *)
Example test_broadcast :
  broadcasts (v1 [1; 2; 3]) [3; 3]%nat (v2 [[1; 2; 3]; [1; 2; 3]; [1; 2; 3]]) &&
  broadcasts (v1 [42]) [2; 3]%nat (v2 [[42; 42; 42]; [42; 42; 42]]) &&
  broadcasts (v2 [[1; 2]; [3; 4]]) [3; 2; 2]%nat (v3 [[[1; 2]; [3; 4]]; [[1; 2]; [3; 4]]; [[1; 2]; [3; 4]]]) &&
  broadcasts (v1 [1; 2; 3]) [3]%nat (v1 [1; 2; 3]) && broadcasts (v1 [1; 2; 3]) [1; 3]%nat (v2 [[1; 2; 3]]) &&
  broadcasts (v2 [[1]; [2]; [3]]) [3; 3; 3]%nat (v3 (repeat [[1; 1; 1]; [2; 2; 2]; [3; 3; 3]] 3)) &&
  broadcasts (v1 [1; 2; 3]) [3; 1; 3]%nat (v3 [[[1; 2; 3]]; [[1; 2; 3]]; [[1; 2; 3]]]) = true.
Proof. vm_compute; reflexivity. Qed.
(** lines 27-46, should_panic *)
Example test_broadcast_incompatible_shapes :
  panics [t_i32] (fun D => _a <~ broadcast (v1 [1; 2; 3]) [3; 5]%nat ;~ ret tt) &&
  panics [t_f32] (fun D => a <~ full 1 [3; 3]%nat ;~ _b <~ pure (nd_broadcast_to a [1; 3]%nat) ;~ ret tt) &&
  panics [t_i32] (fun D => a <~ full 1 [1; 1; 3]%nat ;~ _b <~ pure (nd_broadcast_to a [1; 3]%nat) ;~ ret tt) = true.
Proof. vm_compute; reflexivity. Qed.

(** ** tests/reshape.rs *)
(** lines 3-39 *)
Example test_flatten : passes [t_i32] (fun D =>
  a <~ new (v3 [[[10; 11; 12]; [13; 14; 15]]; [[16; 17; 18]; [19; 20; 21]]; [[22; 23; 24]; [25; 26; 27]]]) ;~
  b <~ flatten a ;~ dims b 18 [18]%nat [1]%nat 18 ;~
  e <~ new (v1 [10; 11; 12; 13; 14; 15; 16; 17; 18; 19; 20; 21; 22; 23; 24; 25; 26; 27]) ;~ eq b e ;~
  s <~ slice a [IFull; IUsize 0] ;~ b <~ flatten s ;~ dims b 9 [9]%nat [1]%nat 9 ;~ at_ b [0]%nat 10 ;~ at_ b [5]%nat 18 ;~ at_ b [8]%nat 24 ;~
  s <~ slice a [ITo 2; IUsize 1; IFrom 1] ;~ b <~ flatten s ;~ dims b 4 [4]%nat [1]%nat 4 ;~
  e <~ new (v1 [14; 15; 20; 21]) ;~ eq b e) = true.
Proof. vm_compute; reflexivity. Qed.
(** lines 41-107 *)
Example test_squeeze_unsqueeze : passes [t_i32] (fun D =>
  a <~ new (v4 [[[[1; 2; 3]; [4; 5; 6]]]]) ;~ b <~ squeeze a ;~ shape b [2; 3]%nat ;~ strides b [3; 1]%nat ;~
  a <~ new (Node [v4 [[[[1; 2; 3]]; [[4; 5; 6]]]]]) ;~ b <~ squeeze a ;~ shape b [2; 3]%nat ;~ strides b [3; 1]%nat ;~
  a <~ new (v1 [0]) ;~ b <~ squeeze a ;~ shape b [] ;~ strides b [] ;~
  a <~ new (v2 [[1; 2; 3]; [4; 5; 6]]) ;~ b <~ squeeze a ;~ shape b [2; 3]%nat ;~ strides b [3; 1]%nat ;~
  z <~ new (v1 [0]) ;~ b <~ pure (nd_unsqueeze ByRef z 0) ;~ shape b [1; 1]%nat ;~ strides b [1; 1]%nat ;~
  b <~ pure (nd_unsqueeze ByRef a 0) ;~ shape b [1; 2; 3]%nat ;~ strides b [6; 3; 1]%nat ;~
  b <~ pure (nd_unsqueeze ByRef a 1) ;~ shape b [2; 1; 3]%nat ;~ strides b [3; 3; 1]%nat ;~
  b <~ pure (nd_unsqueeze ByRef a 2) ;~ shape b [2; 3; 1]%nat ;~ strides b [3; 1; 1]%nat) = true.
Proof. vm_compute; reflexivity. Qed.
(** lines 109-129, on fixed instead of random data *)
Example test_view : passes [t_i32] (fun D =>
  a <~ arange 0 24 ;~ a <~ reshape a [3; 2; 4]%nat ;~ eq a (nd_view ByRef a) ;~ eq a (nd_view ByValue (nd_view ByRef a)) ;~
  s <~ slice a [IUsize 0] ;~ eq s (nd_view ByRef s) ;~ s <~ slice a [IRange 0 2; IFull; IUsize 0] ;~ eq s (nd_view ByRef s)) = true.
Proof. vm_compute; reflexivity. Qed.
(** lines 131-147 *)
Example test_reshape : passes [t_i32] (fun D =>
  a <~ new (v3 (repeat [[1; 2]; [3; 4]; [5; 6]] 4)) ;~
  b <~ reshape a [24]%nat ;~ e <~ new (v1 [1; 2; 3; 4; 5; 6; 1; 2; 3; 4; 5; 6; 1; 2; 3; 4; 5; 6; 1; 2; 3; 4; 5; 6]) ;~ eq b e ;~
  b <~ reshape a [4; 6]%nat ;~ e <~ new (v2 (repeat [1; 2; 3; 4; 5; 6] 4)) ;~ eq b e ;~
  b <~ reshape a [3; 8]%nat ;~ e <~ new (v2 [[1; 2; 3; 4; 5; 6; 1; 2]; [3; 4; 5; 6; 1; 2; 3; 4]; [5; 6; 1; 2; 3; 4; 5; 6]]) ;~ eq b e) = true.
Proof. vm_compute; reflexivity. Qed.
(** lines 149-188 *)
Definition r432 : nest Z := v3 [[[1; 2]; [30; 40]; [5; 6]]; [[1; 2]; [31; 41]; [5; 6]]; [[1; 2]; [32; 42]; [5; 6]]; [[1; 2]; [33; 43]; [5; 6]]].
Example test_reshape_slice : passes [t_i32] (fun D =>
  a <~ new r432 ;~ s <~ slice a [IFull; IFull; IUsize 0] ;~
  b <~ reshape s [4; 3]%nat ;~ e <~ new (v2 [[1; 30; 5]; [1; 31; 5]; [1; 32; 5]; [1; 33; 5]]) ;~ eq b e ;~
  b <~ reshape s [3; 4]%nat ;~ e <~ new (v2 [[1; 30; 5; 1]; [31; 5; 1; 32]; [5; 1; 33; 5]]) ;~ eq b e ;~
  b <~ reshape s [2; 6]%nat ;~ e <~ new (v2 [[1; 30; 5; 1; 31; 5]; [1; 32; 5; 1; 33; 5]]) ;~ eq b e ;~
  s <~ slice a [IFull; IIncl 0 1] ;~ b <~ reshape s [4; 2; 2]%nat ;~ eq b s) = true.
Proof. vm_compute; reflexivity. Qed.
(** lines 190-213, should_panic *)
Example test_reshape_invalid :
  panics [t_i32] (fun D => a <~ new r432 ;~ s <~ slice a [IFull; IUsize 1] ;~ _b <~ pure (nd_reshape ByValue s [8]%nat) ;~ ret tt) &&
  panics [t_i32] (fun D => a <~ new r432 ;~ _b <~ pure (nd_reshape ByValue a [8]%nat) ;~ ret tt) = true.
Proof. vm_compute; reflexivity. Qed.
