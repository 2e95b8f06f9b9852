(** ConformOps.v: the repository's own tests of elementwise operations and reductions, run on the
    model; see Conform.v. *)
From Coq Require Import List Arith Bool ZArith Floats.SpecFloat.
From Verif Require Import Base Layout Views Nested Kernels Access Reduce Numeric Cast Conform.
Import ListNotations.
Local Open Scope Z_scope.

(** ** tests/reduce.rs *)
Definition min {D} (a : arr) : M D arr := fun h => nd_reduce (partial_min (ltb D)) (greatest D) h a.
Definition min_along {D} (a : arr) (k : list Z) : M D arr := fun h => nd_reduce_along (partial_min (ltb D)) (greatest D) h a k.
Definition max {D} (a : arr) : M D arr := fun h => nd_reduce (partial_max (ltb D)) (least D) h a.
Definition max_along {D} (a : arr) (k : list Z) : M D arr := fun h => nd_reduce_along (partial_max (ltb D)) (least D) h a k.
Definition min_magnitude {D} (a : arr) : M D arr := fun h => nd_reduce (partial_min_magnitude (ltb D) (absv D)) (greatest D) h a.
Definition min_magnitude_along {D} (a : arr) (k : list Z) : M D arr := fun h => nd_reduce_along (partial_min_magnitude (ltb D) (absv D)) (greatest D) h a k.
Definition max_magnitude {D} (a : arr) : M D arr := fun h => nd_reduce (partial_max_magnitude (ltb D) (absv D)) (least D) h a.
Definition max_magnitude_along {D} (a : arr) (k : list Z) : M D arr := fun h => nd_reduce_along (partial_max_magnitude (ltb D) (absv D)) (of D 0) h a k.
Definition is {D} (m : M D arr) (e : nest Z) : M D unit :=
  a <~ m ;~ b <~ match e with Leaf x => scalar x | _ => new e end ;~ eq a b.
Definition same {D} (m n : M D arr) : M D unit := a <~ m ;~ b <~ n ;~ eq a b.

(** lines 5-10, should_panic *)
Example test_reduce_panic : panics [t_i32] (fun D => a <~ new (v2 [[1; 1]; [2; 2]; [3; 3]]) ;~ _b <~ sum_along a [0; 0] ;~ ret tt) = true.
Proof. vm_compute; reflexivity. Qed.
(** lines 13-32 *)
Example test_sum : passes all_numeric (fun D => a <~ new (v2 [[1; 1]; [2; 2]; [3; 3]]) ;~
  is (sum_along a [1]) (v1 [2; 4; 6]) ;~ same (sum_along a []) (clone a) ;~ is (sum a) (Leaf 12)) = true.
Proof. vm_compute; reflexivity. Qed.
(** lines 34-46 *)
Example test_sum2 : passes common_numeric (fun D => for_each (from_to 1 23) (fun n => let z := Z.of_nat n in
  a <~ arange 0 n ;~ s <~ sum a ;~ is (ops (mul D) s (of D 2)) (Leaf (z * z - z)))) = true.
Proof. vm_compute; reflexivity. Qed.
(** lines 48-83 *)
Example test_sum_slice : passes common_numeric (fun D =>
  a <~ new (v3 [[[1; 5; 3]; [2; 9; 4]]; [[2; 6; 4]; [3; 8; 3]]; [[3; 7; 5]; [4; 7; 2]]; [[4; 8; 6]; [5; 6; 1]]]) ;~
  s <~ slice a [IRange 1 3; IFull; IIncl 0 1] ;~ is (sum_along s [0; 1]) (v1 [12; 28]) ;~ is (sum s) (Leaf 40) ;~
  s <~ slice a [IFull; IFull; IUsize 0] ;~ is (sum s) (Leaf 24) ;~ is (sum_along s [1]) (v1 [3; 5; 7; 9]) ;~ is (sum_along s [0]) (v1 [10; 14])) = true.
Proof. vm_compute; reflexivity. Qed.
(** lines 85-101 *)
Example test_reduce_multiply : passes all_numeric (fun D => a <~ new (v2 [[1; 1]; [2; 2]; [3; 3]]) ;~
  is (product_along a [1]) (v1 [1; 4; 9]) ;~ same (product_along a []) (clone a) ;~ is (product a) (Leaf 36)) = true.
Proof. vm_compute; reflexivity. Qed.
(** lines 103-125 *)
Example test_reduce_multiply_big : passes common_numeric (fun D =>
  a <~ new (v1 [1; 2; 3; 2; 4; 5; 1; 2; 3; 4; 5; 6; 7; 9]) ;~ is (product a) (Leaf 10886400) ;~
  a <~ new (v1 [1; 2; 3; 2; 4; 5; 1; 2; 3; 4; 5; 6; 7; 9; 2; 3; 2]) ;~ is (product a) (Leaf 130636800) ;~
  a <~ new (v1 [1; 2; 3; 2; 4; 5; 1; 2; 3; 4; 5; 6; 2; 9; 2; 3; 2; 6; 2; 3]) ;~ is (product a) (Leaf 1343692800) ;~
  a <~ new (v1 [1; 2; 3; 2; 4; 5; 1; 2; 3; 4; 1; 5; 1; 2; 2; 3; 2; 6; 2; 3; 3; 6; 4]) ;~ is (product a) (Leaf 1791590400)) = true.
Proof. vm_compute; reflexivity. Qed.
(** lines 127-163 *)
Example test_product_slice : passes common_numeric (fun D =>
  a <~ new (v3 [[[1; 5; 3]; [2; 9; 4]]; [[2; 6; 4]; [3; 8; 3]]; [[3; 7; 5]; [4; 7; 2]]; [[4; 8; 6]; [5; 6; 1]]; [[1; 2; 3]; [4; 5; 6]]]) ;~
  s <~ slice a [IRange 1 3; IFull; IIncl 0 1] ;~ is (product_along s [0; 1]) (v1 [72; 2352]) ;~ is (product s) (Leaf 169344) ;~
  s <~ slice a [IFull; IFull; IUsize 0] ;~ is (product s) (Leaf 11520) ;~ is (product_along s [1]) (v1 [2; 6; 12; 20; 4]) ;~ is (product_along s [0]) (v1 [24; 480])) = true.
Proof. vm_compute; reflexivity. Qed.
(** lines 165-231 *)
Example test_reduce_min : passes all_numeric (fun D => a <~ new (v2 [[1; 3]; [2; 4]; [3; 5]]) ;~ is (min_along a [1]) (v1 [1; 2; 3]) ;~ is (min a) (Leaf 1) ;~
  is (max_along a [1]) (v1 [3; 4; 5]) ;~ is (max a) (Leaf 5)) = true.
Proof. vm_compute; reflexivity. Qed.
Example test_reduce_min_big : passes common_numeric (fun D =>
  a <~ new (v1 [12; 23; 3; 22; 4; 5; 1; 26; 3; 4; 51; 62; 0; 9; 1]) ;~ is (min a) (Leaf 0) ;~ is (max a) (Leaf 62) ;~
  a <~ new (v1 [12; 2; 34; 28; 42; 54; 11; 2; 43; 4; 512; 6; 79; 91; 2; 3; 22]) ;~ is (min a) (Leaf 2) ;~ is (max a) (Leaf 512) ;~
  a <~ new (v1 [1; 2; 3; 2; 4; 5; 1; 2; 3; 4; 5; 6; 2; 9; 2; 3; 2; 6; 2; 3]) ;~ is (min a) (Leaf 1) ;~
  a <~ new (v1 [1; 2; 3; 2; 4; 5; 1; 2; 3; 4; 52; 6; 2; 9; 2; 3; 2; 6; 2; 3]) ;~ is (max a) (Leaf 52) ;~
  a <~ new (v1 [1; 2; 3; 2; 4; 5; 1; 2; 3; 4; 1; 5; 0; 2; 2; 3; 2; 6; 2; 3; 3; 6; 4]) ;~ is (min a) (Leaf 0) ;~
  a <~ new (v1 [1; 2; 3; 2; 4; 5; 1; 2; 3; 4; 1; 5; 0; 200; 2; 3; 2; 6; 2; 3; 3; 6; 4]) ;~ is (max a) (Leaf 200)) = true.
Proof. vm_compute; reflexivity. Qed.
(** lines 233-307 *)
Definition signed_data : nest Z := v3 [[[-1; 5; 36]; [2; 9; -4]]; [[12; 56; 47]; [3; 8; -36]]; [[23; -67; 5]; [-4; 7; 2]]; [[-40; 80; 62]; [5; 6; -90]]; [[-41; 8; 62]; [50; 6; -92]]].
Example test_min_max_slice : passes signed_dtypes (fun D => a <~ new signed_data ;~
  s <~ slice a [IRange 1 3; IFull; IIncl 0 1] ;~ is (min_along s [0; 1]) (v1 [-4; -67]) ;~ is (min s) (Leaf (-67)) ;~
  is (max_along s [0; 1]) (v1 [23; 56]) ;~ is (max s) (Leaf 56) ;~
  s <~ slice a [IFull; IFull; IUsize 0] ;~ is (min s) (Leaf (-41)) ;~ is (min_along s [1]) (v1 [-1; 3; -4; -40; -41]) ;~ is (min_along s [0]) (v1 [-41; -4]) ;~
  is (max s) (Leaf 50) ;~ is (max_along s [1]) (v1 [2; 12; 23; 5; 50]) ;~ is (max_along s [0]) (v1 [23; 50])) = true.
Proof. vm_compute; reflexivity. Qed.
(** lines 309-344 *)
Example test_min_magnitude_unsigned : passes unsigned_dtypes (fun D =>
  a <~ new (v3 [[[1; 5; 36]; [2; 9; 4]]; [[12; 56; 47]; [3; 8; 36]]; [[23; 67; 5]; [4; 7; 2]]; [[40; 80; 62]; [45; 6; 90]]]) ;~
  s <~ slice a [IRange 1 3; IFull; IIncl 0 1] ;~ same (min_magnitude_along s [0; 1]) (min_along s [0; 1]) ;~ same (min_magnitude s) (min s) ;~
  s <~ slice a [IFull; IFull; IUsize 0] ;~ same (min_magnitude s) (min s) ;~ same (min_magnitude_along s [1]) (min_along s [1]) ;~
  same (min_magnitude_along s [0]) (min_along s [0])) = true.
Proof. vm_compute; reflexivity. Qed.
(** lines 346-386 *)
Example test_min_magnitude : passes signed_dtypes (fun D =>
  a <~ new (v3 [[[-1; 5; 36]; [2; 9; -4]]; [[12; 56; 47]; [-3; 8; -36]]; [[23; -67; 5]; [-4; 7; 2]]; [[-40; -80; 62]; [-45; 6; -90]]]) ;~
  is (min_magnitude a) (Leaf 1) ;~
  s <~ slice a [IRange 1 3; IFull; IIncl 0 1] ;~ is (min_magnitude_along s [0; 1]) (v1 [3; 7]) ;~ is (min_magnitude s) (Leaf 3) ;~
  s <~ slice a [IFull; IFull; IUsize 0] ;~ is (min_magnitude s) (Leaf 1) ;~ is (min_magnitude_along s [1]) (v1 [1; 3; 4; 40]) ;~
  is (min_magnitude_along s [0]) (v1 [1; 2])) = true.
Proof. vm_compute; reflexivity. Qed.
(** lines 388-428 *)
Example test_reduce_max_magnitude : passes signed_dtypes (fun D =>
  a <~ new (v3 [[[-3; 5; 36]; [2; 9; -4]]; [[12; 56; 47]; [3; 8; -36]]; [[23; -67; 5]; [-4; 7; 2]]; [[-40; -80; 62]; [-45; 6; -90]]]) ;~
  is (max_magnitude a) (Leaf 90) ;~
  s <~ slice a [IRange 1 3; IFull; IIncl 0 1] ;~ is (max_magnitude_along s [0; 1]) (v1 [23; 67]) ;~ is (max_magnitude s) (Leaf 67) ;~
  s <~ slice a [IFull; IFull; IUsize 0] ;~ is (max_magnitude s) (Leaf 45) ;~ is (max_magnitude_along s [1]) (v1 [3; 12; 23; 45]) ;~
  is (max_magnitude_along s [0]) (v1 [40; 45])) = true.
Proof. vm_compute; reflexivity. Qed.
(** lines 430-446 *)
Definition mean {D} (a : arr) : M D arr := fun h => nd_mean (add D) (div D) (n_of_usize (nty D)) (of D 0) h a.
Definition mean_along {D} (a : arr) (k : list Z) : M D arr := fun h => nd_mean_along (add D) (div D) (n_of_usize (nty D)) (of D 0) h a k.
Example test_mean : passes float_dtypes (fun D => a <~ new (v2 [[1; 3]; [2; 4]; [3; 5]]) ;~
  is (mean_along a [1]) (v1 [2; 3; 4]) ;~ is (mean_along a []) (v2 [[1; 3]; [2; 4]; [3; 5]]) ;~ is (mean a) (Leaf 3)) = true.
Proof. vm_compute; reflexivity. Qed.
(** lines 449-490 *)
Example test_tensor_operations :
  passes [t_i32] (fun D => a <~ new (v2 [[1; 3]; [2; 4]; [3; 5]]) ;~
    is (sum_along a [1]) (v1 [4; 6; 8]) ;~ is (sum a) (Leaf 18) ;~ is (product_along a [1]) (v1 [3; 8; 15]) ;~ is (product a) (Leaf 360) ;~
    is (min_along a [1]) (v1 [1; 2; 3]) ;~ is (max_along a [1]) (v1 [3; 4; 5]) ;~
    s <~ slice a [IFull; IUsize 0] ;~ is (sum s) (Leaf 6) ;~
    a <~ new (v2 [[1; 2]; [3; 4]; [5; 6]]) ;~ is (sum_along a [1]) (v1 [3; 7; 11]) ;~ is (product_along a [1]) (v1 [2; 12; 30]) ;~
    a <~ new (v2 [[10; 20]; [5; 15]; [7; 9]]) ;~ is (min_along a [1]) (v1 [10; 5; 7]) ;~ is (max_along a [1]) (v1 [20; 15; 9]) ;~
    s <~ slice a [IFull; IUsize 1] ;~ is (sum s) (Leaf 44)) &&
  passes [t_f64] (fun D => a <~ new (v2 [[1; 3]; [2; 4]; [3; 5]]) ;~
    is (mean_along a [1]) (v1 [2; 3; 4]) ;~ is (sum_along a [1]) (v1 [4; 6; 8]) ;~ is (product_along a [1]) (v1 [3; 8; 15])) &&
  passes [t_f32] (fun D => a <~ new (v2 [[2; 4]; [6; 8]]) ;~ is (mean_along a [1]) (v1 [3; 7]) ;~ is (product a) (Leaf 384)) = true.
Proof. vm_compute; reflexivity. Qed.
(** lines 492-556 *)
Example test_sum_product_operations : passes [t_i32] (fun D =>
  a <~ new (v2 [[1; 3]; [2; 4]; [3; 5]]) ;~
  s <~ slice a [IFull; IUsize 0] ;~ is (sum s) (Leaf 6) ;~ s <~ slice a [IUsize 1; IFull] ;~ is (sum s) (Leaf 6) ;~
  s <~ slice a [IRange 0 2; IFull] ;~ is (sum s) (Leaf 10) ;~ is (product s) (Leaf 24) ;~ s <~ slice a [IFrom 1; IUsize 1] ;~ is (sum s) (Leaf 9) ;~
  s <~ slice a [IFull; IUsize 1] ;~ is (product s) (Leaf 60) ;~ s <~ slice a [IUsize 0; IFull] ;~ is (product s) (Leaf 3) ;~
  s <~ slice a [IFrom 1; IUsize 0] ;~ is (product s) (Leaf 6) ;~
  b <~ new (v3 [[[1; 2]; [3; 4]]; [[5; 6]; [7; 8]]]) ;~
  is (sum_along b [2]) (v2 [[3; 7]; [11; 15]]) ;~ is (sum_along b [1]) (v2 [[4; 6]; [12; 14]]) ;~ is (sum b) (Leaf 36) ;~
  is (product_along b [2]) (v2 [[2; 12]; [30; 56]]) ;~ is (product_along b [1]) (v2 [[3; 8]; [35; 48]]) ;~ is (product b) (Leaf 40320) ;~
  s <~ slice b [IFull; IUsize 0; IFull] ;~ is (sum s) (Leaf 14) ;~ is (product s) (Leaf 60) ;~
  s <~ slice b [IUsize 1; IFull; IUsize 0] ;~ is (sum s) (Leaf 12) ;~ s <~ slice b [IUsize 1; IFull; IUsize 1] ;~ is (product s) (Leaf 48)) = true.
Proof. vm_compute; reflexivity. Qed.

(** ** tests/unary_ops.rs *)
(** lines 20-39 *)
Definition lift1 {D} (f : C D -> res (C D)) (l : list (C D)) : M D (list (C D)) := pure (mapM f l).
Definition lift2 {D} (f : C D -> C D -> res (C D)) (l m : list (C D)) : M D (list (C D)) := pure (mapM (fun p => f (fst p) (snd p)) (combine l m)).
Example test_neg : passes signed_dtypes (fun D =>
  a <~ scalar 127 ;~ is (op1 (neg D) a) (Leaf (-127)) ;~
  for_each (from_to 1 23) (fun n => a <~ arange 0 n ;~ a <~ squeeze a ;~ l <~ flat a ;~ m <~ lift1 (neg D) l ;~ e <~ new_data m ;~ e <~ squeeze e ;~
    r <~ op1 (neg D) a ;~ eq r e)) = true.
Proof. vm_compute; reflexivity. Qed.
(** lines 41-67, on fixed instead of random data *)
Example test_neg_non_contiguous : passes signed_dtypes (fun D => for_each (from_to 1 23) (fun n =>
  a <~ arange 3 (3 + n * 2) ;~ a <~ reshape a [n; 2]%nat ;~ a <~ slice_along a (-1) (IUsize 0) ;~ l <~ flat a ;~ m <~ lift1 (neg D) l ;~ e <~ new_data m ;~
  r <~ op1 (neg D) a ;~ eq r e ;~
  a <~ arange 3 (3 + n * 3) ;~ a <~ reshape a [n; 3]%nat ;~ a <~ slice_along a (-1) (IRange 0 2) ;~ l <~ flat a ;~ m <~ lift1 (neg D) l ;~
  e <~ new_data m ;~ e <~ reshape e [n; 2]%nat ;~ r <~ op1 (neg D) a ;~ eq r e)) = true.
Proof. vm_compute; reflexivity. Qed.

(** ** tests/binary_ops.rs *)
(** lines 6-35; the operands of the four kinds of ownership are computed alike *)
Example test_add : passes all_numeric (fun D => for_each (from_to 1 23) (fun n =>
  a <~ arange 0 n ;~ a <~ squeeze a ;~ b <~ arange n (n * 2) ;~ b <~ squeeze b ;~
  e <~ arange_step (Z.of_nat n) (3 * Z.of_nat n) 2 ;~ e <~ squeeze e ;~
  r <~ op2 (add D) a b ;~ eq r e ;~ r <~ op2 (add D) b a ;~ eq r e)) = true.
Proof. vm_compute; reflexivity. Qed.
(** The operands of lines 37-106, 189-258, 340-409 and 476-546 on fixed instead of random data: strides
    [k] and [1], [k] and [j], [1] and non-uniform, [k] and non-uniform, both non-uniform; the
    expected array is computed from the flat lists *)
Definition data {D} (k : nat) (sh : list nat) : M D arr := a <~ new_vec 1 (v1 (map (fun i => Z.of_nat ((i * 7 + k) mod 9 + 1)) (seq 0 (prod sh)))) ;~ reshape a sh.
Definition both {D} (f : C D -> C D -> res (C D)) (a b : arr) (sh : list nat) : M D unit :=
  l <~ flat a ;~ m <~ flat b ;~ x <~ lift2 f l m ;~ e <~ new_data x ;~ e <~ reshape e sh ;~ r <~ op2 f a b ;~ eq r e ;~
  x <~ lift2 f m l ;~ e <~ new_data x ;~ e <~ reshape e sh ;~ r <~ op2 f b a ;~ eq r e.
(** the longer loops are run for one integer and one floating-point type *)
Definition two := [t_i32; t_f32].
Definition non_contiguous {D} (f : C D -> C D -> res (C D)) : M D unit := for_each (from_to 1 23) (fun n =>
  a <~ data 1 [n; 2]%nat ;~ a <~ slice_along a (-1) (IUsize 0) ;~ b <~ data 2 [n] ;~ both f a b [n] ;~
  b <~ data 3 [n; 3]%nat ;~ b <~ slice_along b (-1) (IUsize 0) ;~ both f a b [n] ;~
  a <~ data 4 [n; 2]%nat ;~ b <~ data 5 [n; 3]%nat ;~ b <~ slice_along b (-1) (IRange 0 2) ;~ both f a b [n; 2]%nat ;~
  a <~ data 6 [n; 2; 2]%nat ;~ a <~ slice_along a (-1) (IUsize 0) ;~ both f a b [n; 2]%nat ;~
  a <~ data 7 [n; 3]%nat ;~ a <~ slice_along a (-1) (IRange 0 2) ;~ b <~ data 8 [n; 5]%nat ;~ b <~ slice_along b (-1) (IRange 2 4) ;~ both f a b [n; 2]%nat).
Example test_add_non_contiguous : passes two (fun D => non_contiguous (add D)) = true.
Proof. vm_compute; reflexivity. Qed.
Example test_sub_non_contiguous : passes two (fun D => non_contiguous (sub D)) = true.
Proof. vm_compute; reflexivity. Qed.
Example test_mul_non_contiguous : passes two (fun D => non_contiguous (mul D)) = true.
Proof. vm_compute; reflexivity. Qed.
Example test_div_non_contiguous : passes [t_f32] (fun D => non_contiguous (div D)) = true.
Proof. vm_compute; reflexivity. Qed.
(** lines 108-154, 260-306, 411-457 and 548-595 likewise, with a scalar *)
Definition with_scalar {D} (f : C D -> C D -> res (C D)) : M D unit :=
  five <~ scalar 5 ;~
  let check a sh := l <~ flat a ;~ x <~ lift1 (fun v => f v (of D 5)) l ;~ e <~ new_data x ;~ e <~ reshape e sh ;~
    r <~ op2 f a five ;~ almost r e ;~ r <~ ops f a (of D 5) ;~ almost r e ;~
    x <~ lift1 (fun v => f (of D 5) v) l ;~ e <~ new_data x ;~ e <~ reshape e sh ;~ r <~ op2 f five a ;~ almost r e in
  for_each (from_to 1 23) (fun n =>
    a <~ data 1 [n] ;~ check a [n] ;~ a <~ data 2 [n; 2]%nat ;~ a <~ slice_along a (-1) (IUsize 0) ;~ check a [n] ;~
    a <~ data 3 [n; 3]%nat ;~ a <~ slice_along a (-1) (IRange 0 2) ;~ check a [n; 2]%nat).
Example test_add_scalar : passes two (fun D => a <~ scalar 10 ;~ b <~ scalar 5 ;~ is (op2 (add D) a b) (Leaf 15) ;~ is (op2 (add D) b a) (Leaf 15) ;~
  is (ops (add D) a (of D 5)) (Leaf 15) ;~ with_scalar (add D)) = true.
Proof. vm_compute; reflexivity. Qed.
Example test_sub_scalar : passes two (fun D => a <~ scalar 10 ;~ b <~ scalar 5 ;~ is (op2 (sub D) a b) (Leaf 5) ;~ is (op2 (sub D) b a) (Leaf (-5)) ;~
  is (ops (sub D) a (of D 5)) (Leaf 5) ;~ with_scalar (sub D)) = true.
Proof. vm_compute; reflexivity. Qed.
Example test_mul_scalar : passes two (fun D => a <~ scalar 10 ;~ b <~ scalar 5 ;~ is (op2 (mul D) a b) (Leaf 50) ;~ is (op2 (mul D) b a) (Leaf 50) ;~
  is (ops (mul D) a (of D 5)) (Leaf 50) ;~ with_scalar (mul D)) = true.
Proof. vm_compute; reflexivity. Qed.
Example test_div_scalar : passes [t_f32] (fun D => a <~ scalar 10 ;~ b <~ scalar 5 ;~ is (op2 (div D) a b) (Leaf 2) ;~
  is (ops (div D) a (of D 5)) (Leaf 2) ;~ with_scalar (div D)) = true.
Proof. vm_compute; reflexivity. Qed.
(** lines 156-187, 308-338, 459-474 *)
Definition ranges {D} (f : C D -> C D -> res (C D)) : M D unit := for_each (from_to 1 23) (fun n =>
  a <~ arange 0 n ;~ a <~ squeeze a ;~ b <~ arange n (n * 2) ;~ b <~ squeeze b ;~ l <~ flat a ;~ m <~ flat b ;~
  x <~ lift2 f l m ;~ e <~ new_data x ;~ e <~ squeeze e ;~ r <~ op2 f a b ;~ eq r e).
Example test_sub : passes two (fun D => ranges (sub D)) = true. Proof. vm_compute; reflexivity. Qed.
Example test_mul : passes two (fun D => ranges (mul D)) = true. Proof. vm_compute; reflexivity. Qed.
Example test_div : passes [t_f32] (fun D => ranges (div D)) = true. Proof. vm_compute; reflexivity. Qed.
(** lines 597-714 *)
Definition z2 (f : Z -> Z -> Z) : C t_i32 -> C t_i32 -> res (C t_i32) := fun x y => Ok (f x y).
Definition passes32 (t : M t_i32 unit) : bool := match t [] with Ok _ => true | _ => false end.
Definition panics32 (t : M t_i32 unit) : bool := match t [] with Panic => true | _ => false end.
Example test_broadcast_ops : passes32 (
  a <~ new (v2 [[1; 2]; [3; 4]; [5; 6]]) ;~ b <~ new (v1 [2; 4]) ;~ is (op2 (add t_i32) a b) (v2 [[3; 6]; [5; 8]; [7; 10]]) ;~
  five <~ scalar 5 ;~ is (ops (add t_i32) a 5) (v2 [[6; 7]; [8; 9]; [10; 11]]) ;~ is (op2 (add t_i32) a five) (v2 [[6; 7]; [8; 9]; [10; 11]]) ;~
  is (op2 (add t_i32) five a) (v2 [[6; 7]; [8; 9]; [10; 11]]) ;~ eq a a ;~
  is (ops (add t_i32) five 5) (Leaf 10) ;~ is (op2 (add t_i32) five five) (Leaf 10) ;~
  a <~ new (v2 [[1; 3]; [2; 2]; [3; 7]]) ;~ is (op2 (rem t_i32) a b) (v2 [[1; 3]; [0; 2]; [1; 3]]) ;~
  c <~ new (v1 [1; 2]) ;~ is (op2 (z2 Z.land) a c) (v2 [[1; 2]; [0; 2]; [1; 2]]) ;~ is (op2 (z2 Z.lor) a c) (v2 [[1; 3]; [3; 2]; [3; 7]]) ;~
  a <~ new (v2 [[1; 2]; [4; 8]; [16; 32]]) ;~ is (op2 (z2 Z.shiftl) a c) (v2 [[2; 8]; [8; 32]; [32; 128]]) ;~
  a <~ new (v2 [[2; 4]; [8; 16]; [32; 64]]) ;~ is (op2 (z2 Z.shiftr) a c) (v2 [[1; 1]; [4; 4]; [16; 16]])) = true.
Proof. vm_compute; reflexivity. Qed.
(** lines 716-750 *)
Example test_iadd_isub : passes32 (
  a <~ new (v2 [[1; 2]; [3; 4]; [5; 6]]) ;~ b <~ new (v1 [2; 4]) ;~
  assign (add t_i32) a b ;~ is (ret a) (v2 [[3; 6]; [5; 8]; [7; 10]]) ;~ assign (add t_i32) a b ;~ is (ret a) (v2 [[5; 10]; [7; 12]; [9; 14]]) ;~
  assign_s (add t_i32) a 5 ;~ is (ret a) (v2 [[10; 15]; [12; 17]; [14; 19]]) ;~
  a <~ new (v2 [[1; 2]; [3; 4]; [5; 6]]) ;~
  assign (sub t_i32) a b ;~ is (ret a) (v2 [[-1; -2]; [1; 0]; [3; 2]]) ;~ assign (sub t_i32) a b ;~ is (ret a) (v2 [[-3; -6]; [-1; -4]; [1; -2]]) ;~
  assign_s (sub t_i32) a 1 ;~ is (ret a) (v2 [[-4; -7]; [-2; -5]; [0; -3]])) = true.
Proof. vm_compute; reflexivity. Qed.
(** lines 752-776, should_panic *)
Example test_ops_panic :
  panics32 (a <~ new (v2 [[1; 2]; [3; 4]; [5; 6]]) ;~ b <~ new (v1 [2; 4; 6]) ;~ _r <~ op2 (add t_i32) a b ;~ ret tt) &&
  panics32 (a <~ new (v1 [2; 4; 6]) ;~ b <~ new (v2 [[1; 2]; [3; 4]; [5; 6]]) ;~ assign (add t_i32) a b) &&
  panics32 (a <~ new (v1 [2; 4; 6]) ;~ a <~ pure (nd_broadcast_to a [3; 3]%nat) ;~ b <~ new (v2 [[1; 2; 3]; [3; 4; 5]; [5; 6; 7]]) ;~ assign (add t_i32) a b) = true.
Proof. vm_compute; reflexivity. Qed.

(** ** tests/astype.rs: every conversion between the twelve types there, of 0..4 in one and of
    0..3 in two dimensions *)
Definition literal (d : dtype) (z : Z) : carrier d := match d with IntT _ _ => z | FloatT f => of_Z f z end.
Definition carrier_eqb (d : dtype) : carrier d -> carrier d -> bool := match d with IntT _ _ => Z.eqb | FloatT _ => SFeqb end.
Definition astype_ok (sh : list nat) (l : list Z) (s d : dtype) : bool :=
  let '(h, a) := from_buffer [] sh (map (literal s) l) in let '(hd, e) := from_buffer [] sh (map (literal d) l) in
  match nd_cast s d h hd a with Ok (h', r) => match nd_eq (carrier_eqb d) h' e r with Ok b => b | _ => false end | _ => false end.
Example test_astype : forallb (fun s => forallb (fun d => astype_ok [5]%nat [0; 1; 2; 3; 4] s d && astype_ok [2; 2]%nat [0; 1; 2; 3] s d) dtypes) dtypes = true.
Proof. vm_compute; reflexivity. Qed.
