(** ConformLinalg.v: the repository's own tests of einsum and the matrix functions, run on the
    model; see Conform.v. *)
From Coq Require Import String.
From Coq Require Import List Arith Bool ZArith.
From Verif Require Import Base Layout Views Nested Access Numeric Einsum Conform ConformOps.
Import ListNotations.
Local Open Scope string_scope.
Local Open Scope list_scope.
Local Open Scope Z_scope.

Definition almost_is {D} (m : M D arr) (e : nest Z) : M D unit :=
  a <~ m ;~ b <~ match e with Leaf x => scalar x | _ => new e end ;~ almost a b.
Definition almost_same {D} (m n : M D arr) : M D unit := a <~ m ;~ b <~ n ;~ almost a b.

(** ** tests/einsum.rs *)
(** lines 5-59, should_panic; 194 and 177 are the bytes of the first letter of line 10 *)
Definition panics_einsum (a b : nest Z) (subs : list string) (out : string) : bool :=
  panics [t_i32] (fun D => a <~ new a ;~ b <~ new b ;~ _r <~ einsum [a; b] subs out ;~ ret tt).
Definition pm : string := String (Ascii.ascii_of_nat 194) (String (Ascii.ascii_of_nat 177) EmptyString).
Example test_einsum_panics :
  let a := v2 [[1; 2]; [0; 0]] in let b := v2 [[3; 4]; [5; 5]] in
  panics_einsum a b [append pm "i"; "i-"] "i" && panics_einsum a b ["ij"; "jk"] (append "i" pm) && panics_einsum a b ["01"; "12"] "02" &&
  panics_einsum a b ["i"; "jk"] "ik" && panics_einsum a b ["i"; "jk"] "02" &&
  panics_einsum (v2 [[1; 2]]) (v2 [[3; 4]; [5; 6]; [7; 8]]) ["ij"; "jk"] "ik" &&
  panics_einsum (v2 [[1; 2]]) (v2 [[3; 4]; [5; 6]; [7; 8]]) ["ij"; "kl"] "m" = true.
Proof. vm_compute; reflexivity. Qed.
(** lines 62-79; for one integer and one floating-point type, as the longer tests below *)
Example test_einsum_sums : passes two (fun D => for_each (from_to 1 17) (fun n =>
  a <~ arange 0 n ;~ almost_same (einsum [a] ["i"] "") (sum a) ;~
  a <~ arange 0 (n * n) ;~ a <~ reshape a [n; n] ;~ almost_same (einsum [a] ["ii"] "") (trace a 0 0 1))) = true.
Proof. vm_compute; reflexivity. Qed.
(** lines 81-167, with fewer and smaller n *)
Example test_einsum_sum_slice : passes [t_i32] (fun D =>
  for_each [100; 200]%nat (fun n => a <~ arange 0 (2 * n) ;~ a <~ reshape a [n; 2]%nat ;~ a <~ slice_along a 1 (IUsize 0) ;~ a <~ reshape a [n] ;~
    almost_same (einsum [a] ["i"] "") (sum a)) ;~
  for_each (stepped 1 20 5) (fun n => a <~ arange 0 (2 * n * n) ;~ a <~ reshape a [n; 2; n]%nat ;~ a <~ slice_along a 1 (IUsize 0) ;~
    almost_same (einsum [a] ["ij"] "") (sum a) ;~ almost_same (einsum [a] ["ij"] "j") (sum_along a [0]) ;~ almost_same (einsum [a] ["ij"] "i") (sum_along a [1])) ;~
  for_each (stepped 1 20 5) (fun n => a <~ arange 0 (2 * 2 * n * n) ;~ a <~ reshape a [n; 2; n; 2]%nat ;~ a <~ slice a [IFull; IUsize 0; IFull; IUsize 0] ;~
    almost_same (einsum [a] ["ij"] "") (sum a) ;~ almost_same (einsum [a] ["ij"] "j") (sum_along a [0]) ;~ almost_same (einsum [a] ["ij"] "i") (sum_along a [1])) ;~
  for_each [3; 8]%nat (fun n => a <~ arange 0 (2 * 2 * n * n) ;~ a <~ reshape a [n; 2; n; 2]%nat ;~ a <~ slice a [IFull; IFull; IFull; IUsize 0] ;~
    almost_same (einsum [a] ["ijk"] "") (sum a) ;~ almost_same (einsum [a] ["ijk"] "jk") (sum_along a [0]) ;~
    almost_same (einsum [a] ["ijk"] "ik") (sum_along a [1]) ;~ almost_same (einsum [a] ["ijk"] "ij") (sum_along a [2]) ;~
    s2 <~ sum_along a [2] ;~ almost_same (einsum [a] ["ijk"] "i") (sum_along s2 [1]) ;~ almost_same (einsum [a] ["ijk"] "j") (sum_along s2 [0]) ;~
    s1 <~ sum_along a [1] ;~ almost_same (einsum [a] ["ijk"] "k") (sum_along s1 [0]))) = true.
Proof. vm_compute; reflexivity. Qed.
(** the expected arrays the tests compute by loops over the elements *)
Definition tabulate {D} (ns : list nat) (f : list nat -> M D (C D)) : M D (list (C D)) :=
  (fix go (l : list (list nat)) := match l with [] => ret [] | i :: l' => x <~ f i ;~ r <~ go l' ;~ ret (x :: r) end)
    (fold_right (fun n acc => flat_map (fun i => map (cons i) acc) (seq 0 n)) [[]] ns).
Fixpoint sum_of {D} (l : list (M D (C D))) (acc : C D) : M D (C D) :=
  match l with [] => ret acc | m :: l' => x <~ m ;~ s <~ pure (add D acc x) ;~ sum_of l' s end.
Definition elem {D} (a : arr) (i : list nat) : M D (C D) := read (fun h => nd_index h a i).
Definition times {D} (m n : M D (C D)) : M D (C D) := x <~ m ;~ y <~ n ;~ pure (mul D x y).
(** lines 169-202 *)
Example test_einsum_matmul : passes common_numeric (fun D =>
    a <~ new (v2 [[1; 2]; [3; 4]]) ;~ b <~ new (v2 [[5; 6]; [7; 8]]) ;~ almost_is (einsum [a; b] ["ij"; "jk"] "ik") (v2 [[19; 22]; [43; 50]])) &&
  passes [t_i32] (fun D => let n := 20%nat in
    a <~ arange 0 (n * n) ;~ b <~ arange n (n + n * n) ;~ a <~ reshape a [n; n] ;~ b <~ reshape b [n; n] ;~
    l <~ tabulate [n; n] (fun ik => sum_of (map (fun j => times (elem a [nth 0 ik 0; j]%nat) (elem b [j; nth 1 ik 0]%nat)) (seq 0 n)) (of D 0)) ;~
    e <~ new_data l ;~ e <~ reshape e [n; n] ;~ r <~ einsum [a; b] ["ij"; "jk"] "ik" ;~ almost r e) = true.
Proof. vm_compute; reflexivity. Qed.
(** lines 204-226 *)
Example test_einsum_matrix_vector : passes two (fun D => let n := 20%nat in
  a <~ arange 0 (n * n) ;~ b <~ arange n (2 * n) ;~ a <~ reshape a [n; n] ;~
  l <~ tabulate [n] (fun i => sum_of (map (fun j => times (elem a [nth 0 i 0; j]%nat) (elem b [j])) (seq 0 n)) (of D 0)) ;~
  e <~ new_data l ;~ r <~ einsum [a; b] ["ij"; "j"] "i" ;~ almost r e) = true.
Proof. vm_compute; reflexivity. Qed.
(** lines 228-250 *)
Example test_einsum_pointwise_multiplication : passes all_numeric (fun D =>
    a <~ new (v2 [[1; 2; 3]; [0; 1; 2]; [4; 5; 6]]) ;~ b <~ new (v2 [[5; 6; 7]; [10; 20; 30]; [3; 6; 9]]) ;~
    almost_is (einsum [a; b] ["ij"; "ij"] "ij") (v2 [[5; 12; 21]; [0; 20; 60]; [12; 30; 54]])) &&
  passes [t_i32] (fun D => a <~ arange 0 20 ;~ b <~ arange_step 19 (-1) (-1) ;~ a <~ reshape a [2; 10]%nat ;~ b <~ reshape b [2; 10]%nat ;~
    l <~ flat a ;~ m <~ flat b ;~ x <~ lift2 (mul D) l m ;~ e <~ new_data x ;~ e <~ reshape e [2; 10]%nat ;~ r <~ einsum [a; b] ["ij"; "ij"] "ij" ;~ almost r e) = true.
Proof. vm_compute; reflexivity. Qed.
(** lines 252-302 *)
Example test_einsum_ij_ki : passes two (fun D => b <~ arange_step 19 (-1) (-1) ;~ b <~ reshape b [10; 2]%nat ;~
  a <~ arange 0 20 ;~ a <~ reshape a [2; 10]%nat ;~
  l <~ tabulate [10]%nat (fun j => sum_of (flat_map (fun i => map (fun k => times (elem a [i; nth 0 j 0]%nat) (elem b [k; i])) (seq 0 10)) (seq 0 2)) (of D 0)) ;~
  e <~ new_data l ;~ r <~ einsum [a; b] ["ij"; "ki"] "j" ;~ almost r e ;~
  a <~ arange 0 46 ;~ a <~ reshape a [2; 23]%nat ;~
  l <~ tabulate [2]%nat (fun i => sum_of (flat_map (fun j => map (fun k => times (elem a [nth 0 i 0; j]%nat) (elem b [k; nth 0 i 0]%nat)) (seq 0 10)) (seq 0 23)) (of D 0)) ;~
  e <~ new_data l ;~ r <~ einsum [a; b] ["ij"; "ki"] "i" ;~ almost r e) = true.
Proof. vm_compute; reflexivity. Qed.
(** lines 304-322, 351-372, 548-583 *)
Example test_einsum_small : passes all_numeric (fun D => a <~ new (v2 [[1; 2]; [0; 1]]) ;~ b <~ new (v2 [[5; 6]; [10; 20]]) ;~
  almost_is (einsum [a; b] ["ij"; "jk"] "i") (v1 [71; 30]) ;~ almost_is (einsum [a; b] ["ij"; "jk"] "j") (v1 [11; 90]) ;~
  c <~ new (v2 [[1; 2; 3]; [4; 5; 6]]) ;~ almost_is (einsum [c] ["ij"] "i") (v1 [6; 15]) ;~
  almost_is (einsum [a; b] ["ij"; "ik"] "") (Leaf 63) ;~ almost_is (einsum [a; b] ["ij"; "jk"] "") (Leaf 101) ;~
  almost_is (einsum [a; b] ["ij"; "ki"] "") (Leaf 71) ;~ almost_is (einsum [a; b] ["ij"; "kj"] "") (Leaf 93) ;~
  almost_is (einsum [a; b] ["ij"; "kj"] "ijk") (v3 [[[5; 10]; [12; 40]]; [[0; 0]; [6; 20]]]) ;~
  almost_is (einsum [a; b] ["ij"; "ik"] "ijk") (v3 [[[5; 6]; [10; 12]]; [[0; 0]; [10; 20]]]) ;~
  x <~ new (v1 [1; 2; 3]) ;~ y <~ new (v1 [4; 5; 6]) ;~ almost_is (einsum [x; y] ["i"; "i"] "") (Leaf 32) ;~
  x <~ new (v1 [1; 2]) ;~ y <~ new (v1 [3; 4; 5]) ;~ almost_is (einsum [x; y] ["i"; "j"] "ij") (v2 [[3; 4; 5]; [6; 8; 10]])) = true.
Proof. vm_compute; reflexivity. Qed.
(** lines 324-349, 374-402, 464-492, 494-519 with n = 9.  The tests of lines 404-462 and 521-546 are the same
    with the entries scaled by constants such as 0.001, and are left out *)
Definition sop {D} (a b : arr) (n : nat) (swap : bool) : M D (C D) :=
  sum_of (flat_map (fun i => flat_map (fun j => map (fun k => times (elem a [i; j]) (elem b (if swap then [k; j] else [j; k]))) (seq 0 n)) (seq 0 n)) (seq 0 n)) (of D 0).
Example test_einsum_sum_product_slices : passes [t_i32] (fun D => let n := 9%nat in
  a <~ arange 0 (2 * 2 * n * n) ;~ a <~ reshape a [n; 2; n; 2]%nat ;~ a <~ slice a [IFull; IUsize 0; IFull; IUsize 0] ;~
  b <~ arange 0 (2 * 2 * n * n) ;~ b <~ reshape b [n; 2; n; 2]%nat ;~ b <~ slice b [IFull; IUsize 0; IFull; IUsize 0] ;~
  x <~ sop a b n false ;~ e <~ (fun h => nd_scalar h x) ;~ r <~ einsum [a; b] ["ij"; "jk"] "" ;~ almost r e ;~
  a <~ arange 0 (n * n) ;~ a <~ reshape a [n; n] ;~ b <~ arange 0 (2 * n * n) ;~ b <~ reshape b [n; n; 2]%nat ;~ b <~ slice_along b 2 (IUsize 0) ;~
  x <~ sop a b n false ;~ e <~ (fun h => nd_scalar h x) ;~ r <~ einsum [a; b] ["ij"; "jk"] "" ;~ almost r e ;~
  x <~ sop a a n true ;~ e <~ (fun h => nd_scalar h x) ;~ r <~ einsum [a; a] ["ij"; "kj"] "" ;~ almost r e ;~
  l <~ tabulate [n] (fun i => sum_of (flat_map (fun j => map (fun k => times (elem a [nth 0 i 0; j]%nat) (elem a [j; k])) (seq 0 n)) (seq 0 n)) (of D 0)) ;~
  e <~ new_data l ;~ r <~ einsum [a; a] ["ij"; "jk"] "i" ;~ almost r e) = true.
Proof. vm_compute; reflexivity. Qed.
(** lines 585-648 *)
Example test_einsum_operands : passes two (fun D =>
  a <~ new (v2 [[1; 2]; [3; 4]]) ;~ b <~ new (v2 [[5; 6]; [7; 8]]) ;~
  almost_is (einsum [a; b] ["ij"; "kl"] "ijkl") (v4 [[[[5; 6]; [7; 8]]; [[10; 12]; [14; 16]]]; [[[15; 18]; [21; 24]]; [[20; 24]; [28; 32]]]]) ;~
  ten <~ scalar 10 ;~ almost_is (einsum [a; ten] ["ij"; ""] "ij") (v2 [[10; 20]; [30; 40]]) ;~
  a <~ new (v2 [[1; 2]; [3; 4]; [5; 1]]) ;~ b <~ new (v2 [[5; 6; 2; 2]; [7; 8; 1; 0]]) ;~ c <~ new (v2 [[1; 0]; [0; 1]; [0; 2]; [2; 0]]) ;~
  p <~ einsum [a; b] ["ij"; "jk"] "ik" ;~ almost_same (einsum [a; b; c] ["ij"; "jk"; "kl"] "il") (einsum [p; c] ["ik"; "kl"] "il") ;~
  let n := 20%nat in a <~ arange 0 n ;~
  x <~ sum_of (flat_map (fun i => flat_map (fun j => map (fun k => times (times (elem a [i]) (elem a [j])) (elem a [k])) (seq 0 n)) (seq 0 n)) (seq 0 n)) (of D 0) ;~
  e <~ (fun h => nd_scalar h x) ;~ r <~ einsum [a; a; a] ["i"; "j"; "k"] "" ;~ almost r e) = true.
Proof. vm_compute; reflexivity. Qed.
(** lines 650-743 *)
Example test_einsum_views : passes all_numeric (fun D =>
  a <~ new (v2 [[1; 2; 3]; [4; 5; 6]]) ;~ t <~ pure (nd_T ByRef a) ;~
  almost_is (einsum [a] ["ij"] "ji") (v2 [[1; 4]; [2; 5]; [3; 6]]) ;~ almost_same (einsum [a] ["ij"] "ji") (ret t) ;~
  almost_is (einsum_v a "ij" "ji") (v2 [[1; 4]; [2; 5]; [3; 6]]) ;~ almost_same (einsum_v a "ij" "ji") (ret t) ;~
  a <~ new (v1 [1; 2]) ;~ b <~ new (v2 [[3; 4; 5]; [6; 7; 8]]) ;~ almost_is (einsum [a; b] ["i"; "ij"] "ij") (v2 [[3; 4; 5]; [12; 14; 16]]) ;~
  b <~ new (v2 [[3; 4]; [5; 6]]) ;~ almost_is (einsum [a; b] ["i"; "ij"] "ij") (v2 [[3; 4]; [10; 12]]) ;~
  a <~ new (v2 [[1; 2; 3]; [4; 5; 6]; [7; 8; 9]]) ;~ almost_same (einsum [a] ["ii"] "i") (diagonal a 0 0 1) ;~ almost_same (einsum_v a "ii" "i") (diagonal a 0 0 1) ;~
  a <~ new (v3 [[[1; 2]; [3; 4]]]) ;~ b <~ new (v2 [[5; 6]; [7; 8]]) ;~ almost_is (einsum [a; b] ["ijk"; "kl"] "ijl") (v3 [[[19; 22]; [43; 50]]]) ;~
  b <~ new (v3 [[[5; 6]; [7; 8]]]) ;~ almost_is (einsum [a; b] ["bij"; "bjk"] "bik") (v3 [[[19; 22]; [43; 50]]]) ;~
  a <~ new (v2 [[1; 2]; [3; 4]]) ;~ almost_is (einsum [a] ["ij"] "") (Leaf 10) ;~
  a <~ new (v2 [[9; 8]; [7; 6]]) ;~ almost_same (einsum [a] ["ij"] "ij") (ret a) ;~
  a <~ new (v2 [[0; 0]; [0; 0]]) ;~ almost_same (einsum [a] ["ij"] "ij") (ret a) ;~ almost_same (einsum_v a "ij" "ij") (ret a)) = true.
Proof. vm_compute; reflexivity. Qed.

(** lines 745-784, on fixed instead of random data and fewer sizes *)
Example test_einsum_batched_matmul : passes two (fun D => for_each [1; 10]%nat (fun b => for_each [1; 3]%nat (fun m => for_each [1; 9]%nat (fun k => for_each [1; 7]%nat (fun n =>
  x <~ data 2 [b; m; k] ;~ y <~ data 5 [b; k; n] ;~
  l <~ tabulate [b; m; n] (fun i => sum_of (map (fun kk => times (elem x [nth 0 i 0; nth 1 i 0; kk]%nat) (elem y [nth 0 i 0; kk; nth 2 i 0]%nat)) (seq 0 k)) (of D 0)) ;~
  e <~ new_data l ;~ e <~ reshape e [b; m; n] ;~ r <~ einsum [x; y] ["bik"; "bkj"] "bij" ;~ eq r e))))) = true.
Proof. vm_compute; reflexivity. Qed.

(** ** tests/matrix_ops.rs *)
(** lines 6-125, should_panic *)
Definition range_in {D} (n : nat) (sh : list nat) : M D arr := a <~ arange 0 n ;~ reshape a sh.
Definition panics_with (f : forall D, M D arr) : bool := panics [t_i32] (fun D => _r <~ f D ;~ ret tt).
Example test_invalid :
  panics_with (fun D => a <~ range_in 12 [3; 4]%nat ;~ diagonal a 0 3 0) && panics_with (fun D => a <~ range_in 12 [3; 4]%nat ;~ diagonal a 0 0 3) &&
  panics_with (fun D => a <~ range_in 12 [3; 4]%nat ;~ diagonal a 0 0 0) &&
  panics_with (fun D => a <~ range_in 12 [3; 4]%nat ;~ b <~ arange 0 12 ;~ dot a b) && panics_with (fun D => a <~ arange 0 12 ;~ b <~ range_in 12 [3; 4]%nat ;~ dot a b) &&
  panics_with (fun D => a <~ arange 0 12 ;~ b <~ arange 0 11 ;~ dot a b) &&
  panics_with (fun D => a <~ range_in 12 [3; 2; 2]%nat ;~ b <~ arange 0 2 ;~ matmul a b) && panics_with (fun D => a <~ range_in 6 [2; 3]%nat ;~ b <~ range_in 6 [2; 3]%nat ;~ matmul a b) &&
  panics_with (fun D => a <~ range_in 6 [2; 3]%nat ;~ b <~ arange 0 4 ;~ matmul a b) && panics_with (fun D => a <~ range_in 12 [3; 2; 2]%nat ;~ b <~ range_in 6 [2; 3]%nat ;~ matmul a b) &&
  panics_with (fun D => a <~ range_in 6 [2; 3]%nat ;~ b <~ range_in 12 [2; 2; 3]%nat ;~ matmul a b) && panics_with (fun D => a <~ range_in 6 [2; 3]%nat ;~ b <~ range_in 8 [4; 2]%nat ;~ matmul a b) = true.
Proof. vm_compute; reflexivity. Qed.
(** lines 127-152; the products by 6 of a range are written as ranges with step 6 *)
Example test_dot : passes all_numeric (fun D => a <~ new (v1 [5; 8; 1; 2]) ;~ b <~ new (v1 [4; 2; 7; 3]) ;~ is (dot a b) (Leaf 49) ;~ is (dot b a) (Leaf 49)) &&
  passes common_numeric (fun D => for_each (stepped 1 30 3) (fun n => let z := Z.of_nat n in
    a <~ arange_step 0 (6 * z) 6 ;~ b <~ arange 5 (5 + n) ;~
    is (dot a b) (Leaf ((z - 1) * z * (2 * z + 14))) ;~ is (dot b a) (Leaf ((z - 1) * z * (2 * z + 14))) ;~ is (matmul a b) (Leaf ((z - 1) * z * (2 * z + 14))))) = true.
Proof. vm_compute; reflexivity. Qed.
(** lines 154-196 *)
Example test_matvec : passes two (fun D => for_each (stepped 1 28 9) (fun m => for_each (stepped 1 30 3) (fun n =>
    a <~ arange_step 0 (6 * Z.of_nat (m * n)) 6 ;~ a <~ reshape a [m; n] ;~ b <~ arange 5 (5 + n) ;~ same (matmul a b) (einsum [a; b] ["ij"; "j"] "i")))) &&
  passes [t_i32] (fun D => for_each (stepped 1 28 9) (fun m => for_each (stepped 1 30 3) (fun n =>
    a <~ arange_step 0 (6 * Z.of_nat (m * (n + 2) * 2)) 6 ;~ a <~ reshape a [m; n + 2; 2]%nat ;~ a <~ slice a [IFull; IFrom 2; IUsize 0] ;~ is_uniform a None ;~
    b <~ arange 0 (n * 2) ;~ b <~ reshape b [n; 2]%nat ;~ b <~ slice_along b 1 (IUsize 0) ;~ contiguous b false ;~ same (matmul a b) (einsum [a; b] ["ij"; "j"] "i")))) = true.
Proof. vm_compute; reflexivity. Qed.
(** lines 198-218, 240-266; fewer sizes *)
Example test_matmat : passes [t_i32] (fun D => for_each [1; 7]%nat (fun m => for_each [1; 10]%nat (fun k => for_each [1; 10]%nat (fun n =>
    a <~ arange_step 0 (3 * Z.of_nat (m * k)) 3 ;~ a <~ reshape a [m; k] ;~ b <~ arange_step 0 (7 * Z.of_nat (k * n)) 7 ;~ b <~ reshape b [k; n] ;~
    same (matmul a b) (einsum [a; b] ["ik"; "kj"] "ij"))))) &&
  passes [t_i32] (fun D => for_each [1; 10]%nat (fun m => for_each [1; 5]%nat (fun k => for_each [1; 7]%nat (fun n =>
    a <~ arange_step 0 (6 * Z.of_nat (m * (k + 3) * 2)) 6 ;~ a <~ reshape a [m; k + 3; 2]%nat ;~ a <~ slice a [IFull; IRange 2 (k + 2); IUsize 0] ;~ shape a [m; k] ;~ is_uniform a None ;~
    b <~ arange_step 0 (7 * Z.of_nat (k * (n + 2) * 2)) 7 ;~ b <~ reshape b [k; n + 2; 2]%nat ;~ b <~ slice b [IFull; ITo n; IUsize 0] ;~ shape b [k; n] ;~ contiguous b false ;~
    same (matmul a b) (einsum [a; b] ["ik"; "kj"] "ij"))))) = true.
Proof. vm_compute; reflexivity. Qed.
(** lines 220-238, on fixed instead of random data and fewer sizes *)
Example test_batched_matmat : passes two (fun D => for_each [1; 10]%nat (fun b => for_each [1; 4]%nat (fun m => for_each [1; 6]%nat (fun k => for_each [1; 7]%nat (fun n =>
    x <~ data 2 [b; m; k] ;~ y <~ data 5 [b; k; n] ;~ almost_same (bmm x y) (einsum [x; y] ["bik"; "bkj"] "bij")))))) = true.
Proof. vm_compute; reflexivity. Qed.
(** lines 268-280 *)
Example test_dot_mem_overlap : passes common_numeric (fun D => for_each (stepped 1 31 5) (fun n => let z := Z.of_nat n in
  a <~ arange 0 n ;~ let b := nd_view ByRef a in
  d <~ dot a b ;~ six <~ scalar 6 ;~ is (op2 (mul D) d six) (Leaf ((z - 1) * z * (2 * z - 1))) ;~ same (dot b a) (dot a b))) = true.
Proof. vm_compute; reflexivity. Qed.
(** lines 282-368 *)
Example test_diagonal_trace : passes all_numeric (fun D =>
  a <~ range_in 12 [3; 4]%nat ;~ is (diagonal a 0 0 1) (v1 [0; 5; 10]) ;~ d <~ diagonal a 0 0 1 ;~ assert (negb (f_owned (a_fl d))) ;~
  is (diagonal a 0 (-2) 1) (v1 [0; 5; 10]) ;~ is (diagonal a 1 0 1) (v1 [1; 6; 11]) ;~ is (diagonal a (-1) 0 1) (v1 [4; 9]) ;~
  is (trace a 0 0 1) (Leaf 15) ;~ is (trace a 0 (-2) 1) (Leaf 15) ;~ is (trace a 1 0 1) (Leaf 18) ;~ is (trace a (-1) 0 1) (Leaf 13) ;~
  a <~ range_in 8 [2; 2; 2]%nat ;~ is (diagonal a 0 0 1) (v2 [[0; 6]; [1; 7]]) ;~ is (diagonal a 1 0 1) (v2 [[2]; [3]]) ;~ is (diagonal a (-1) 0 1) (v2 [[4]; [5]]) ;~
  is (diagonal a 0 1 2) (v2 [[0; 3]; [4; 7]]) ;~ is (diagonal a 0 2 1) (v2 [[0; 3]; [4; 7]]) ;~ is (diagonal a 1 0 2) (v2 [[1]; [3]]) ;~
  is (trace a 0 0 1) (v1 [6; 8]) ;~ is (trace a 1 0 1) (v1 [2; 3]) ;~ is (trace a (-1) 0 1) (v1 [4; 5]) ;~ is (trace a 0 1 2) (v1 [3; 11]) ;~
  is (trace a 0 2 1) (v1 [3; 11]) ;~ is (trace a 1 0 2) (v1 [1; 3])) = true.
Proof. vm_compute; reflexivity. Qed.
