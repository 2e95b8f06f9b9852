(** ConformUnits.v: the unit tests inside the sources, run on the model (see Conform.v: these are
    tests, not proofs). *)
From Coq Require Import Ascii String.
From Coq Require Import List Arith Bool ZArith.
From Verif Require Import Base Layout Views Kernels Access Reduce Einsum Print.
Import ListNotations.
Open Scope res_scope.

(** ** src/linalg/einsum.rs *)
Definition codes (s : string) : list Z := map (fun c => Z.of_nat (nat_of_ascii c)) (list_ascii_of_string s).
(** one call of parse_operand_subscripts on zeros([1; n]): result[0..n], broadcast_dims and the counts *)
Definition parsed (s : string) (n : nat) (counts dims : Z -> nat) : res (list Z * nat * (Z -> nat) * (Z -> nat)) :=
  r <- parse_operand (codes s) (repeat 1 n) counts dims ;;
  let '(labels, counts', dims', bd) := r in Ok (firstn n labels, bd, counts', dims').
Definition parsed1 (s : string) (n : nat) : res (list Z * nat) := r <- parsed s n (fun _ => 0) (fun _ => 0) ;; Ok (fst (fst r)).

(** 475-483, 487-495, 499-507 *)
Example test_invalid_ellipsis_multiple : parsed1 "a..b.." 4 = Panic.
Proof. vm_compute. reflexivity. Qed.
Example test_invalid_ellipsis : parsed1 "a.b" 6 = Panic.
Proof. vm_compute. reflexivity. Qed.
Example test_invalid_ellipsis_at_end : parsed1 "ab." 3 = Panic.
Proof. vm_compute. reflexivity. Qed.
(** 510-520, 523-534, 537-547, 550-560, 563-573.  The tests start from arrays filled with other
    values; the model starts from zeros, and the entries compared are all written. *)
Example test_unique_labels2 : parsed1 "abcdef" 6 = Ok ([97; 98; 99; 100; 101; 102]%Z, 0).
Proof. vm_compute. reflexivity. Qed.
Example test_parse_operand_subscripts_with_repeats : parsed1 "abbcbc" 6 = Ok ([97; 98; -1; 99; -3; -2]%Z, 0).
Proof. vm_compute. reflexivity. Qed.
Example test_ellipsis_middle : parsed1 "ab..bc" 7 = Ok ([97; 98; 0; 0; 0; -4; 99]%Z, 3).
Proof. vm_compute. reflexivity. Qed.
Example test_ellipsis_middle2 : parsed1 "ab..bc" 9 = Ok ([97; 98; 0; 0; 0; 0; 0; -6; 99]%Z, 5).
Proof. vm_compute. reflexivity. Qed.
Example test_ellipsis_start : parsed1 "..ab" 5 = Ok ([0; 0; 0; 97; 98]%Z, 3).
Proof. vm_compute. reflexivity. Qed.
(** 576-596: the counts are carried from one call to the next *)
Example test_multiple_operands :
  (r1 <- parsed "abb.." 4 (fun _ => 0) (fun _ => 0) ;; let '(l1, b1, c1, d1) := r1 in
   r2 <- parsed "abb.." 5 c1 d1 ;; let '(l2, b2, c2, d2) := r2 in
   r3 <- parsed "baba" 4 c2 d2 ;; let '(l3, b3, _, _) := r3 in
   Ok ((l1, b1), (l2, b2), (l3, b3))) =
  Ok (([97; 98; -1; 0]%Z, 1), ([97; 98; -1; 0; 0]%Z, 2), ([98; 97; -2; -2]%Z, 0)).
Proof. vm_compute. reflexivity. Qed.

(** ** src/ndarray/broadcast.rs 249-257, 260-290 *)
Example test_broadcast_shapes : broadcast_shapes [5; 1] [2; 1; 3] = Ok [2; 5; 3].
Proof. vm_compute. reflexivity. Qed.
Example test_get_broadcasted_axes :
  map (fun p => get_broadcasted_axes (fst p) (snd p))
    [([3; 3], [3; 1]); ([2; 3], [3]); ([8; 7; 6], [7; 1]); ([4; 5; 6], [1; 5; 1]); ([5; 6], [1; 6]); ([5; 6], [5; 1])] =
  map Ok [[1]; [0]; [0; 2]; [0; 2]; [0]; [1]].
Proof. vm_compute. reflexivity. Qed.

(** ** src/ndarray/iterator/collapse_contiguous.rs 101-126, 129-178, 180-246 *)
Example test_collapse_contiguous :
  let a := fresh_arr 0 18 [3; 2; 3] in
  let cc := fun l => b <- nd_slice a l ;; Ok (collapse_contiguous (a_shape b) (a_stride b)) in
  collapse_contiguous (a_shape a) (a_stride a) = ([18], [1]) /\ cc [IFull; IUsize 0] = Ok ([3; 3], [6; 1]) /\
  cc [IUsize 1] = Ok ([6], [1]) /\ cc [ITo 2; IUsize 1; IFrom 1] = Ok ([2; 2], [6; 1]).
Proof. vm_compute. repeat split. Qed.
Definition uni (sh st : list nat) := (collapse sh st, has_uniform_stride sh st).
Example test_collapse_to_uniform_stride :
  uni [2; 3] [3; 1] = ([6], [1], Some 1) /\ uni [2; 3] [6; 2] = ([6], [2], Some 2) /\ uni [2; 3] [5; 2] = ([2; 3], [5; 2], None) /\
  uni [2; 2; 2] [6; 3; 2] = ([4; 2], [3; 2], None) /\ uni [3; 4; 5] [20; 5; 1] = ([60], [1], Some 1) /\
  uni [4; 5; 6] [30; 6; 1] = ([120], [1], Some 1) /\ uni [3; 3; 3] [9; 3; 1] = ([27], [1], Some 1).
Proof. vm_compute. repeat split. Qed.
Example test_collapse_to_uniform_stride_edge :
  uni [1; 2] [0; 2] = ([2], [2], Some 2) /\ uni [1; 1; 1; 2] [0; 0; 0; 2] = ([2], [2], Some 2) /\ uni [] [] = ([], [], Some 0) /\
  uni [10] [1] = ([10], [1], Some 1) /\ uni [2; 3] [4; 2] = ([2; 3], [4; 2], None) /\ uni [1; 2] [5; 1] = ([1; 2], [5; 1], None) /\
  uni [3; 3; 3] [0; 1; 0] = ([3; 3; 3], [0; 1; 0], None) /\
  uni [5; 2; 3; 3; 4; 3] [6; 3; 0; 4; 1; 0] = ([10; 3; 12; 3], [3; 0; 1; 0], None).
Proof. vm_compute. repeat split. Qed.

(** ** src/ndarray/reduce.rs 269-319 *)
Example test_reduce_shape_and_stride :
  reduced_shape_and_stride [1]%Z [3; 2] = Ok ([3], [1; 0]) /\
  map (fun ax => reduced_shape_and_stride ax [4; 2; 3]) [[0]; [1]; [2]; [0; 1]; [0; 2]; [1; 2]]%Z =
  map Ok [([2; 3], [0; 3; 1]); ([4; 3], [3; 0; 1]); ([4; 2], [2; 1; 0]); ([3], [0; 0; 1]); ([2], [0; 1; 0]); ([4], [1; 0; 0])].
Proof. vm_compute. repeat split. Qed.
