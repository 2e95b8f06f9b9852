(** ConformDocs.v: the examples in the documentation comments of the sources, run on the model
    (see Conform.v: these are tests, not proofs).  Untyped literals are i32 or f64, as in Rust. *)
From Coq Require Import List Arith Bool ZArith Floats.SpecFloat.
From Verif Require Import Base Spec Layout Views Nested Kernels Access Reduce Numeric FloatDot SpecGrad Autograd Builds BuildsGrad FloatCert Observe Conform ConformOps.
From Verif Require ConformGrad.
Import ListNotations.
Local Open Scope Z_scope.

Definition i32s (t : forall D, M D unit) : Prop := passes [t_i32] t = true.
Definition view_flag {D} (a : arr) (b : bool) : M D unit := assert (Bool.eqb (negb (f_owned (a_fl a))) b).
Definition value_is {D} (m : M D arr) (x : Z) : M D unit := a <~ m ;~ y <~ read (fun h => nd_value h a) ;~ assert (eqb D y (of D x)).

(** ** src/common/methods.rs 11-18, 29-30, 38-45, 58-65, 80-87 *)
Example doc_shapes : i32s (fun D => a <~ new (v1 [3; 4; 5]) ;~ b <~ new (v2 [[3]; [5]]) ;~ c <~ scalar 0 ;~ d <~ new (v2 [[3; 4]; [5; 6]]) ;~
  shape a [3]%nat ;~ shape b [2; 1]%nat ;~ shape c [] ;~ strides d [2; 1]%nat ;~
  assert (length (a_shape a) =? 1)%nat ;~ assert (length (a_shape b) =? 2)%nat ;~ assert (length (a_shape c) =? 0)%nat ;~
  len a 3 ;~ len b 2 ;~ len c 0 ;~
  assert (prod (a_shape a) =? 3)%nat ;~ assert (prod (a_shape b) =? 2)%nat ;~ assert (prod (a_shape c) =? 1)%nat).
Proof. vm_compute; reflexivity. Qed.
(** 101-105, 116-120, 133-140, 155-162 *)
Example doc_flags : i32s (fun D => a <~ new (v2 [[3; 4]; [5; 6]]) ;~ contiguous a true ;~ view_flag a false ;~
  b <~ slice_along a 1 (IUsize 0) ;~ contiguous b false ;~ view_flag b true ;~
  a <~ new (v2 [[3; 4; 5]; [6; 7; 8]]) ;~ b <~ slice_along a 1 (IUsize 0) ;~ c <~ slice_along a 1 (ITo 2) ;~
  is_uniform a (Some 1)%nat ;~ is_uniform b (Some 3)%nat ;~ is_uniform c None ;~
  assert (f_unif (a_fl a)) ;~ assert (f_unif (a_fl b)) ;~ assert (negb (f_unif (a_fl c)))).
Proof. vm_compute; reflexivity. Qed.

(** ** src/common/reshape.rs 22-24, 46-53, 87-94, 117-124, 152-155, 171-174 *)
Example doc_reshape : i32s (fun D => a <~ new_vec 1 (v1 [1; 2; 3; 4]) ;~ view_flag (nd_view ByRef a) true ;~
  a <~ new (v2 [[4; 5]; [6; 7]; [8; 9]]) ;~ is (pure (nd_reshape ByValue a [1; 2; 3]%nat)) (v3 [[[4; 5; 6]; [7; 8; 9]]]) ;~
  a <~ new (v1 [0; 1; 2; 3]) ;~ r <~ reshape a [2; 2]%nat ;~ shape a [4]%nat ;~ is (ret r) (v2 [[0; 1]; [2; 3]]) ;~
  a <~ new (v4 [[[[1]; [3]]; [[1]; [4]]]]) ;~ is (ret (nd_squeeze ByValue a)) (v2 [[1; 3]; [1; 4]]) ;~
  a <~ new (v2 [[3]; [5]; [7]; [9]]) ;~ r <~ squeeze a ;~ shape a [4; 1]%nat ;~ is (ret r) (v1 [3; 5; 7; 9]) ;~
  a <~ new (v1 [2; 3]) ;~ u <~ pure (nd_unsqueeze ByValue a (-1)) ;~ shape u [2; 1]%nat ;~
  a <~ new (v2 [[1; 2; 3]; [9; 8; 7]]) ;~ u <~ pure (nd_unsqueeze ByRef a 1) ;~ shape a [2; 3]%nat ;~ shape u [2; 1; 3]%nat ;~
  a <~ new (v2 [[2; 3; 4]; [10; 20; 30]]) ;~ is (pure (nd_T ByValue a)) (v2 [[2; 10]; [3; 20]; [4; 30]]) ;~
  is (pure (nd_transpose ByValue a 0 1)) (v2 [[2; 10]; [3; 20]; [4; 30]])).
Proof. vm_compute; reflexivity. Qed.

(** ** src/common/constructors.rs 34-38, 131-133, 155, 176; ndarray/methods.rs 17-19, 37-39; ndarray/fill.rs 14-16, 31-33;
    ndarray/reshape.rs 17-19; ndarray/broadcast.rs 29-32 *)
Example doc_constructors : i32s (fun D => a <~ new (v2 [[1; 2]; [3; 4]]) ;~ shape a [2; 2]%nat ;~ c <~ scalar 42 ;~ shape c [] ;~ value_is (ret c) 42 ;~
  is (arange 0 5) (v1 [0; 1; 2; 3; 4]) ;~ is (arange_step 0 5 2) (v1 [0; 2; 4]) ;~
  a <~ new (v2 [[50; 60]; [-5; -10]]) ;~ l <~ read (fun h => nd_data_slice h a) ;~ assert (lists (eqb D) l (map (of D) [50; 60; -5; -10])) ;~
  a <~ new (v1 [1; 2; 4]) ;~ fill a 10 ;~ is (ret a) (v1 [10; 10; 10]) ;~ fill a 0 ;~ is (ret a) (v1 [0; 0; 0]) ;~
  a <~ new (v2 [[1; 2; 3]; [4; 5; 6]]) ;~ is (flatten a) (v1 [1; 2; 3; 4; 5; 6]) ;~
  a <~ new (v1 [1; 2; 3]) ;~ b <~ pure (nd_broadcast_to a [2; 3]%nat) ;~ shape b [2; 3]%nat).
Proof. vm_compute; reflexivity. Qed.
(** common/constructors.rs 210-211, 246-247: in f32 *)
Definition q32 (d : Z) (l : list Z) : list spec_float := map (fun z => fdiv f32 (of_Z f32 z) (of_Z f32 d)) l.
Example doc_linspace : exists l, linspace_data f32 (of_Z f32 0) (of_Z f32 1) 5 = Ok l /\ lists SFeqb l (q32 100 [0; 25; 50; 75; 100]) = true.
Proof. eexists. split; vm_compute; reflexivity. Qed.
Example doc_linspace_exclusive : exists l, linspace_exclusive_data f32 (of_Z f32 0) (of_Z f32 1) 5 = Ok l /\ lists SFeqb l (q32 10 [0; 2; 4; 6; 8]) = true.
Proof. eexists. split; vm_compute; reflexivity. Qed.

(** ** src/ndarray/broadcast.rs 54-61, 114-119, 167-170, 212-215; util/functions.rs 34-36; util/axis.rs 25-27 *)
Example doc_broadcast : pad [2; 3]%nat 1%nat 4 = Ok [1; 1; 2; 3]%nat /\ pad [3; 1]%nat 0%nat 4 = Ok [0; 0; 3; 1]%nat /\
  broadcast_stride [4; 1]%nat [3; 2; 3]%nat [2; 3]%nat = Ok [0; 4; 1]%nat /\ broadcast_shapes [8; 1; 6]%nat [7; 1]%nat = Ok [8; 7; 6]%nat /\
  get_broadcasted_axes [4; 3; 2]%nat [3; 1]%nat = Ok [0; 2]%nat /\ pad [1; 2; 3] 0 5 = Ok [0; 0; 1; 2; 3] /\
  as_absolute (-1) 4 = Ok 3%nat /\ as_absolute (-2) 4 = Ok 2%nat /\ as_absolute 1 4 = Ok 1%nat.
Proof. vm_compute. repeat split. Qed.

(** ** src/ndarray/reduce.rs 120-122, 139-141, 158-160, 177-179, 196-198, 215-217, 234-236 *)
Example doc_reduce : i32s (fun D => a <~ new_vec 1 (v1 [1; 2; 3; 4]) ;~ value_is (sum a) 10 ;~ value_is (product a) 24 ;~
  a <~ new_vec 1 (v1 [-1; 3; -7; 8]) ;~ value_is (min a) (-7) ;~ value_is (max a) 8 ;~ value_is (min_magnitude a) 1 ;~
  a <~ new_vec 1 (v1 [-1; 3; -9; 8]) ;~ value_is (max_magnitude a) 9).
Proof. vm_compute; reflexivity. Qed.
Example doc_mean : passes [t_f64] (fun D => a <~ new_vec 1 (v1 [1; 3; 5; 7]) ;~ value_is (mean a) 4) = true.
Proof. vm_compute; reflexivity. Qed.

(** ** src/linalg/matrix_ops.rs 22-37, 77-80, 106-109, 138-144, 157-163, 177-183, 197-203, 219-226, 239-246, 260-267, 281-288 *)
Example doc_matrix_ops : i32s (fun D => a <~ new_vec 2 (v2 [[1; 2; 3]; [4; 5; 6]]) ;~ b <~ new_vec 2 (v2 [[7; 8]; [9; 10]; [11; 12]]) ;~ is (matmul a b) (v2 [[58; 64]; [139; 154]]) ;~
  x <~ full 1 [3; 2; 4]%nat ;~ y <~ full 1 [3; 4; 5]%nat ;~ r <~ bmm x y ;~ shape r [3; 2; 5]%nat ;~
  x <~ new (v1 [1; 2; 3]) ;~ y <~ new (v1 [4; 5; 6]) ;~ value_is (dot x y) 32 ;~
  a <~ new (v2 [[1; 2; 3]; [4; 5; 6]; [7; 8; 9]]) ;~ is (trace a 0 0 1) (Leaf 15) ;~ is (trace a (-1) 0 1) (Leaf 12) ;~ is (trace a 1 0 1) (Leaf 8) ;~
  is (diagonal a 0 0 1) (v1 [1; 5; 9]) ;~ is (diagonal a 1 0 1) (v1 [2; 6]) ;~ is (diagonal a (-1) 0 1) (v1 [4; 8])).
Proof. vm_compute; reflexivity. Qed.

(** ** src/tensor *)
Section Tensor.
  Import ConformGrad.
  Definition F := f64.
  (** autograd.rs 93-102, 115-124, 141-150, 166-175, 188-194; matrix_ops.rs 18-21, 45-60; reshape.rs 64-67, 134-137 *)
  Example doc_gradient : let p := [sc f32 2; sc f32 3] ++ need [0]%nat ++ [IBin BMul 0 1; IBackward 2] in
    eqs (grad f32 p 0) (value f32 p 1) && eqs (grad f32 (p ++ [IZeroGrad 0]) 0) (lit f32 [] [0]) = true.
  Proof. vm_compute; reflexivity. Qed.
  Example doc_backward : let p := [new F 1 [3]%nat [2; 2; 2]; new F 1 [3]%nat [3; 1; -1]] ++ need [0]%nat ++ [IBin BMul 0 1] in
    eqs (grad F (p ++ [IBackward 2]) 0) (lit F [3]%nat [3; 1; -1]) &&
    eqs (grad F (p ++ [IBackwardWith 2 (SNew [3]%nat (map (of_Z F) [2; 1; 1]))]) 0) (lit F [3]%nat [6; 1; -1]) = true.
  Proof. vm_compute; reflexivity. Qed.
  Example doc_detach :
    (s <- orun (float_num F) ([new F 1 [3]%nat [2; 2; 2]] ++ need [0]%nat ++ [IScal BMul 0 (of_Z F 5)]) o0 ;;
     d <- t_detach s 1 ;; l <- elems (fst d) (snd d) ;; Ok (lists SFeqb l (map (of_Z F) [10; 10; 10])))%res = Ok true.
  Proof. vm_compute; reflexivity. Qed.
  (** autograd.rs 18-23, 45-49 *)
  Example doc_leaf :
    (s <- orun (float_num F) ([new F 1 [3]%nat [1; 2; 3]] ++ need [0]%nat ++ [INeg 0]) o0 ;;
     l0 <- t_is_leaf s 0 ;; l1 <- t_is_leaf s 1 ;; r <- t_requires_grad s 1 ;; Ok (l0, l1, r))%res = Ok (true, false, true).
  Proof. vm_compute; reflexivity. Qed.
  Example doc_matrix : let p := [new F 1 [3]%nat [1; 2; 3]; new F 1 [3]%nat [4; 5; 6]; IDot 0 1; new F 1 [2; 3]%nat [1; 2; 3; 4; 5; 6]; new F 1 [3; 2]%nat [7; 8; 9; 10; 11; 12]; IMatmul 3 4;
      new F 1 [2; 3]%nat [2; 3; 4; 10; 20; 30]; ITranspose TMove 6 0 1] in
    eqs (value F p 2) (lit F [] [32]) && eqs (value F p 5) (lit F [2; 2]%nat [58; 64; 139; 154]) && eqs (value F p 7) (lit F [3; 2]%nat [2; 10; 3; 20; 4; 30]) = true.
  Proof. vm_compute; reflexivity. Qed.
  (** methods.rs 17-19 *)
  Example doc_value : (s <- orun (float_num F) [sc F 50] o0 ;; t_value s 0)%res = Ok (of_Z F 50).
  Proof. vm_compute; reflexivity. Qed.
End Tensor.
