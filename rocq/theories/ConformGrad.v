(** ConformGrad.v: the repository's own tests of the autograd engine, run on the model with f32
    and f64 numbers and fused matrix kernels (FloatCert.v); see Conform.v.  A tensor is named by
    its number, in the order in which the program makes them. *)
From Coq Require Import List Arith Bool ZArith Floats.SpecFloat.
From Verif Require Import Base Layout Views Kernels Access Spec Numeric FloatSum FloatDot SpecGrad Autograd Builds BuildsGrad FloatCert.
Import ListNotations.
Local Open Scope Z_scope.

Definition fl : Type := spec_float.
Definition after (f : fmt) (p : list (instr fl)) : res gstate := krun (float_num f) (float_kern f) p g0.
Definition grad (f : fmt) (p : list (instr fl)) (j : nat) : res (option (list nat * list fl)) :=
  st <- after f p ;; t <- vget (g_ts st) j ;;
  match t_gradient st t with Some a => l <- elems (g_heap st) a ;; Ok (Some (a_shape a, l)) | None => Ok None end.
Definition value (f : fmt) (p : list (instr fl)) (j : nat) : res (option (list nat * list fl)) :=
  st <- after f p ;; t <- vget (g_ts st) j ;; l <- elems (g_heap st) (t_arr t) ;; Ok (Some (a_shape (t_arr t), l)).
(** assert_eq! of arrays and assert_almost_eq! with a bound on every difference, which is
    stronger than the macro (C87) *)
Fixpoint nats_eqb (l m : list nat) : bool :=
  match l, m with [], [] => true | x :: l', y :: m' => (x =? y)%nat && nats_eqb l' m' | _, _ => false end.
Definition agree (ok : fl -> fl -> bool) (x y : res (option (list nat * list fl))) : bool :=
  match x, y with
  | Ok (Some (sh, l)), Ok (Some (sh', l')) =>
      nats_eqb sh sh' && (length l =? length l')%nat && forallb (fun p => ok (fst p) (snd p)) (combine l l')
  | Ok None, Ok None => true
  | _, _ => false
  end.
Definition eqs := agree SFeqb.
Definition close (f : fmt) (tol : fl) := agree (fun x y => SFleb (SFabs (fsub f x y)) tol).
Definition e5 (f : fmt) : fl := fdiv f (of_Z f 1) (of_Z f 100000).
Definition e4 (f : fmt) : fl := fdiv f (of_Z f 1) (of_Z f 10000).
Definition lit (f : fmt) (sh : list nat) (l : list Z) : res (option (list nat * list fl)) := Ok (Some (sh, map (of_Z f) l)).
(** decimal literals, in units of 1/d: the quotient is rounded once, as the literal is *)
Definition dec (f : fmt) (d : Z) (sh : list nat) (l : list Z) : res (option (list nat * list fl)) :=
  Ok (Some (sh, map (fun z => fdiv f (of_Z f z) (of_Z f d)) l)).
Definition new (f : fmt) (d : Z) (sh : list nat) (l : list Z) : instr fl := INew sh (map (fun z => fdiv f (of_Z f z) (of_Z f d)) l).
Definition sc (f : fmt) (z : Z) : instr fl := new f 1 [] [z].
Definition need (l : list nat) : list (instr fl) := map (fun i => ISetGrad i true) l.
Definition zero (l : list nat) : list (instr fl) := map IZeroGrad l.

(** ** tests/autograd.rs *)
(** lines 3-21; b*b and a*b*2 are computed with the tensors, as in the test *)
Example test_autograd1 : let f := f32 in
  let p := [sc f 2; sc f 3] ++ need [0; 1]%nat ++ [IBin BMul 0 1; IBin BMul 2 1; IBackward 3] in
  let q := p ++ [IBin BMul 1 1; IBin BMul 0 1; IScal BMul 5 (of_Z f 2)] in
  eqs (grad f p 0) (value f q 4) && eqs (grad f p 1) (value f q 6) = true.
Proof. vm_compute; reflexivity. Qed.
(** lines 23-45 *)
Example test_autograd2 : let f := f32 in
  let p := [sc f 2; sc f 3; sc f 5] ++ need [0; 1; 2]%nat ++ [IBin BAdd 2 0; IBin BMul 1 3; IBackward 4] in
  eqs (grad f p 0) (value f p 1) && eqs (grad f p 1) (value f p 3) && eqs (grad f p 2) (value f p 1) = true.
Proof. vm_compute; reflexivity. Qed.
(** lines 47-72; the expected values are those of the formulas there *)
Example test_autograd3 : let f := f64 in
  let p := [sc f 2; sc f 3; sc f 5] ++ need [0; 1; 2]%nat ++
    [IBin BAdd 2 0; IBin BMul 3 1; IBin BAdd 4 0; IBin BMul 5 3; IBackward 6] in
  eqs (grad f p 0) (lit f [] [30 + 12 + 4 + 5]) && eqs (grad f p 1) (lit f [] [4 + 25 + 20]) && eqs (grad f p 2) (lit f [] [12 + 30 + 2]) = true.
Proof. vm_compute; reflexivity. Qed.
(** lines 74-120 *)
Example test_autograd4 : let f := f64 in
  let p1 := [new f 1 [3]%nat [2; 4; 6]; sc f 3; new f 1 [2; 3]%nat [2; 4; 6; 5; 7; 11]] ++ need [0; 1; 2]%nat ++ [IBin BAdd 2 0; IBackward 3] in
  let p2 := p1 ++ [IBin BMul 3 1] ++ zero [0; 1; 2]%nat ++ [IBackward 4] in
  let p3 := p2 ++ [IBin BAdd 4 0] ++ zero [0; 1; 2]%nat ++ [IBackward 5] in
  let p4 := p3 ++ [IBin BMul 5 3] ++ zero [0; 1; 2]%nat ++ [IBackward 6] in
  eqs (grad f p1 0) (lit f [3]%nat [2; 2; 2]) && eqs (grad f p1 1) (lit f [] [0]) && eqs (grad f p1 2) (lit f [2; 3]%nat [1; 1; 1; 1; 1; 1]) &&
  eqs (grad f p2 0) (lit f [3]%nat [6; 6; 6]) && eqs (grad f p2 1) (lit f [] [59]) && eqs (grad f p2 2) (lit f [2; 3]%nat [3; 3; 3; 3; 3; 3]) &&
  eqs (grad f p3 0) (lit f [3]%nat [8; 8; 8]) && eqs (grad f p3 1) (lit f [] [59]) && eqs (grad f p3 2) (lit f [2; 3]%nat [3; 3; 3; 3; 3; 3]) &&
  eqs (grad f p4 0) (lit f [3]%nat [81; 141; 215]) && eqs (grad f p4 1) (lit f [] [683]) && eqs (grad f p4 2) (lit f [2; 3]%nat [26; 52; 78; 44; 70; 108]) = true.
Proof. vm_compute; reflexivity. Qed.
(** lines 122-144 *)
Definition abc (f : fmt) : list (instr fl) :=
  [new f 1 [3]%nat [1; 2; 3]; new f 10 [3; 3]%nat [20; -20; 10; -10; -25; 20; -30; 30; 25]; new f 1 [3; 1]%nat [2; 4; 6]] ++ need [0; 1; 2]%nat.
Example test_autograd5 : let f := f32 in
  let p := abc f ++ [IBin BDiv 0 1; IBin BAdd 3 2; IBin BSub 2 1; IBin BAdd 2 0; IBin BDiv 5 6;
    INeg 4; IBin BAdd 8 7; IBin BMul 4 4; IBin BSub 9 10; IBin BMul 4 7; IBin BDiv 12 0; IBin BAdd 11 13; IBackward 14] in
  close f (e4 f) (grad f p 0) (dec f 10000 [3]%nat [-56277; -35112; -239599]) &&
  close f (e4 f) (grad f p 1) (dec f 10000 [3; 3]%nat [3333; 8750; 322667; 52000; 17613; 85238; 2751; 26019; 69520]) &&
  close f (e4 f) (grad f p 2) (dec f 10000 [3; 1]%nat [-178400; -245101; -401665]) = true.
Proof. vm_compute; reflexivity. Qed.
(** lines 146-168 *)
Example test_autograd6 : let f := f32 in
  let p := abc f ++ [IScal BDiv 0 (of_Z f 2); IBin BAdd 3 2; IBin BSub 2 1; IScal BSub 5 (of_Z f 2); IScal BAdd 2 (of_Z f 6); IBin BDiv 6 7;
    INeg 4; IBin BAdd 9 8; IScal BMul 4 (of_Z f 5); IBin BSub 10 11; IBin BMul 4 8; IBin BDiv 13 0; IBin BAdd 12 14; IBackward 15] in
  close f (e4 f) (grad f p 0) (dec f 10000 [3]%nat [-132000; -97000; -90556]) &&
  close f (e4 f) (grad f p 1) (dec f 10000 [3; 3]%nat [-4375; -3125; -2708; -5500; -3500; -2833; -6250; -3750; -2917]) &&
  close f (e4 f) (grad f p 2) (dec f 10000 [3; 1]%nat [-170807; -166142; -164740]) = true.
Proof. vm_compute; reflexivity. Qed.
(** lines 170-207 *)
Example test_autograd_neg : let f := f32 in
  let p := [sc f 2; sc f 3] ++ need [0; 1]%nat ++ [IBin BMul 0 1; INeg 2; IBackward 3] in
  let q := [sc f 5; sc f 2] ++ need [0; 1]%nat ++ [INeg 1; IBin BAdd 0 2; INeg 3; IBackward 4] in
  eqs (grad f p 0) (lit f [] [-3]) && eqs (grad f p 1) (lit f [] [-2]) && eqs (grad f q 0) (lit f [] [-1]) && eqs (grad f q 1) (lit f [] [1]) = true.
Proof. vm_compute; reflexivity. Qed.
(** lines 209-230 *)
Example test_autograd_mul_div : let f := f32 in
  let p := [sc f 2; sc f 3; sc f 4] ++ need [0; 1; 2]%nat ++ [IBin BMul 0 1; IBin BDiv 3 2; IBackward 4] in
  eqs (grad f p 0) (dec f 4 [] [3]) && eqs (grad f p 1) (dec f 4 [] [2]) && close f (e5 f) (grad f p 2) (dec f 16 [] [-6]) = true.
Proof. vm_compute; reflexivity. Qed.
(** lines 232-264 *)
Example test_autograd_compound_expression : let f := f32 in
  let p := [sc f 2; sc f 3; sc f 4; sc f 5] ++ need [0; 1; 2; 3]%nat ++ [IBin BAdd 0 1; IBin BMul 4 2; IBin BSub 5 3; IBin BDiv 6 1; IBackward 7] in
  close f (e5 f) (grad f p 0) (dec f 3 [] [4]) && close f (e5 f) (grad f p 1) (dec f 9 [] [5 - 2 * 4]) &&
  close f (e5 f) (grad f p 2) (dec f 3 [] [5]) && close f (e5 f) (grad f p 3) (dec f 3 [] [-1]) = true.
Proof. vm_compute; reflexivity. Qed.
(** lines 266-298 *)
Example test_autograd_deep_chain_mul_add : let f := f64 in
  let p := map (sc f) [1; 2; 3; 4; 5] ++ need [0; 1; 2; 3; 4]%nat ++ [IBin BMul 0 1; IBin BAdd 5 2; IBin BMul 6 3; IBin BAdd 7 4; IBackward 8] in
  forallb (fun je => eqs (grad f p (fst je)) (lit f [] [snd je])) [(0%nat, 8); (1%nat, 4); (2%nat, 4); (3%nat, 5); (4%nat, 1)] = true.
Proof. vm_compute; reflexivity. Qed.
(** lines 300-362 *)
Example test_autograd_matmul_ops : let f := f64 in
  let p1 := [new f 1 [3]%nat [1; 2; 3]; new f 1 [3]%nat [-1; 5; -9]; new f 10 [3; 3]%nat [20; -20; 10; -10; -25; 20; -30; 30; 25];
    new f 10 [3; 3]%nat [10; -50; 40; -30; -55; 30; -90; 20; 15]] ++ need [0; 1; 2; 3]%nat ++ [IDot 0 1; IBackward 4] in
  let p2 := p1 ++ [IMatmul 0 1; IZeroGrad 0; IZeroGrad 1; ISetGrad 1 false; IBackward 5] in
  let p3 := p2 ++ [ISetGrad 1 true; IMatmul 2 0; IZeroGrad 0; IBackward 6] in
  let p4 := p3 ++ [IMatmul 2 1; IZeroGrad 2; IZeroGrad 1; IBackward 7] in
  let p5 := p4 ++ [IMatmul 2 3; IZeroGrad 2; IBackward 8] in
  eqs (grad f p1 0) (value f p1 1) && eqs (grad f p1 1) (value f p1 0) && eqs (grad f p2 0) (value f p2 1) && eqs (grad f p2 1) (Ok None) &&
  eqs (grad f p3 2) (lit f [3; 3]%nat [1; 2; 3; 1; 2; 3; 1; 2; 3]) && eqs (grad f p3 0) (dec f 10 [3]%nat [-20; -15; 55]) &&
  eqs (grad f p4 2) (lit f [3; 3]%nat [-1; 5; -9; -1; 5; -9; -1; 5; -9]) && eqs (grad f p4 1) (dec f 10 [3]%nat [-20; -15; 55]) &&
  eqs (grad f p5 2) (dec f 10 [3; 3]%nat [0; -55; -55; 0; -55; -55; 0; -55; -55]) &&
  eqs (grad f p5 3) (dec f 10 [3; 3]%nat [-20; -20; -20; -15; -15; -15; 55; 55; 55]) = true.
Proof. vm_compute; reflexivity. Qed.
(** lines 365-397 *)
Example test_autograd_bmm_ops : let f := f64 in
  let p := [new f 10 [3; 3; 3]%nat [20; -20; 10; -10; -25; 20; -30; 30; 25; -30; 30; 80; 60; -30; -10; 50; 15; -40; 40; 40; 70; -40; 25; 65; -80; 40; 90];
    new f 10 [3; 3; 3]%nat [10; -50; 40; -30; -55; 30; -90; 20; 15; 40; 90; 55; 85; -15; 35; 30; -70; 20; 20; 10; -10; 0; 65; -95; -70; -10; 45]] ++
    need [0; 1]%nat ++ [IBmm 0 1; IBackward 2] in
  eqs (grad f p 0) (dec f 10 [3; 3; 3]%nat [0; -55; -55; 0; -55; -55; 0; -55; -55; 185; 105; -20; 185; 105; -20; 185; 105; -20; 20; -30; -35; 20; -30; -35; 20; -30; -35]) &&
  eqs (grad f p 1) (dec f 10 [3; 3; 3]%nat [-20; -20; -20; -15; -15; -15; 55; 55; 55; 80; 80; 80; 15; 15; 15; 30; 30; 30; -80; -80; -80; 105; 105; 105; 225; 225; 225]) = true.
Proof. vm_compute; reflexivity. Qed.
(** lines 399-447 *)
Example test_autograd_transpose_ops : let f := f64 in
  let p1 := [new f 10 [4; 3; 2]%nat [20; -20; -10; -25; -30; 30; -30; 30; 60; -30; 50; 15; 40; 40; -40; 25; -80; 40; 40; 40; -40; 25; -80; 40];
    new f 10 [4; 3; 2]%nat [10; -50; -30; -55; -90; 20; 40; 90; 85; -15; 30; -70; 20; 10; 0; 65; -70; -10; 20; 10; 0; 65; -70; -10]] ++
    need [0; 1]%nat ++ [IView TRef 0; IView TRef 1; ITranspose TRef 0 1 2; IBmm 4 1; IBackward 5] in
  let p2 := p1 ++ [ITranspose TMove 2 1 2; IBmm 6 3; IZeroGrad 0; IZeroGrad 1; IBackward 7] in
  let e1 := dec f 10 [4; 3; 2]%nat [-40; -40; -85; -85; -70; -70; 130; 130; 70; 70; -40; -40; 30; 30; 65; 65; -80; -80; 30; 30; 65; 65; -80; -80] in
  let e2 := dec f 10 [4; 3; 2]%nat [0; 0; -35; -35; 0; 0; 0; 0; 30; 30; 65; 65; 80; 80; -15; -15; -40; -40; 80; 80; -15; -15; -40; -40] in
  eqs (grad f p1 0) e1 && eqs (grad f p1 1) e2 && eqs (grad f p2 0) e1 && eqs (grad f p2 1) e2 = true.
Proof. vm_compute; reflexivity. Qed.
(** lines 449-466; the functions of lines 468-516 are not tests, as they lack the attribute.  They
    are evaluated all the same *)
Definition two_vectors (f : fmt) (sh sh' : list nat) : list (instr fl) := [new f 1 sh [1; 2; 3; 4]; new f 1 sh' [-1; 5; -9; 12]] ++ need [0; 1]%nat.
Example test_autograd_reshape : let f := f64 in
  let p := two_vectors f [4]%nat [4]%nat ++ [IReshape TRef 0 [2; 2]%nat; IReshape TRef 1 [2; 2]%nat; IMatmul 2 3; IZeroGrad 0; IZeroGrad 1; IBackward 4] in
  eqs (grad f p 0) (lit f [4]%nat [4; 3; 4; 3]) && eqs (grad f p 1) (lit f [4]%nat [4; 4; 6; 6]) = true.
Proof. vm_compute; reflexivity. Qed.
(** lines 468-516.  As tests the first and the third would fail: a view has the accumulator of its
    tensor (src/autograd/identity_backwards.rs), so vector_view.gradient() is not None, and a
    reshaped tensor has none, so that mat1.gradient() is None *)
Example test_autograd_view : let f := f64 in
  let p := two_vectors f [4]%nat [4]%nat ++ [IView TRef 0; IDot 2 1; IBackward 3] in
  eqs (grad f p 0) (value f p 1) && negb (eqs (grad f p 2) (Ok None)) = true.
Proof. vm_compute; reflexivity. Qed.
Example test_autograd_squeeze : let f := f64 in
  let p := two_vectors f [1; 4; 1]%nat [4; 1]%nat ++ [ISqueeze TRef 0; ISqueeze TRef 1; IReshape TRef 2 [2; 2]%nat; IReshape TRef 3 [2; 2]%nat; IMatmul 4 5; IBackward 6] in
  eqs (grad f p 0) (lit f [1; 4; 1]%nat [4; 3; 4; 3]) && eqs (grad f p 1) (lit f [4; 1]%nat [4; 4; 6; 6]) = true.
Proof. vm_compute; reflexivity. Qed.
Example test_autograd_moved_reshape : let f := f64 in
  let p := two_vectors f [4]%nat [4]%nat ++ [IBin BAdd 0 1; IReshape TMove 2 [2; 2]%nat; IReshape TMove 1 [2; 2]%nat; IMatmul 3 4; IBackward 5] in
  eqs (grad f p 3) (Ok None) && eqs (grad f p 4) (Ok None) = true.
Proof. vm_compute; reflexivity. Qed.

(** ** tests/requires_grad.rs: the requires_grad flags.  is_leaf() reads a flag the model of tensors
    does not have (Autograd.v); what is compared here is whether the tensor was recorded *)
Definition flags (f : fmt) (p : list (instr fl)) : res (list (bool * bool)) :=
  st <- after f p ;; Ok (map (fun t => (t_rg t, match t_fn t with RNone => false | _ => true end)) (g_ts st)).
Definition flags_are (l : res (list (bool * bool))) (e : list bool) : bool :=
  match l with Ok l => (length l =? length e)%nat && forallb (fun p => Bool.eqb (fst (fst p)) (snd p) && Bool.eqb (snd (fst p)) (snd p)) (combine l e) | _ => false end.
(** lines 4-39, the constructors, and set_requires_grad; lines 41-96 assert nothing *)
Example test_constructor_requires_grad : forallb (fun f =>
  flags_are (flags f [new f 1 [3]%nat [1; 2; 3]; ISetGrad 0 false; sc f 5; ISetGrad 1 true]) [false; true]) [f32; f64] = true.
Proof. vm_compute; reflexivity. Qed.
(** lines 115-160 *)
Example test_arithemtic_requires_grad : forallb (fun f =>
  let mk z := INew [4; 4; 2]%nat (repeat (of_Z f z) 32) in let five := of_Z f 5 in
  flags_are (flags f ([mk 0; mk 1; mk 0] ++ need [0; 2]%nat ++ [IBin BAdd 0 1; IBin BSub 0 1; IBin BMul 2 1; IBin BDiv 2 1;
    IScal BAdd 0 five; IScal BSub 0 five; IScal BMul 2 five; IScal BDiv 2 five; IScal BAdd 1 five; IScal BSub 1 five; IScal BMul 1 five; IScal BDiv 1 five;
    IBin BAdd 1 1; IBin BMul 15 2]))
  [true; false; true; true; true; true; true; true; true; true; true; false; false; false; false; false; true]) [f32; f64] = true.
Proof. vm_compute; reflexivity. Qed.
(** lines 219-329: tensors 0, 1 and 2 are a, b and v *)
Example test_einsum_requires_grad : forallb (fun f =>
  let mk sh n := INew sh (repeat (of_Z f 1) n) in
  let four := [IMatmul 0 1; IMatmul 1 0; IMatmul 0 2; IMatmul 1 2] in
  flags_are (flags f ([mk [4; 4]%nat 16%nat; mk [4; 4]%nat 16%nat; mk [4]%nat 4%nat; IDot 2 2] ++ four ++
    [ISetGrad 0 true] ++ four ++ [ISetGrad 0 false; ISetGrad 1 true] ++ four ++ [ISetGrad 1 false; ISetGrad 2 true] ++ four ++ [IDot 2 2]))
  [false; false; true; false; false; false; false; false; true; true; true; false; true; true; false; true; false; false; true; true; true]) [f32; f64] = true.
Proof. vm_compute; reflexivity. Qed.
