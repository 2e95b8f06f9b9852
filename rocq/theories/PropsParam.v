(** PropsParam.v: a program does not look at the elements (C79). *)
From Coq Require Import List Arith Lia Bool ZArith.
From Verif Require Import Base Layout Views Kernels Access Reduce Einsum Nested Prog PropsEinsum Param Blackbox BlackboxProg.
Import ListNotations.
Open Scope res_scope.

(** ** C79: programs over related element types.
    [R] relates elements of T and of U.  Two memories are related ([hr]) if the same blocks are
    live, have the same lengths and hold related elements; two states ([str]) if their memories
    are, their arrays (pointer, length, capacity, shape, stride, flags) are the same, and the
    values shown so far are related; two commands ([cr]) if they differ in elements and
    functions only, and those are related.  Related programs from related states both panic,
    both leave their allocations, or end in related states. *)
Theorem C79_related : forall (T U : Type) (R : T -> U -> Prop)
    (zero one : T) (add mul : T -> T -> T) (eqb : T -> T -> bool)
    (zero' one' : U) (add' mul' : U -> U -> U) (eqb' : U -> U -> bool),
  R zero zero' -> R one one' ->
  (forall x x' y y', R x x' -> R y y' -> R (add x y) (add' x' y')) ->
  (forall x x' y y', R x x' -> R y y' -> R (mul x y) (mul' x' y')) ->
  forall cs cs' s s', Forall2 (cr R eqb eqb') cs cs' -> str R s s' ->
  match exec_all zero one add mul eqb cs s, exec_all zero' one' add' mul' eqb' cs' s' with
  | Ok t, Ok t' => str R t t'
  | Panic, Panic => True
  | Oob, Oob => True
  | _, _ => False
  end.
Proof. intros T U R zero one add mul eqb zero' one' add' mul' eqb' Z O A M cs cs' s s' C S. exact (exec_all_rel R zero one add mul eqb zero' one' add' mul' eqb' Z O A M cs cs' C s s' S). Qed.
Print Assumptions C79_related.

(** ** Elements do not decide what happens.
    The command without its elements: all elements become the only value of [unit]. *)
Fixpoint erase_nest {T} (d : nest T) : nest unit := match d with Leaf _ => Leaf tt | Node l => Node (map erase_nest l) end.
Definition f1 : unit -> res unit := fun _ => Ok tt.
Definition f2 : unit -> unit -> res unit := fun _ _ => Ok tt.
Definition erase {T} (c : @cmd T) : @cmd unit :=
  match c with
  | CNew ks d => CNew ks (erase_nest d) | CFull _ sh => CFull tt sh | CView o k => CView o k
  | CBinary _ i j => CBinary f2 i j | CScalarOp _ k _ => CScalarOp f2 k tt | CUnary _ k => CUnary f1 k
  | CAssign _ i j => CAssign f2 i j | CAssignScalar _ k _ => CAssignScalar f2 k tt | CFill k _ => CFill k tt
  | CIndex k idx => CIndex k idx | CIndexSet k idx _ => CIndexSet k idx tt | CValue k => CValue k | CDataSlice k => CDataSlice k
  | CFlatiter k => CFlatiter k | CEqual i j => CEqual i j | CClone k => CClone k | CFlatten k => CFlatten k
  | CReduce _ _ k => CReduce f2 tt k | CReduceAlong _ _ k axes => CReduceAlong f2 tt k axes | CTrace _ k o i j => CTrace f2 k o i j
  | CDot i j => CDot i j | CMatmul i j => CMatmul i j | CBmm i j => CBmm i j | CEinsum ks subs out => CEinsum ks subs out
  end.
Definition erase_obs {T} (o : @obs T) : @obs unit := match o with OVals l => OVals (map (fun _ => tt) l) | OBool b => OBool b end.
Definition erase_state {T} (s : @state T) : @state unit :=
  mkState (map (option_map (map (fun _ => tt))) (s_heap s)) (s_env s) (map erase_obs (s_out s)).

(** the functions of the command never panic, and it is not a comparison *)
Definition total1 {T} (g : T -> res T) : Prop := forall x, exists v, g x = Ok v.
Definition total2 {T} (f : T -> T -> res T) : Prop := forall x y, exists v, f x y = Ok v.
Definition plain_cmd {T} (c : @cmd T) : Prop :=
  match c with
  | CBinary f _ _ | CScalarOp f _ _ | CAssign f _ _ | CAssignScalar f _ _ | CReduce f _ _ | CReduceAlong f _ _ _ | CTrace f _ _ _ _ => total2 f
  | CUnary g _ => total1 g
  | CEqual _ _ => False
  | _ => True
  end.

Section Erase.
  Context {T : Type}.
  Let R := fun (_ : T) (_ : unit) => True.
  Lemma R_vals (l : list T) : Forall2 R l (map (fun _ => tt) l).
  Proof. induction l; cbn [map]; constructor; [exact I|assumption]. Qed.
  Lemma R_nest (d : nest T) : nr R d (erase_nest d).
  Proof.
    revert d. fix IH 1. intros [x|l]; cbn [erase_nest]; constructor; [exact I|].
    induction l as [|y l IL]; cbn [map]; constructor; [apply IH|exact IL].
  Qed.
  Lemma R_f2 (f : T -> T -> res T) : total2 f -> fr2 R f f2.
  Proof. intros F x x' y y' _ _. destruct (F x y) as (v & ->). exact I. Qed.
  Lemma R_f1 (g : T -> res T) : total1 g -> fr1 R g f1.
  Proof. intros F x x' _. destruct (F x) as (v & ->). exact I. Qed.
  Lemma R_cmd eqb eqb' (c : @cmd T) : plain_cmd c -> cr R eqb eqb' c (erase c).
  Proof.
    destruct c; cbn [plain_cmd erase]; intros P; try destruct P; constructor; auto using R_f1, R_f2, R_nest; try exact I.
  Qed.
  Lemma R_state (s : @state T) : str R s (erase_state s).
  Proof.
    split; [|split]; cbn; [|reflexivity|].
    - induction (s_heap s) as [|[l|] h IH]; cbn [map]; constructor; auto; cbn [option_map orel]; auto using R_vals.
    - induction (s_out s) as [|[l|b] o IH]; cbn [map]; constructor; auto; cbn [erase_obs]; constructor. apply R_vals.
  Qed.
  Lemma unit_vals (l : list T) (l' : list unit) : Forall2 R l l' -> l' = map (fun _ => tt) l.
  Proof. induction 1 as [|x [] l l' _ _ IH]; cbn [map]; congruence. Qed.
  Lemma unit_state (s : @state T) s' : str R s s' -> s' = erase_state s.
  Proof.
    destruct s as [h e o], s' as [h' e' o']. intros (H & E & O). cbn in *. subst e'. unfold erase_state. cbn. f_equal.
    - induction H as [|x y h h' X _ IH]; cbn [map]; [reflexivity|]. rewrite IH. f_equal. destruct x, y; cbn in *; try tauto. f_equal. now apply unit_vals.
    - induction O as [|x y o o' X _ IH]; cbn [map]; [reflexivity|]. rewrite IH. f_equal. destruct X as [l l' L|b]; cbn [erase_obs]; [|reflexivity]. f_equal. now apply unit_vals.
  Qed.
End Erase.

(** the outcome of a program without comparisons, whose functions never panic, and every shape,
    stride, flag, pointer and block length in it, is that of the program without elements *)
Theorem C79_shapes_decide : forall (T : Type) (zero one : T) (add mul : T -> T -> T) eqb (cs : list (@cmd T)) (s : @state T),
  Forall plain_cmd cs ->
  exec_all tt tt (fun _ _ => tt) (fun _ _ => tt) (fun _ _ => true) (map erase cs) (erase_state s) =
  match exec_all zero one add mul eqb cs s with Ok t => Ok (erase_state t) | Panic => Panic | Oob => Oob end.
Proof.
  intros T zero one add mul eqb cs s P.
  assert (C : Forall2 (cr (fun (_ : T) (_ : unit) => True) eqb (fun _ _ => true)) cs (map erase cs)).
  { induction P as [|c cs H _ IH]; cbn [map]; constructor; auto using R_cmd. }
  pose proof (C79_related T unit (fun _ _ => True) zero one add mul eqb tt tt (fun _ _ => tt) (fun _ _ => tt) (fun _ _ => true) I I ltac:(auto) ltac:(auto) cs (map erase cs) s (erase_state s) C (R_state s)) as H.
  destruct (exec_all zero one add mul eqb cs s), (exec_all tt tt _ _ _ _ _); try tauto. f_equal. exact (unit_state _ _ H).
Qed.
Print Assumptions C79_shapes_decide.

Example C79_shapes_example :
  let p := fun x : Z => [CFull x [2; 3]; CFull 5%Z [3]; CBinary (fun x y => Ok (x - y)%Z) 0 1; CView (VTranspose ByRef 0 1) 2; CMatmul 2 3] in
  let q := fun x : Z => p x ++ [CMatmul 2 2] in
  (forall x, Forall plain_cmd (p x) /\ Forall plain_cmd (q x)) /\
  map (fun a => a_shape (fst a)) (match exec_all tt tt (fun _ _ => tt) (fun _ _ => tt) (fun _ _ => true) (map erase (p 7%Z)) (mkState [] [] []) with Ok t => s_env t | _ => [] end)
    = [[2; 3]; [3]; [2; 3]; [3; 2]; [2; 2]] /\
  exec_all tt tt (fun _ _ => tt) (fun _ _ => tt) (fun _ _ => true) (map erase (q 7%Z)) (mkState [] [] []) = Panic.
Proof. split; [|split; vm_compute; reflexivity]. intros x. split; repeat constructor; intros y z; eexists; reflexivity. Qed.

(** a comparison does read elements: the same program with other elements *)
Example C79_equal_reads :
  let p := fun x : Z => [CFull x []; CFull 1%Z []; CEqual 0 1] in
  let run := fun x => match exec_all 0%Z 1%Z Z.add Z.mul Z.eqb (p x) (mkState [] [] []) with Ok t => s_out t | _ => [] end in
  run 1%Z = [OBool true] /\ run 2%Z = [OBool false].
Proof. vm_compute. split; reflexivity. Qed.
(** and a function that panics may panic on some elements only *)
Example C79_division_panics :
  let div := fun x y : Z => if (y =? 0)%Z then Panic else Ok (Z.div x y) in
  let p := fun x : Z => [CFull 6%Z [2]; CFull x [2]; CBinary div 0 1] in
  let run := fun x => exec_all 0%Z 1%Z Z.add Z.mul Z.eqb (p x) (mkState [] [] []) in
  run 0%Z = Panic /\ (exists t, run 2%Z = Ok t).
Proof. vm_compute. split; [reflexivity|]. eexists. reflexivity. Qed.

(** ** Homomorphisms.
    If [phi] respects the constants and operations, running the program on the images of the
    elements gives the images of the results. *)
Fixpoint map_nest {T U} (phi : T -> U) (d : nest T) : nest U := match d with Leaf x => Leaf (phi x) | Node l => Node (map (map_nest phi) l) end.
Definition map_obs {T U} (phi : T -> U) (o : @obs T) : @obs U := match o with OVals l => OVals (map phi l) | OBool b => OBool b end.
Definition map_state {T U} (phi : T -> U) (s : @state T) : @state U :=
  mkState (map (option_map (map phi)) (s_heap s)) (s_env s) (map (map_obs phi) (s_out s)).
Definition map_res {A B} (phi : A -> B) (r : res A) : res B := match r with Ok x => Ok (phi x) | Panic => Panic | Oob => Oob end.
(** [c'] is [c] with elements replaced by their images and functions that commute with phi *)
Inductive image {T U} (phi : T -> U) : @cmd T -> @cmd U -> Prop :=
| im_new ks d : image phi (CNew ks d) (CNew ks (map_nest phi d))
| im_full x sh : image phi (CFull x sh) (CFull (phi x) sh)
| im_view o k : image phi (CView o k) (CView o k)
| im_binary f f' i j : (forall x y, f' (phi x) (phi y) = map_res phi (f x y)) -> image phi (CBinary f i j) (CBinary f' i j)
| im_scalar f f' k c : (forall x y, f' (phi x) (phi y) = map_res phi (f x y)) -> image phi (CScalarOp f k c) (CScalarOp f' k (phi c))
| im_unary g g' k : (forall x, g' (phi x) = map_res phi (g x)) -> image phi (CUnary g k) (CUnary g' k)
| im_assign f f' i j : (forall x y, f' (phi x) (phi y) = map_res phi (f x y)) -> image phi (CAssign f i j) (CAssign f' i j)
| im_assign_scalar f f' k c : (forall x y, f' (phi x) (phi y) = map_res phi (f x y)) -> image phi (CAssignScalar f k c) (CAssignScalar f' k (phi c))
| im_fill k v : image phi (CFill k v) (CFill k (phi v))
| im_index k idx : image phi (CIndex k idx) (CIndex k idx)
| im_index_set k idx v : image phi (CIndexSet k idx v) (CIndexSet k idx (phi v))
| im_value k : image phi (CValue k) (CValue k)
| im_data_slice k : image phi (CDataSlice k) (CDataSlice k)
| im_flatiter k : image phi (CFlatiter k) (CFlatiter k)
| im_clone k : image phi (CClone k) (CClone k)
| im_flatten k : image phi (CFlatten k) (CFlatten k)
| im_reduce f f' d k : (forall x y, f' (phi x) (phi y) = map_res phi (f x y)) -> image phi (CReduce f d k) (CReduce f' (phi d) k)
| im_reduce_along f f' d k axes : (forall x y, f' (phi x) (phi y) = map_res phi (f x y)) -> image phi (CReduceAlong f d k axes) (CReduceAlong f' (phi d) k axes)
| im_trace f f' k o i j : (forall x y, f' (phi x) (phi y) = map_res phi (f x y)) -> image phi (CTrace f k o i j) (CTrace f' k o i j)
| im_dot i j : image phi (CDot i j) (CDot i j)
| im_matmul i j : image phi (CMatmul i j) (CMatmul i j)
| im_bmm i j : image phi (CBmm i j) (CBmm i j)
| im_einsum ks subs out : image phi (CEinsum ks subs out) (CEinsum ks subs out).

Section Hom.
  Context {T U : Type}.
  Variable phi : T -> U.
  Let R := fun x y => y = phi x.
  Lemma G_vals (l : list T) (l' : list U) : Forall2 R l l' <-> l' = map phi l.
  Proof.
    split.
    - induction 1 as [|x y l l' H _ IH]; cbn [map]; [reflexivity|]. rewrite IH. unfold R in H. now rewrite H.
    - intros ->. induction l; cbn [map]; constructor; [reflexivity|assumption].
  Qed.
  Lemma G_nest (d : nest T) : nr R d (map_nest phi d).
  Proof. revert d. fix IH 1. intros [x|l]; cbn [map_nest]; constructor; [reflexivity|]. induction l as [|y l IL]; cbn [map]; constructor; [apply IH|exact IL]. Qed.
  Lemma G_f2 (f : T -> T -> res T) (f' : U -> U -> res U) : (forall x y, f' (phi x) (phi y) = map_res phi (f x y)) -> fr2 R f f'.
  Proof. intros F x x' y y' -> ->. rewrite F. destruct (f x y); cbn; auto. reflexivity. Qed.
  Lemma G_f1 (g : T -> res T) (g' : U -> res U) : (forall x, g' (phi x) = map_res phi (g x)) -> fr1 R g g'.
  Proof. intros F x x' ->. rewrite F. destruct (g x); cbn; auto. reflexivity. Qed.
  Lemma G_cmd eqb eqb' c c' : image phi c c' -> cr R eqb eqb' c c'.
  Proof. intros []; constructor; auto using G_f1, G_f2, G_nest; reflexivity. Qed.
  Lemma G_state s : str R s (map_state phi s).
  Proof.
    split; [|split]; cbn; [|reflexivity|].
    - induction (s_heap s) as [|[l|] h IH]; cbn [map]; constructor; auto; cbn [option_map orel]; auto. now apply G_vals.
    - induction (s_out s) as [|[l|b] o IH]; cbn [map]; constructor; auto; cbn [map_obs]; constructor. now apply G_vals.
  Qed.
  Lemma G_state_inv s s' : str R s s' -> s' = map_state phi s.
  Proof.
    destruct s as [h e o], s' as [h' e' o']. intros (H & E & O). cbn in *. subst e'. unfold map_state. cbn. f_equal.
    - induction H as [|x y h h' X _ IH]; cbn [map]; [reflexivity|]. rewrite IH. f_equal. destruct x, y; cbn in *; try tauto. f_equal. now apply G_vals.
    - induction O as [|x y o o' X _ IH]; cbn [map]; [reflexivity|]. rewrite IH. f_equal. destruct X as [l l' L|b]; cbn [map_obs]; [|reflexivity]. f_equal. now apply G_vals.
  Qed.
End Hom.

Theorem C79_homomorphism : forall (T U : Type) (phi : T -> U)
    (zero one : T) (add mul : T -> T -> T) eqb (add' mul' : U -> U -> U) eqb',
  (forall x y, phi (add x y) = add' (phi x) (phi y)) -> (forall x y, phi (mul x y) = mul' (phi x) (phi y)) ->
  forall cs cs' s, Forall2 (image phi) cs cs' ->
  exec_all (phi zero) (phi one) add' mul' eqb' cs' (map_state phi s) = map_res (map_state phi) (exec_all zero one add mul eqb cs s).
Proof.
  intros T U phi zero one add mul eqb add' mul' eqb' A M cs cs' s C.
  assert (C' : Forall2 (cr (fun x y => y = phi x) eqb eqb') cs cs'). { induction C; constructor; auto using G_cmd. }
  pose proof (C79_related T U (fun x y => y = phi x) zero one add mul eqb (phi zero) (phi one) add' mul' eqb' eq_refl eq_refl
    ltac:(intros x x' y y' -> ->; symmetry; apply A) ltac:(intros x x' y y' -> ->; symmetry; apply M) cs cs' s (map_state phi s) C' (G_state phi s)) as H.
  destruct (exec_all zero one add mul eqb cs s), (exec_all (phi zero) (phi one) _ _ _ _ _); cbn [map_res]; try tauto. f_equal. exact (G_state_inv phi _ _ H).
Qed.
Print Assumptions C79_homomorphism.

(** reduction modulo 7 of a product of a 2x3 view with a 3x2 array, summed along an axis *)
Definition mod7 (x : Z) : Z := (x mod 7)%Z.
Definition addm (x y : Z) : Z := ((x + y) mod 7)%Z.
Definition mulm (x y : Z) : Z := ((x * y) mod 7)%Z.
Definition prog79 (f : Z -> Z -> res Z) (g : Z -> Z) : list (@cmd Z) :=
  [CNew [KVec; KArr 2] (Node [Node [Leaf (g 1); Leaf (g 9)]; Node [Leaf (g 3); Leaf (g 25)]; Node [Leaf (g 5); Leaf (g 6)]]);
   CView (VTranspose ByRef 0 1) 0; CMatmul 1 0; CAssign f 2 2; CReduceAlong (fun x acc => f acc x) (g 0) 2 [0]; CFlatiter 3]%Z.
Example C79_homomorphism_example :
  Forall2 (image mod7) (prog79 (fun x y => Ok (x + y)%Z) (fun x => x)) (prog79 (fun x y => Ok (addm x y)) mod7) /\
  exists t, exec_all 0%Z 1%Z Z.add Z.mul Z.eqb (prog79 (fun x y => Ok (x + y)%Z) (fun x => x)) (mkState [] [] []) = Ok t /\ s_out t = [OVals [298; 1712]%Z] /\
  s_out (map_state mod7 t) = [OVals [4; 4]%Z].
Proof.
  assert (A : forall x y, (fun x y => Ok (addm x y)) (mod7 x) (mod7 y) = map_res mod7 ((fun x y => Ok (x + y)%Z) x y)).
  { intros x y. cbn. unfold addm, mod7. now rewrite <- Z.add_mod. }
  split.
  - repeat constructor; intros; apply A.
  - eexists. vm_compute. repeat split.
Qed.

(** ** Elements come from the program.
    A property of elements that holds for the constants and the given elements and is kept by
    the operations and functions holds for every element in memory and every value shown. *)
Fixpoint all_nest {T} (P : T -> Prop) (d : nest T) : Prop := match d with Leaf x => P x | Node l => fold_right and True (map (all_nest P) l) end.
Definition keeps1 {T} (P : T -> Prop) (g : T -> res T) : Prop := forall x v, P x -> g x = Ok v -> P v.
Definition keeps2 {T} (P : T -> Prop) (f : T -> T -> res T) : Prop := forall x y v, P x -> P y -> f x y = Ok v -> P v.
Definition all_cmd {T} (P : T -> Prop) (c : @cmd T) : Prop :=
  match c with
  | CNew _ d => all_nest P d
  | CFull x _ => P x
  | CBinary f _ _ | CAssign f _ _ | CTrace f _ _ _ _ => keeps2 P f
  | CScalarOp f _ c | CAssignScalar f _ c | CReduce f c _ | CReduceAlong f c _ _ => keeps2 P f /\ P c
  | CUnary g _ => keeps1 P g
  | CFill _ v | CIndexSet _ _ v => P v
  | _ => True
  end.
Definition all_obs {T} (P : T -> Prop) (o : @obs T) : Prop := match o with OVals l => Forall P l | OBool _ => True end.
Definition all_state {T} (P : T -> Prop) (s : @state T) : Prop :=
  (forall b l, nth_error (s_heap s) b = Some (Some l) -> Forall P l) /\ Forall (all_obs P) (s_out s).

Section Inv.
  Context {T : Type}.
  Variable P : T -> Prop.
  Let R := fun x y : T => x = y /\ P x.
  Lemma I_vals (l l' : list T) : Forall2 R l l' <-> l = l' /\ Forall P l.
  Proof.
    split.
    - induction 1 as [|x y l l' [-> H] _ [-> IH]]; auto.
    - intros [-> H]. induction H; constructor; auto. now split.
  Qed.
  Lemma I_nest (d : nest T) : all_nest P d -> nr R d d.
  Proof.
    revert d. fix IH 1. intros [x|l]; cbn [all_nest]; intros H; constructor; [now split|].
    induction l as [|y l IL]; constructor; cbn [map fold_right] in H; destruct H as [H1 H2]; [apply IH, H1|apply IL, H2].
  Qed.
  Lemma I_f2 f : keeps2 P f -> fr2 R f f.
  Proof. intros K x x' y y' [<- X] [<- Y]. destruct (f x y) eqn:E; cbn; auto. split; [reflexivity|]. exact (K x y _ X Y E). Qed.
  Lemma I_f1 g : keeps1 P g -> fr1 R g g.
  Proof. intros K x x' [<- X]. destruct (g x) eqn:E; cbn; auto. split; [reflexivity|]. exact (K x _ X E). Qed.
  Lemma I_cmd eqb c : all_cmd P c -> cr R eqb eqb c c.
  Proof.
    destruct c; cbn [all_cmd]; intros H; try destruct H; constructor; auto using I_f1, I_f2, I_nest; try (now split). now intros x x' y y' [<- _] [<- _].
  Qed.
  Lemma I_state s : all_state P s -> str R s s.
  Proof.
    intros [H O]. split; [|split]; [|reflexivity|].
    - revert H. induction (s_heap s) as [|[l|] h IH]; intros H; constructor; cbn [orel]; auto.
      + apply I_vals. split; [reflexivity|]. exact (H 0 l eq_refl).
      + apply IH. intros b. exact (H (S b)).
      + apply IH. intros b. exact (H (S b)).
    - induction O as [|[l|b] o X _ IH]; constructor; auto; constructor. apply I_vals. split; [reflexivity|exact X].
  Qed.
  Lemma I_state_inv s s' : str R s s' -> all_state P s.
  Proof.
    intros (H & _ & O). split.
    - intros b l E. pose proof (F2_nth _ _ _ H b) as X. rewrite E in X. destruct (nth_error (s_heap s') b) as [[l'|]|]; cbn [orel] in X; try tauto. now apply I_vals in X as [_ X].
    - induction O as [|x y o o' X _ IH]; constructor; auto. destruct X as [l l' L|b]; cbn [all_obs]; [|exact I]. now apply I_vals in L as [_ L].
  Qed.
End Inv.

Theorem C79_elements_generated : forall (T : Type) (P : T -> Prop) (zero one : T) (add mul : T -> T -> T) eqb,
  P zero -> P one -> (forall x y, P x -> P y -> P (add x y)) -> (forall x y, P x -> P y -> P (mul x y)) ->
  forall cs s t, Forall (all_cmd P) cs -> all_state P s ->
  exec_all zero one add mul eqb cs s = Ok t -> all_state P t.
Proof.
  intros T P zero one add mul eqb Z O A M cs s t C S E.
  assert (C' : Forall2 (cr (fun x y => x = y /\ P x) eqb eqb) cs cs). { clear E. induction C; constructor; auto using I_cmd. }
  pose proof (C79_related T T (fun x y => x = y /\ P x) zero one add mul eqb zero one add mul eqb ltac:(now split) ltac:(now split)
    ltac:(intros x x' y y' [<- X] [<- Y]; split; auto) ltac:(intros x x' y y' [<- X] [<- Y]; split; auto) cs cs s s C' (I_state P s S)) as H.
  rewrite E in H. exact (I_state_inv P _ _ H).
Qed.
Print Assumptions C79_elements_generated.

(** even numbers and the constants 0 and 2: a program over them shows even numbers *)
Example C79_elements_example :
  let cs := [CFull 4%Z [2; 2]; CNew [KVec; KVec] (Node [Node [Leaf 2; Leaf 6]; Node [Leaf 0; Leaf 8]])%Z; CMatmul 0 1; CDataSlice 2] in
  Forall (all_cmd Z.Even) cs /\
  exists t, exec_all 0%Z 2%Z Z.add Z.mul Z.eqb cs (mkState [] [] []) = Ok t /\ s_out t = [OVals [8; 56; 8; 56]%Z].
Proof.
  split.
  - repeat constructor; cbn; repeat split; auto; try (exists 0%Z; reflexivity); try (exists 1%Z; reflexivity); try (exists 2%Z; reflexivity); try (exists 3%Z; reflexivity); exists 4%Z; reflexivity.
  - eexists. vm_compute. split; reflexivity.
Qed.
