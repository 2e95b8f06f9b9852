(** PropsParam2.v: a program of tensor operations does not look at the elements (C80). *)
From Coq Require Import List Arith Lia Bool ZArith.
From Verif Require Import Base Spec Layout Views Kernels Access Reduce Einsum SpecGrad Autograd GradFacts5 PropsGrad PropsGrad2 Param Blackbox BlackboxGrad.
Import ListNotations.
Open Scope res_scope.

(** ** C80: programs of tensor operations over related element types.
    [R] relates elements of T and of U.  Two memories are related ([hr]) if the same blocks are
    live, have the same lengths and hold related elements; two states ([gsr]) if their memories
    are, their tensors and gradient arrays (pointer, length, capacity, shape, stride, flags,
    node) are the same, and their nodes differ in related elements only; two instructions ([ir])
    if they differ in related elements only.  If the number operations respect R (division only
    needs to if the programs divide), related programs both panic, both leave their allocations,
    or end in related states. *)
Theorem C80_related : forall (T U : Type) (R : T -> U -> Prop) (N : num T) (N' : num U) (divides : Prop),
  num_rel R N N' divides ->
  forall p p' s s', Forall2 (ir R divides) p p' -> gsr R divides s s' ->
  match run N p s, run N' p' s' with
  | Ok t, Ok t' => gsr R divides t t'
  | Panic, Panic => True
  | Oob, Oob => True
  | _, _ => False
  end.
Proof. intros T U R N N' D NR p p' s s' P S. exact (run_rel R N N' D NR p p' P s s' S). Qed.
Print Assumptions C80_related.

(** ** Replacing elements *)
Definition map_seed {T U} (phi : T -> U) (sd : seed T) : seed U :=
  match sd with SNew sh l => SNew sh (map phi l) | SBcast sh l to => SBcast sh (map phi l) to | SVal j => SVal j | SGrad j => SGrad j end.
Definition map_instr {T U} (phi : T -> U) (i : instr T) : instr U :=
  match i with
  | INew sh l => INew sh (map phi l) | ISetGrad i b => ISetGrad i b | INeg i => INeg i | IBin o i j => IBin o i j | IScal o i c => IScal o i (phi c)
  | IDot i j => IDot i j | IMatmul i j => IMatmul i j | IBmm i j => IBmm i j | IView m i => IView m i | IReshape m i sh => IReshape m i sh
  | ISqueeze m i => ISqueeze m i | IUnsqueeze m i a => IUnsqueeze m i a | ITranspose m i a b => ITranspose m i a b
  | IBackward i => IBackward i | IBackwardWith i sd => IBackwardWith i (map_seed phi sd) | IZeroGrad i => IZeroGrad i
  end.
Definition divides1 {T} (i : instr T) : Prop := match i with IBin BDiv _ _ | IScal BDiv _ _ => True | _ => False end.
Definition map_node {T U} (phi : T -> U) (n : gnode T) : gnode U :=
  match n with
  | NAdd x y a b => NAdd x y a b | NSub x y a b => NSub x y a b | NMul x y a b => NMul x y a b | NMulS x a c => NMulS x a (phi c)
  | NDiv x y a b => NDiv x y a b | NDivS x a c => NDivS x a (phi c) | NNeg x a => NNeg x a | NDot x y a b => NDot x y a b
  | NMatVec x y a b => NMatVec x y a b | NMatMul x y a b => NMatMul x y a b | NBmm x y a b => NBmm x y a b
  | NReshape x a => NReshape x a | NTrans x a b => NTrans x a b
  end.
Definition map_gstate {T U} (phi : T -> U) (s : @gstate T) : @gstate U :=
  mkG (map (option_map (map phi)) (g_heap s)) (g_leaves s) (map (map_node phi) (g_nodes s)) (g_ts s).

Section Hom.
  Context {T U : Type}.
  Variable phi : T -> U.
  Variable D : Prop.
  Let R := fun x y => y = phi x.
  Lemma G_vals (l : list T) (l' : list U) : Forall2 R l l' <-> l' = map phi l.
  Proof.
    split.
    - induction 1 as [|x y l l' H _ IH]; cbn [map]; [reflexivity|]. rewrite IH. unfold R in H. now rewrite H.
    - intros ->. induction l; cbn [map]; constructor; [reflexivity|assumption].
  Qed.
  Lemma G_instr i : (divides1 i -> D) -> ir R D i (map_instr phi i).
  Proof.
    intros H. destruct i as [sh l|i b|i|o i j|o i c| | | | | | | | | |i sd| ]; cbn [map_instr]; constructor; try reflexivity; try (intros ->; apply H; exact I); try (now apply G_vals).
    destruct sd; cbn [map_seed]; constructor; now apply G_vals.
  Qed.
  Lemma G_gstate_inv s s' : gsr R D s s' -> s' = map_gstate phi s.
  Proof.
    destruct s as [h l n t], s' as [h' l' n' t']. intros (H & E & G & E'). cbn in *. subst l' t'. unfold map_gstate. cbn. f_equal.
    - induction H as [|x y h h' X _ IH]; cbn [map]; [reflexivity|]. rewrite IH. f_equal. destruct x, y; cbn in *; try tauto. f_equal. now apply G_vals.
    - induction G as [|x y n n' X _ IH]; cbn [map]; [reflexivity|]. rewrite IH. f_equal. destruct X; cbn [map_node]; try reflexivity; unfold R in *; now subst.
  Qed.
End Hom.

Lemma hom_rel (T U : Type) (phi : T -> U) (N : num T) (N' : num U) (D : Prop) p :
  phi (n0 N) = n0 N' -> phi (n1 N) = n1 N' ->
  (forall x y, phi (nadd N x y) = nadd N' (phi x) (phi y)) -> (forall x y, phi (nsub N x y) = nsub N' (phi x) (phi y)) ->
  (forall x y, phi (nmul N x y) = nmul N' (phi x) (phi y)) -> (forall x, phi (nneg N x) = nneg N' (phi x)) ->
  (D -> forall x y, phi (ndiv N x y) = ndiv N' (phi x) (phi y)) -> (forall i, In i p -> divides1 i -> D) ->
  run N' (map (map_instr phi) p) g0 = match run N p g0 with Ok st => Ok (map_gstate phi st) | Panic => Panic | Oob => Oob end.
Proof.
  intros Z O A S M G Q HD.
  assert (NR : num_rel (fun x y => y = phi x) N N' D).
  { constructor; auto. - intros [] x x' y y' HB -> ->; cbn [bopf]; auto. symmetry. apply Q. now apply HB. - intros x x' ->. auto. }
  assert (P : Forall2 (ir (fun x y => y = phi x) D) p (map (map_instr phi) p)).
  { clear - HD. induction p as [|i p IH]; cbn [map]; constructor; [apply G_instr; intros H; apply (HD i); [now left|exact H]|]. apply IH. intros j J. apply HD. now right. }
  pose proof (C80_related T U _ N N' D NR p _ g0 g0 P ltac:(repeat split; constructor)) as H.
  destruct (run N p g0), (run N' _ g0); try tauto. f_equal. exact (G_gstate_inv phi D _ _ H).
Qed.
(** running the program on the images of the elements gives the images of the results, and of
    the gradients *)
Theorem C80_homomorphism : forall (T U : Type) (phi : T -> U) (N : num T) (N' : num U) p,
  phi (n0 N) = n0 N' -> phi (n1 N) = n1 N' ->
  (forall x y, phi (nadd N x y) = nadd N' (phi x) (phi y)) -> (forall x y, phi (nsub N x y) = nsub N' (phi x) (phi y)) ->
  (forall x y, phi (nmul N x y) = nmul N' (phi x) (phi y)) -> (forall x, phi (nneg N x) = nneg N' (phi x)) ->
  (Exists divides1 p -> forall x y, phi (ndiv N x y) = ndiv N' (phi x) (phi y)) ->
  run N' (map (map_instr phi) p) g0 = match run N p g0 with Ok st => Ok (map_gstate phi st) | Panic => Panic | Oob => Oob end.
Proof.
  intros T U phi N N' p Z O A S M G Q. apply (hom_rel T U phi N N' (Exists divides1 p)); auto. intros i Hi Hd. apply Exists_exists. eauto.
Qed.
Print Assumptions C80_homomorphism.

(** gradients of a product modulo 7 *)
Definition Z7 : num Z := mkNum 0%Z 1%Z (fun x y => (x + y) mod 7)%Z (fun x y => (x - y) mod 7)%Z (fun x y => (x * y) mod 7)%Z (fun _ _ => 0%Z) (fun x => (- x) mod 7)%Z.
Definition p80 : list (instr Z) := [INew [2; 2] [1; 9; 3; 25]%Z; ISetGrad 0 true; ITranspose TRef 0 0 1; IMatmul 0 1; IBin BMul 2 2; IBackward 3].
Example C80_homomorphism_example :
  (forall x y, (x + y) mod 7 = (x mod 7 + y mod 7) mod 7)%Z /\ (forall x y, (x - y) mod 7 = (x mod 7 - y mod 7) mod 7)%Z /\
  (forall x y, (x * y) mod 7 = (x mod 7 * (y mod 7)) mod 7)%Z /\ (forall x, (- x) mod 7 = (- (x mod 7)) mod 7)%Z /\ ~ Exists divides1 p80 /\
  grad_of ZN p80 0 = Ok [3064; 25752; 8520; 71608]%Z /\ grad_of Z7 (map (map_instr (fun x => x mod 7)%Z) p80) 0 = Ok [5; 6; 1; 5]%Z.
Proof.
  split; [intros; apply Z.add_mod; lia|]. split; [intros; apply Zminus_mod|]. split; [intros; apply Z.mul_mod; lia|].
  split. { intros x. pose proof (Zminus_mod 0 x 7) as H. rewrite !Z.sub_0_l in H. exact H. }
  split; [|vm_compute; split; reflexivity].
  intros H. unfold p80 in H. repeat (apply Exists_cons in H as [H|H]; [exact H|]). now apply Exists_nil in H.
Qed.

(** ** Elements do not decide what happens.
    The outcome of any program over any numbers, and every shape, stride, flag, pointer, node and
    block length in it, is that of the program without elements: each replaced by the only value
    of [unit].  In particular whether backward() panics never depends on values. *)
Definition unit_num : num unit := mkNum tt tt (fun _ _ => tt) (fun _ _ => tt) (fun _ _ => tt) (fun _ _ => tt) (fun _ => tt).
Theorem C80_shapes_decide : forall (T : Type) (N : num T) p,
  run unit_num (map (map_instr (fun _ => tt)) p) g0 = match run N p g0 with Ok st => Ok (map_gstate (fun _ => tt) st) | Panic => Panic | Oob => Oob end.
Proof. intros T N p. now apply C80_homomorphism. Qed.
Print Assumptions C80_shapes_decide.
(** the programs of C36, without elements *)
Example C80_shapes_example :
  let p := fun x y : Z => [INew [2] [x; y]; ISetGrad 0 true; INew [1] [y]; ISetGrad 1 true; IBin BMul 0 1] in
  run unit_num (map (map_instr (fun _ => tt)) (p 3%Z 4%Z ++ [IBackward 2])) g0 = Panic /\
  (exists st, run unit_num (map (map_instr (fun _ => tt)) (p 3%Z 4%Z)) g0 = Ok st).
Proof. vm_compute. split; [reflexivity|]. eexists. reflexivity. Qed.

(** ** Any numbers, in particular floats.
    The theorems of C33, C35 and C36 assume the laws of a field, which floats do not obey.  What
    they say about shapes, panics and memory holds for any numbers whatever. *)
Definition sk {T} (t : @stensor T) : bool * option nat * bool * list nat := (s_rg t, s_leaf t, s_rm t, s_shape t).
Section Skeleton.
  Context {T U : Type}.
  Variables (N : num T) (N' : num U) (phi : T -> U).
  Definition same_sk (s : @sstate T) (s' : @sstate U) : Prop := map sk (s_ts s) = map sk (s_ts s') /\ s_leaves s = s_leaves s'.
  Lemma sk_nth s s' i : same_sk s s' ->
    match nth_error (s_ts s) i, nth_error (s_ts s') i with Some t, Some t' => sk t = sk t' | None, None => True | _, _ => False end.
  Proof.
    intros [H _]. assert (E : nth_error (map sk (s_ts s)) i = nth_error (map sk (s_ts s')) i) by now rewrite H.
    rewrite !nth_error_map in E. destruct (nth_error (s_ts s) i), (nth_error (s_ts s') i); cbn in E; congruence || exact I.
  Qed.
  Lemma sk_push s s' t t' : same_sk s s' -> sk t = sk t' -> same_sk (s_push s t) (s_push s' t').
  Proof. intros [H L] E. split; cbn; [|exact L]. rewrite !map_app, H. cbn [map]. now rewrite E. Qed.
  Lemma sk_with1 s s' i f f' : same_sk s s' -> (forall t t', sk t = sk t' -> same_sk (f t) (f' t')) -> same_sk (with1 s i f) (with1 s' i f').
  Proof. intros S F. unfold with1. pose proof (sk_nth s s' i S) as E. destruct (nth_error (s_ts s) i), (nth_error (s_ts s') i); try tauto. now apply F. Qed.
  Lemma sk_set s s' i t t' ls : same_sk s s' -> sk t = sk t' -> forall G G', same_sk (mkSS (set_nth (s_ts s) i t) ls G) (mkSS (set_nth (s_ts s') i t') ls G').
  Proof.
    intros [H L] E G G'. split; cbn; [|reflexivity]. unfold set_nth. rewrite !map_app. cbn [map]. rewrite E. f_equal; [|f_equal].
    - rewrite <- !firstn_map. now rewrite H.
    - rewrite <- !skipn_map. now rewrite H.
  Qed.
  Ltac sks E := unfold sk in E; injection E as E1 E2 E3 E4.
  Lemma sk_step s s' i : same_sk s s' -> same_sk (sstep N s i) (sstep N' s' (map_instr phi i)).
  Proof.
    intros S. pose proof S as [HS HL]. destruct i as [sh l|i b|i|o i j|o i c|i j|i j|i j|m i|m i sh|m i|m i ax|m i a b|i|i sd|i]; cbn [sstep map_instr]; unfold with2.
    - apply sk_push; [exact S|reflexivity].
    - apply sk_with1; [exact S|]. intros x x' E. sks E. rewrite E1. destruct b.
      + destruct (s_rg x'); [exact S|]. rewrite HL, E4. apply sk_set; [exact S|]. unfold sk. cbn. now rewrite ?E3, ?E4.
      + rewrite HL. apply sk_set; [exact S|]. unfold sk. cbn. now rewrite E3, E4.
    - apply sk_with1; [exact S|]. intros x x' E. sks E. apply sk_push; [exact S|]. unfold sk. cbn. now rewrite E1, E4.
    - apply sk_with1; [exact S|]. intros x x' E. sks E. apply sk_with1; [exact S|]. intros y y' F. injection F as F1 F2 F3 F4. apply sk_push; [exact S|]. unfold sk. cbn. now rewrite E1, E4, F1, F4.
    - apply sk_with1; [exact S|]. intros x x' E. sks E. apply sk_push; [exact S|]. unfold sk. cbn. rewrite E1, E2, E4. now destruct o.
    - apply sk_with1; [exact S|]. intros x x' E. sks E. apply sk_with1; [exact S|]. intros y y' F. injection F as F1 F2 F3 F4. apply sk_push; [exact S|]. unfold sk. cbn. now rewrite E1, F1.
    - apply sk_with1; [exact S|]. intros x x' E. sks E. apply sk_with1; [exact S|]. intros y y' F. injection F as F1 F2 F3 F4. apply sk_push; [exact S|]. unfold sk. cbn. rewrite E1, E4, F1, F4.
      destruct (s_shape x') as [|? [|? [|]]], (s_shape y') as [|? [|? [|]]]; reflexivity.
    - apply sk_with1; [exact S|]. intros x x' E. sks E. apply sk_with1; [exact S|]. intros y y' F. injection F as F1 F2 F3 F4. apply sk_push; [exact S|]. unfold sk. cbn. rewrite E1, E4, F1, F4.
      destruct (s_shape x') as [|? [|? [|? [|]]]], (s_shape y') as [|? [|? [|? [|]]]]; reflexivity.
    - apply sk_with1; [exact S|]. intros x x' E. sks E. apply sk_push; [exact S|]. unfold sk, keeps_rm. cbn. now rewrite E1, E2, E3, E4.
    - apply sk_with1; [exact S|]. intros x x' E. sks E. rewrite E4. destruct (list_eq_dec _ _ _); (apply sk_push; [exact S|]); unfold sk, s_view, keeps_rm; cbn; now rewrite ?E1, ?E2, ?E3, ?E4.
    - apply sk_with1; [exact S|]. intros x x' E. sks E. apply sk_push; [exact S|]. unfold sk, s_view, keeps_rm. cbn. now rewrite E1, E3, E4.
    - apply sk_with1; [exact S|]. intros x x' E. sks E. apply sk_push; [exact S|]. unfold sk, s_view, keeps_rm. cbn. now rewrite E1, E3, E4.
    - apply sk_with1; [exact S|]. intros x x' E. sks E. apply sk_push; [exact S|]. unfold sk, s_view, keeps_rm. cbn. now rewrite E1, E4.
    - apply sk_with1; [exact S|]. intros x x' E. exact S.
    - apply sk_with1; [exact S|]. intros x x' E. exact S.
    - apply sk_with1; [exact S|]. intros x x' E. sks E. rewrite E2. destruct (s_leaf x'); exact S.
  Qed.
  Lemma sk_run p : forall s s', same_sk s s' -> same_sk (srun N p s) (srun N' (map (map_instr phi) p) s').
  Proof. induction p as [|i p IH]; intros s s' S; cbn [srun fold_left map]; [exact S|]. apply IH. now apply sk_step. Qed.
  Lemma sk_small s s' : same_sk s s' -> small s -> small s'.
  Proof.
    intros [H _] S. unfold small in *. rewrite Forall_forall in *. intros t' I. apply (in_map sk) in I. rewrite <- H in I. apply in_map_iff in I as (t & E & I).
    injection E as _ _ _ E. rewrite <- E. now apply S.
  Qed.
  Lemma sk_scope s s' i : same_sk s s' -> in_scope s i -> in_scope s' (map_instr phi i).
  Proof.
    intros S. assert (X : forall k, (forall x, nth_error (s_ts s) k = Some x -> s_rm x = true) -> forall x, nth_error (s_ts s') k = Some x -> s_rm x = true).
    { intros k H x E. pose proof (sk_nth s s' k S) as Q. rewrite E in Q. destruct (nth_error (s_ts s) k) as [y|] eqn:F; [|tauto]. injection Q as _ _ Q _. rewrite <- Q. now apply H. }
    destruct i as [| | | | | | | | |[] ?|[]|[]| | |? []|]; cbn [in_scope map_instr map_seed]; auto; apply X.
  Qed.
  Lemma sk_admissible p : forall s s', same_sk s s' -> admissible N p s -> admissible N' (map (map_instr phi) p) s'.
  Proof.
    induction p as [|i p IH]; intros s s' S; cbn [admissible map]; [auto|]. intros (A & B & C). pose proof (sk_step s s' i S) as Q. split; [|split].
    - now apply (sk_scope s).
    - exact (sk_small _ _ Q B).
    - exact (IH _ _ Q C).
  Qed.
End Skeleton.

(** the program with every element replaced by the integer 0 *)
Definition blank {T} (p : list (instr T)) : list (instr Z) := map (map_instr (fun _ => 0%Z)) p.
Lemma blank_unit T (p : list (instr T)) : map (map_instr (fun _ : Z => tt)) (blank p) = map (map_instr (fun _ : T => tt)) p.
Proof.
  unfold blank. rewrite map_map. apply map_ext. intros i. destruct i as [sh l| | | | | | | | | | | | | |i sd|]; cbn [map_instr]; try reflexivity; try (now rewrite map_map).
  destruct sd; cbn [map_seed]; now rewrite ?map_map.
Qed.
Lemma blank_run T (N : num T) p :
  match run N p g0, run ZN (blank p) g0 with
  | Ok st, Ok st' => g_ts st = g_ts st' /\ g_leaves st = g_leaves st'
  | Panic, Panic => True
  | Oob, Oob => True
  | _, _ => False
  end.
Proof.
  pose proof (C80_shapes_decide T N p) as H. pose proof (C80_shapes_decide Z ZN (blank p)) as H'. rewrite blank_unit, H in H'.
  destruct (run N p g0), (run ZN (blank p) g0); try discriminate; try exact I. injection H' as _ E _ F. auto.
Qed.
Lemma blank_skeleton T (N : num T) p : same_sk (srun N p (s0 N)) (srun ZN (blank p) (s0 ZN)).
Proof. apply sk_run. split; reflexivity. Qed.
Lemma blank_admissible T (N : num T) p : admissible N p (s0 N) -> admissible ZN (blank p) (s0 ZN).
Proof. apply sk_admissible. split; reflexivity. Qed.

(** Every admissible program, over any numbers, panics or ends with the tensors, flags, shapes
    and gradients of the reference machine.  It never leaves its allocations. *)
Definition shaped1 {T} (st : gstate) (t : tensor) (s : stensor (T := T)) : Prop :=
  t_rg t = s_rg s /\ a_shape (t_arr t) = s_shape s /\
  match s_leaf s with
  | Some k => exists a, t_gradient (T := T) st t = Some a /\ a_shape a = s_shape s
  | None => t_gradient st t = None
  end.
Theorem C80_any_numbers : forall (T : Type) (N : num T) p, admissible N p (s0 N) ->
  run N p g0 = Panic \/ exists st, run N p g0 = Ok st /\ Forall2 (shaped1 st) (g_ts st) (s_ts (srun N p (s0 N))).
Proof.
  intros T N p A. pose proof (blank_run T N p) as B. destruct (blank_skeleton T N p) as [K _].
  destruct (C33_programs_partial Z ZN _ ZN_field (blank p) (blank_admissible T N p A)) as [E|(st' & E & AG)]; rewrite E in B.
  - left. destruct (run N p g0); tauto.
  - right. destruct (run N p g0) as [st| |] eqn:E0; try tauto. exists st. split; [reflexivity|]. destruct B as [B1 B2].
    unfold agrees in AG. rewrite <- B1 in AG. clear E0 E A B1.
    assert (X : forall t s s', sk s = sk s' -> agrees1 ZN st' (srun ZN (blank p) (s0 ZN)) t s' -> shaped1 st t s).
    { intros t s s' E (H1 & H2 & H3). injection E as E1 E2 E3 E4. unfold shaped1. rewrite E1, E2, E4. split; [exact H1|]. split; [apply H2|].
      unfold t_gradient in *. rewrite B2. destruct (s_leaf s'); [|exact H3]. destruct H3 as (a & Ha & Hs & _). eauto. }
    revert K AG X. generalize (agrees1 ZN st' (srun ZN (blank p) (s0 ZN))). generalize (s_ts (srun ZN (blank p) (s0 ZN))), (s_ts (srun N p (s0 N))), (g_ts st).
    intros l' l ts P K AG X. revert l K. induction AG as [|t s' ts l' H _ IH]; intros [|s l] K; try discriminate K; constructor.
    + injection K as K1 K2. eapply X; eauto. unfold sk. congruence.
    + apply IH. now injection K.
Qed.
Print Assumptions C80_any_numbers.
(** numbers in which almost no law holds: neither addition nor multiplication commutes *)
Definition odd_num : num nat := mkNum 1 4 (fun x y => (x + 2 * y) mod 10) (fun x y => x - y) (fun x y => (3 * x + y) mod 10) (fun x y => x - y) (fun x => 7 - x).
Definition p80b {T} (a b c d : T) : list (instr T) := [INew [2; 2] [a; b; c; d]; ISetGrad 0 true; INew [2] [b; c]; ISetGrad 1 true; IMatmul 0 1; IBin BDiv 2 1; IBin BMul 3 0; IBackward 4].
Example C80_any_numbers_example :
  (exists x y, nadd odd_num x y <> nadd odd_num y x) /\ (exists x y, nmul odd_num x y <> nmul odd_num y x) /\ admissible odd_num (p80b 5 6 7 8) (s0 odd_num) /\
  (exists st, run odd_num (p80b 5 6 7 8) g0 = Ok st) /\ grad_of odd_num (p80b 5 6 7 8) 1 = Ok [1; 7].
Proof. split; [now exists 1, 2|]. split; [now exists 1, 2|]. split; [admit_program|]. split; [eexists; vm_compute; reflexivity|]. vm_compute. reflexivity. Qed.

(** ** backward() with any numbers: C35 and C36 without the laws of a field *)
Lemma run_snoc T (N : num T) p i st : run N p g0 = Ok st -> run N (p ++ [i]) g0 = exec N st i.
Proof. intros E. rewrite run_app, E. cbn [bind run]. now destruct (exec N st i). Qed.
Theorem C80_backward_untracked : forall (T : Type) (N : num T) p st i t,
  admissible N p (s0 N) -> run N p g0 = Ok st -> nth_error (g_ts st) i = Some t -> t_rg t = false ->
  exists st', exec N st (IBackward i) = Ok st' /\ g_ts st' = g_ts st /\ g_leaves st' = g_leaves st.
Proof.
  intros T N p st i t A E Et R. pose proof (blank_run T N p) as B. rewrite E in B. destruct (run ZN (blank p) g0) as [sz| |] eqn:EZ; try tauto. destruct B as [B1 B2].
  rewrite B1 in Et. destruct (C35_backward_untracked Z ZN _ ZN_field (blank p) sz i t (blank_admissible T N p A) EZ Et R) as (sz' & X & Y1 & Y2 & _).
  pose proof (blank_run T N (p ++ [IBackward i])) as B. rewrite (run_snoc T N p _ st E) in B.
  replace (blank (p ++ [IBackward i])) with (blank p ++ [IBackward i]) in B by (unfold blank; now rewrite map_app).
  rewrite (run_snoc Z ZN _ _ sz EZ), X in B. destruct (exec N st (IBackward i)) as [st'| |]; try tauto. exists st'. split; [reflexivity|]. destruct B as [C1 C2]. split; congruence.
Qed.
Print Assumptions C80_backward_untracked.
Theorem C80_backward_succeeds : forall (T : Type) (N : num T) p st i,
  admissible N p (s0 N) -> run N p g0 = Ok st -> i < length (g_ts st) ->
  (forall t, In t (s_ts (srun N p (s0 N))) -> prod (s_shape t) = 1 -> s_shape t = []) ->
  (forall j, In j p -> moves_axes j = false) \/ (forall j, In j p -> changes_shape j = false) ->
  exists st', exec N st (IBackward i) = Ok st'.
Proof.
  intros T N p st i A E L US D. pose proof (blank_run T N p) as B. rewrite E in B. destruct (run ZN (blank p) g0) as [sz| |] eqn:EZ; try tauto. destruct B as [B1 B2].
  destruct (C36_backward_partial Z ZN _ ZN_field (blank p) sz i (blank_admissible T N p A) EZ) as (sz' & X).
  - now rewrite <- B1.
  - destruct (blank_skeleton T N p) as [K _]. intros t' I. apply (in_map sk) in I. rewrite <- K in I. apply in_map_iff in I as (t & F & I). injection F as _ _ _ F. rewrite <- F. now apply US.
  - destruct D as [D|D]; [left|right]; intros j J; unfold blank in J; apply in_map_iff in J as (k & <- & J); specialize (D k J); destruct k; exact D.
  - pose proof (blank_run T N (p ++ [IBackward i])) as B. rewrite (run_snoc T N p _ st E) in B.
    replace (blank (p ++ [IBackward i])) with (blank p ++ [IBackward i]) in B by (unfold blank; now rewrite map_app).
    rewrite (run_snoc Z ZN _ _ sz EZ), X in B. destruct (exec N st (IBackward i)) as [st'| |]; try tauto. now exists st'.
Qed.
Print Assumptions C80_backward_succeeds.
Example C80_backward_example : let p := removelast (p80b 5 6 7 8) in
  admissible odd_num p (s0 odd_num) /\ (exists st, run odd_num p g0 = Ok st /\ 4 < length (g_ts st)) /\
  (forall t, In t (s_ts (srun odd_num p (s0 odd_num))) -> prod (s_shape t) = 1 -> s_shape t = []) /\ (forall j, In j p -> moves_axes j = false).
Proof.
  split; [admit_program|]. split; [eexists; split; [vm_compute; reflexivity|cbn; lia]|]. split.
  - intros t I. cbn in I. repeat (destruct I as [<-|I]; [cbn; discriminate|]). destruct I.
  - intros j I. cbn in I. repeat (destruct I as [<-|I]; [reflexivity|]). destruct I.
Qed.
