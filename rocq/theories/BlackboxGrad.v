(** BlackboxGrad.v: programs of tensor operations run in the same way over any two element types
    whose values and operations are related.  No function of the library is modelled here. *)
From Coq Require Import List Arith Lia Bool ZArith.
From Verif Require Import Base Layout Views Kernels Access Reduce Einsum SpecGrad Autograd Param Blackbox.
Import ListNotations.
Open Scope res_scope.

Section Grad.
  Context {T U : Type}.
  Variable R : T -> U -> Prop.
  Variables (N : num T) (N' : num U).

  (** division occurs *)
  Variable D : Prop.

  (** constants and operations respect the relation; division only needs to if it occurs *)
  Record num_rel : Prop := mkNR {
    nr_0 : R (n0 N) (n0 N'); nr_1 : R (n1 N) (n1 N');
    nr_bop : forall o x x' y y', (o = BDiv -> D) -> R x x' -> R y y' -> R (bopf N o x y) (bopf N' o x' y');
    nr_neg : forall x x', R x x' -> R (nneg N x) (nneg N' x') }.

  Inductive seedr : seed T -> seed U -> Prop :=
  | seedr_new sh l l' : Forall2 R l l' -> seedr (SNew sh l) (SNew sh l')
  | seedr_bcast sh l l' to : Forall2 R l l' -> seedr (SBcast sh l to) (SBcast sh l' to)
  | seedr_val j : seedr (SVal j) (SVal j)
  | seedr_grad j : seedr (SGrad j) (SGrad j).

  (** the same instruction with related values *)
  Inductive ir : instr T -> instr U -> Prop :=
  | ir_new sh l l' : Forall2 R l l' -> ir (INew sh l) (INew sh l')
  | ir_set i b : ir (ISetGrad i b) (ISetGrad i b)
  | ir_neg i : ir (INeg i) (INeg i)
  | ir_bin o i j : (o = BDiv -> D) -> ir (IBin o i j) (IBin o i j)
  | ir_scal o i c c' : (o = BDiv -> D) -> R c c' -> ir (IScal o i c) (IScal o i c')
  | ir_dot i j : ir (IDot i j) (IDot i j)
  | ir_matmul i j : ir (IMatmul i j) (IMatmul i j)
  | ir_bmm i j : ir (IBmm i j) (IBmm i j)
  | ir_view m i : ir (IView m i) (IView m i)
  | ir_reshape m i sh : ir (IReshape m i sh) (IReshape m i sh)
  | ir_squeeze m i : ir (ISqueeze m i) (ISqueeze m i)
  | ir_unsqueeze m i a : ir (IUnsqueeze m i a) (IUnsqueeze m i a)
  | ir_transpose m i a1 a2 : ir (ITranspose m i a1 a2) (ITranspose m i a1 a2)
  | ir_backward i : ir (IBackward i) (IBackward i)
  | ir_backward_with i s s' : seedr s s' -> ir (IBackwardWith i s) (IBackwardWith i s')
  | ir_zero i : ir (IZeroGrad i) (IZeroGrad i).

  (** the same node with related values *)
  Inductive gr : gnode T -> gnode U -> Prop :=
  | gr_add x y sx sy : gr (NAdd x y sx sy) (NAdd x y sx sy)
  | gr_sub x y sx sy : gr (NSub x y sx sy) (NSub x y sx sy)
  | gr_mul x y l r : gr (NMul x y l r) (NMul x y l r)
  | gr_muls x sh c c' : R c c' -> gr (NMulS x sh c) (NMulS x sh c')
  | gr_div x y l r : D -> gr (NDiv x y l r) (NDiv x y l r)
  | gr_divs x sh c c' : R c c' -> gr (NDivS x sh c) (NDivS x sh c')
  | gr_neg x sh : gr (NNeg x sh) (NNeg x sh)
  | gr_dot x y l r : gr (NDot x y l r) (NDot x y l r)
  | gr_matvec x y l r : gr (NMatVec x y l r) (NMatVec x y l r)
  | gr_matmul x y l r : gr (NMatMul x y l r) (NMatMul x y l r)
  | gr_bmm x y l r : gr (NBmm x y l r) (NBmm x y l r)
  | gr_reshape x sh : gr (NReshape x sh) (NReshape x sh)
  | gr_trans x a1 a2 : gr (NTrans x a1 a2) (NTrans x a1 a2).

  (** related memories, the same tensors and gradient arrays, related nodes *)
  Definition gsr (s : @gstate T) (s' : @gstate U) : Prop :=
    hr R (g_heap s) (g_heap s') /\ g_leaves s = g_leaves s' /\ Forall2 gr (g_nodes s) (g_nodes s') /\ g_ts s = g_ts s'.

  Hypothesis NR : num_rel.
  Let L2 o (HD : o = BDiv -> D) : forall x x' y y', R x x' -> R y y' -> rres R (lift2 (bopf N o) x y) (lift2 (bopf N' o) x' y').
  Proof. intros. cbn. now apply NR. Qed.
  Let AD x x' y y' : R x x' -> R y y' -> rres R (lift2 (nadd N) x y) (lift2 (nadd N') x' y').
  Proof. exact (L2 BAdd ltac:(discriminate) x x' y y'). Qed.
  Let MU x x' y y' : R x x' -> R y y' -> rres R (lift2 (nmul N) x y) (lift2 (nmul N') x' y').
  Proof. exact (L2 BMul ltac:(discriminate) x x' y y'). Qed.
  Let FM x x' y y' z z' : R x x' -> R y y' -> R z z' -> rres R (lift3 (nadd N) (nmul N) x y z) (lift3 (nadd N') (nmul N') x' y' z').
  Proof. intros. cbn. apply (nr_bop NR BAdd); [discriminate| |assumption]. now apply (nr_bop NR BMul). Qed.
  Let Z := nr_0 NR.
  Let O := nr_1 NR.

  Lemma bg_bin o (HD : o = BDiv -> D) h h' a b : hr R h h' -> rres (ar R) (a_bin N o h a b) (a_bin N' o h' a b).
  Proof. intros. unfold a_bin. apply (bb_nd_binary R _ _ (L2 o HD)); auto. Qed.
  Lemma bg_scal o (HD : o = BDiv -> D) h h' a c c' : hr R h h' -> R c c' -> rres (ar R) (a_scal N o h a c) (a_scal N' o h' a c').
  Proof. intros. unfold a_scal. apply (bb_nd_scalar_op R _ _ (L2 o HD)); auto. Qed.
  Lemma bg_neg h h' a : hr R h h' -> rres (ar R) (a_neg N h a) (a_neg N' h' a).
  Proof. intros. unfold a_neg. apply bb_nd_unary; auto. intros. cbn. now apply NR. Qed.
  Lemma bg_dot h h' a b : hr R h h' -> rres (ar R) (a_dot N h a b) (a_dot N' h' a b).
  Proof. intros. unfold a_dot. apply (bb_nd_dot R _ _ _ _ _ _ Z AD MU); auto. Qed.
  Lemma bg_matmul h h' a b : hr R h h' -> rres (ar R) (a_matmul N h a b) (a_matmul N' h' a b).
  Proof. intros. unfold a_matmul. apply (bb_nd_matmul R _ _ _ _ _ _ _ _ _ _ Z O AD MU FM); auto. Qed.
  Lemma bg_bmm h h' a b : hr R h h' -> rres (ar R) (a_bmm N h a b) (a_bmm N' h' a b).
  Proof. intros. unfold a_bmm. apply (bb_nd_bmm R _ _ _ _ _ _ _ _ _ _ Z O AD MU FM); auto. Qed.
  Lemma bg_sum_along h h' a axes : hr R h h' -> rres (ar R) (a_sum_along N h a axes) (a_sum_along N' h' a axes).
  Proof. intros. unfold a_sum_along. apply bb_nd_reduce_along; auto. intros. cbn. now apply (nr_bop NR BAdd). Qed.
  Lemma bg_reduce h h' g sh : hr R h h' -> rres (ar R) (reduce_gradient N h g sh) (reduce_gradient N' h' g sh).
  Proof.
    intros H. unfold reduce_gradient. destruct (list_eqb _ _); [now split|]. apply rsame; intros axes _.
    eapply rbind; [apply bg_sum_along, H|]. intros [h1 s] [h1' s'] [E1 E2]. cbn [fst snd] in *. subst s'. apply rsame; intros v _. now split.
  Qed.

  Definition ev := fun (e : heap T -> res (heap T * arr)) (e' : heap U -> res (heap U * arr)) => forall h h', hr R h h' -> rres (ar R) (e h) (e' h').
  Definition rc := fun (r : heap T -> nref -> arr -> res (heap T)) (r' : heap U -> nref -> arr -> res (heap U)) => forall h h' x g, hr R h h' -> rres (hr R) (r h x g) (r' h' x g).
  Lemma bg_next r r' h h' e e' x : rc r r' -> ev e e' -> hr R h h' -> rres (hr R) (call_next r h e x) (call_next r' h' e' x).
  Proof.
    intros Q E H. unfold call_next. destruct (is_none x); [exact H|]. eapply rbind; [apply E, H|]. intros [h1 g] [h1' g'] [E1 E2]. cbn [fst snd] in *. subst g'. now apply Q.
  Qed.
  Lemma bg_next_shape r r' h h' e e' sh x : rc r r' -> ev e e' -> hr R h h' -> rres (hr R) (call_next_shape N r h e sh x) (call_next_shape N' r' h' e' sh x).
  Proof.
    intros Q E H. unfold call_next_shape. destruct (is_none x); [exact H|]. eapply rbind; [apply E, H|]. intros [h1 g] [h1' g'] [E1 E2]. cbn [fst snd] in *. subst g'.
    destruct (list_eqb _ _); [now apply Q|]. eapply rbind; [apply bg_reduce, E1|]. intros [h2 g2] [h2' g2'] [E3 E4]. cbn [fst snd] in *. subst g2'. now apply Q.
  Qed.
  Lemma bg_pair (m : res (heap T * arr)) (m' : res (heap U * arr)) {A B} (Q : A -> B -> Prop) k k' :
    rres (ar R) m m' -> (forall h h' a, hr R h h' -> rres Q (k h a) (k' h' a)) ->
    rres Q (r <- m ;; let '(h, a) := r in k h a) (r <- m' ;; let '(h, a) := r in k' h a).
  Proof. intros P K. eapply rbind; [exact P|]. intros [h a] [h' a'] [E1 E2]. cbn [fst snd] in *. subst a'. now apply K. Qed.

  Variable leaves : list arr.
  Variables (nodes : list (gnode T)) (nodes' : list (gnode U)).
  Hypothesis ND : Forall2 gr nodes nodes'.
  Lemma bg_bw fuel : forall busy h h' x g, hr R h h' -> rres (hr R) (bw N leaves nodes fuel busy h x g) (bw N' leaves nodes' fuel busy h' x g).
  Proof.
    induction fuel as [|fuel IH]; intros busy h h' x g H; cbn [bw]; [exact I|]. destruct x as [|k|m]; [exact H| |].
    - destruct (nth_error leaves k) as [a|]; [|exact I]. destruct (list_eqb _ _); [|exact I]. apply (bb_nd_assign R _ _ AD); auto.
    - destruct (existsb _ _); [exact I|]. pose proof (F2_nth _ _ _ ND m) as E. destruct (nth_error nodes m) as [n|], (nth_error nodes' m) as [n'|]; cbn [orel] in E; try tauto; try exact I.
      assert (Q : rc (fun h r g => bw N leaves nodes fuel (m :: busy) h r g) (fun h r g => bw N' leaves nodes' fuel (m :: busy) h r g)) by (intros ? ? ? ? HH; now apply IH).
      assert (ID : forall a, ev (fun h => Ok (h, a)) (fun h => Ok (h, a))) by (intros a k k' K; now split).
      destruct E as [x y sx sy|x y sx sy|x y l r|x sh c c' C|x y l r HD|x sh c c' C|x sh|x y l r|x y l r|x y l r|x y l r|x sh|x a1 a2].
      + eapply rbind; [apply bg_next_shape; auto|]. intros h1 h1' H1. apply bg_next_shape; auto.
      + eapply rbind; [apply bg_next_shape; auto|]. intros h1 h1' H1. apply bg_next_shape; auto. intros k k' K. now apply bg_neg.
      + eapply rbind; [apply bg_next_shape; auto; intros k k' K; now apply bg_bin|]. intros h1 h1' H1. apply bg_next_shape; auto. intros k k' K. now apply bg_bin.
      + apply bg_next_shape; auto. intros k k' K. now apply bg_scal.
      + destruct (is_none x).
        * apply bg_next_shape; auto. intros k k' K. apply bg_pair; [now apply bg_neg|]. intros k1 k1' nl K1. apply bg_pair; [now apply bg_bin|]. intros k2 k2' p K2.
          apply bg_pair; [now apply bg_bin|]. intros k3 k3' q K3. now apply bg_bin.
        * apply bg_pair; [now apply (bb_nd_scalar R)|]. intros k1 k1' on K1. apply bg_pair; [now apply bg_bin|]. intros k2 k2' rcp K2. apply bg_pair; [now apply bg_bin|]. intros k3 k3' lg K3.
          eapply rbind; [apply bg_next_shape; auto|]. intros h4 h4' H4. apply bg_next_shape; auto. intros k k' K.
          apply bg_pair; [now apply bg_bin|]. intros j j' p J. apply bg_pair; [now apply bg_neg|]. intros j1 j1' nl J1. now apply bg_bin.
      + apply bg_pair; [now apply bg_scal|]. intros k1 k1' g1 K1. apply bg_next_shape; auto.
      + apply bg_next_shape; auto. intros k k' K. now apply bg_neg.
      + eapply rbind; [apply bg_next; auto; intros k k' K; now apply bg_bin|]. intros h1 h1' H1. apply bg_next; auto. intros k k' K. now apply bg_bin.
      + eapply rbind; [apply bg_next; auto; intros k k' K; apply rsame; intros; now apply bg_bin|]. intros h1 h1' H1. apply bg_next; auto. intros k k' K. apply rsame; intros; now apply bg_matmul.
      + eapply rbind; [apply bg_next; auto; intros k k' K; apply rsame; intros; now apply bg_matmul|]. intros h1 h1' H1. apply bg_next; auto. intros k k' K. apply rsame; intros; now apply bg_matmul.
      + eapply rbind; [apply bg_next; auto; intros k k' K; apply rsame; intros; now apply bg_bmm|]. intros h1 h1' H1. apply bg_next; auto. intros k k' K. apply rsame; intros; now apply bg_bmm.
      + apply bg_next; auto. intros k k' K. apply rsame; intros. now split.
      + apply bg_next; auto. intros k k' K. apply rsame; intros. now split.
  Qed.
End Grad.

Section Run.
  Context {T U : Type}.
  Variable R : T -> U -> Prop.
  Variables (N : num T) (N' : num U) (D : Prop).
  Hypothesis NR : num_rel R N N' D.

  Lemma bg_new h h' sh l l' : hr R h h' -> Forall2 R l l' -> rres (ar R) (new_array h sh l) (new_array h' sh l').
  Proof. intros H L. unfold new_array. rewrite (F2_len _ _ _ L). apply rsame; intros _ _. apply rsame; intros _ _. cbn [rres]. now apply ar_buffer. Qed.
  Lemma bg_push s s' h h' a rg n n' : gsr R D s s' -> hr R h h' -> (rg = true -> gr R D n n') -> gsr R D (push_op s h a rg n) (push_op s' h' a rg n').
  Proof.
    intros (H1 & H2 & H3 & H4) H G. unfold push_op. destruct rg; (split; [|split; [|split]]); cbn; auto; try congruence.
    - apply Forall2_app; auto.
    - now rewrite H4, (F2_len _ _ _ H3).
  Qed.
  Lemma bg_push_same s s' h h' a x : gsr R D s s' -> hr R h h' -> gsr R D (push_same s h a x) (push_same s' h' a x).
  Proof. intros (H1 & H2 & H3 & H4) H. (split; [|split; [|split]]); cbn; auto; congruence. Qed.
  Lemma bg_via_array m op h h' a : hr R h h' -> rres (ar R) (via_array m op h a) (via_array m op h' a).
  Proof.
    intros H. unfold via_array. destruct m; [apply rsame; intros; now split..|]. apply bg_pair with (R := R); [now apply bb_nd_clone|]. intros. apply rsame; intros. now split.
  Qed.
  Lemma bg_via_strides m op h h' a : hr R h h' -> rres (ar R) (via_strides m op h a) (via_strides m op h' a).
  Proof.
    intros H. unfold via_strides. destruct m; [apply rsame; intros; now split..|]. apply rsame; intros. apply bg_pair with (R := R); [now apply bb_nd_clone|]. intros. now split.
  Qed.
  Lemma bg_seed s s' sd sd' : gsr R D s s' -> seedr R sd sd' -> rres (ar R) (seed_arr s sd) (seed_arr s' sd').
  Proof.
    intros (H1 & H2 & H3 & H4) []; cbn [seed_arr].
    - now apply bg_new.
    - apply bg_pair with (R := R); [now apply bg_new|]. intros. apply rsame; intros. now split.
    - rewrite H4. apply rsame; intros. now split.
    - rewrite H4. apply rsame; intros t _. destruct (t_fn t); try exact I. rewrite H2. apply rsame; intros. now split.
  Qed.
  Lemma bg_run_bw s s' h h' y g : gsr R D s s' -> hr R h h' -> rres (gsr R D) (run_bw N s h y g) (run_bw N' s' h' y g).
  Proof.
    intros (H1 & H2 & H3 & H4) H. unfold run_bw. rewrite H2, (F2_len _ _ _ H3). eapply rbind; [apply (bg_bw R N N' D NR); eassumption|]. intros k k' K. (split; [|split; [|split]]); cbn; auto.
  Qed.
  Lemma bg_exec s s' i i' : gsr R D s s' -> ir R D i i' -> rres (gsr R D) (exec N s i) (exec N' s' i').
  Proof.
    intros S E. pose proof S as (H1 & H2 & H3 & H4). destruct E; cbn [exec]; rewrite ?H4.
    - apply bg_pair with (R := R); [now apply bg_new|]. intros h h' a HH. (split; [|split; [|split]]); cbn; auto; congruence.
    - apply rsame; intros x _. destruct (t_rg x), b; try exact S.
      + apply rsame; intros ts _. (split; [|split; [|split]]); cbn; auto.
      + apply bg_pair with (R := R); [apply bb_nd_full; [exact H1|apply NR]|]. intros h h' g HH. rewrite H2. apply rsame; intros ts _. (split; [|split; [|split]]); cbn; auto.
    - apply rsame; intros x _. apply bg_pair with (R := R); [apply (bg_neg R N N' D NR); auto|]. intros h h' a HH. apply bg_push; auto. intros _. constructor.
    - apply rsame; intros x _. apply rsame; intros y _. apply bg_pair with (R := R); [apply (bg_bin R N N' D NR); auto|]. intros h h' a HH. apply bg_push; auto. intros _. destruct o; constructor; auto.
    - apply rsame; intros x _. apply bg_pair with (R := R); [apply (bg_scal R N N' D NR); assumption|]. intros h h' a A. destruct o; try (now apply bg_push_same); apply bg_push; auto; intros _; constructor; auto.
      apply (nr_bop _ _ _ _ NR BDiv); [auto|apply NR|assumption].
    - apply rsame; intros x _. apply rsame; intros y _. apply bg_pair with (R := R); [apply (bg_dot R N N' D NR); auto|]. intros h h' a HH. apply bg_push; auto. intros _. constructor.
    - apply rsame; intros x _. apply rsame; intros y _. destruct (_ && _).
      + apply bg_pair with (R := R); [apply (bg_dot R N N' D NR); auto|]. intros h h' a HH. apply bg_push; auto. intros _. constructor.
      + apply bg_pair with (R := R); [apply (bg_matmul R N N' D NR); auto|]. intros h h' a HH. destruct (_ || _); [|apply bg_push; auto; intros _; constructor].
        destruct (_ && _); [apply bg_push; auto; intros _; constructor|]. destruct (_ && _); [apply bg_push; auto; intros _; constructor|exact I].
    - apply rsame; intros x _. apply rsame; intros y _. apply bg_pair with (R := R); [apply (bg_bmm R N N' D NR); auto|]. intros h h' a HH. apply bg_push; auto. intros _. constructor.
    - apply rsame; intros x _. apply bg_pair with (R := R); [now apply bg_via_array|]. intros h h' a HH. now apply bg_push_same.
    - apply rsame; intros x _. destruct (list_eqb _ _).
      + apply bg_pair with (R := R); [now apply bg_via_array|]. intros h h' a HH. now apply bg_push_same.
      + apply bg_pair with (R := R); [now apply bg_via_strides|]. intros h h' a HH. apply bg_push; auto. intros _. constructor.
    - apply rsame; intros x _. apply bg_pair with (R := R); [now apply bg_via_strides|]. intros h h' a HH. apply bg_push; auto. intros _. constructor.
    - apply rsame; intros x _. apply bg_pair with (R := R); [now apply bg_via_strides|]. intros h h' b HH. apply bg_push; auto. intros _. constructor.
    - apply rsame; intros x _. apply bg_pair with (R := R); [now apply bg_via_array|]. intros h h' a HH. apply bg_push; auto. intros _. constructor.
    - apply rsame; intros y _. apply bg_pair with (R := R); [apply bb_nd_full; [exact H1|apply NR]|]. intros h h' g HH. now apply bg_run_bw.
    - apply rsame; intros y _. apply bg_pair with (R := R); [eapply bg_seed; eassumption|]. intros h h' g K. apply rsame; intros _ _. now apply bg_run_bw.
    - apply rsame; intros x _. destruct (t_fn x); try exact S. rewrite H2. apply rsame; intros a _. eapply rbind; [apply (bb_nd_fill R); [exact H1|apply NR]|].
      intros h h' H. (split; [|split; [|split]]); cbn; auto.
  Qed.
  Theorem run_rel p p' : Forall2 (ir R D) p p' -> forall s s', gsr R D s s' -> rres (gsr R D) (run N p s) (run N' p' s').
  Proof.
    induction 1 as [|i i' p p' E F IH]; intros s s' S; cbn [run]; [exact S|].
    eapply rbind; [now apply bg_exec|]. intros t t' E2. now apply IH.
  Qed.
End Run.
