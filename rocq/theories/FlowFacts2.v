(** FlowFacts2.v: tensor programs follow the layout machine of SpecFlow. *)
From Coq Require Import List Arith Lia Bool ZArith Permutation.
From Verif Require Import Base Spec Layout SpecFacts LayoutFacts Views ViewsFacts ViewsFacts2 ViewsFacts3 ViewsFacts4
  Kernels Access HeapFacts KernelFacts OpFacts AccessFacts Chain ChainFacts Reduce ReduceFacts Einsum EinsumFacts2
  PropsViews PropsOps PropsReduce PropsEinsum SpecGrad Autograd GradMath GradFacts GradFacts2 GradFacts3 GradFacts4 SpecFlow FlowFacts.
Import ListNotations.
Open Scope res_scope.

Lemma forallb_rev {A} (f : A -> bool) l : forallb f (rev l) = forallb f l.
Proof. induction l as [|x l IH]; [reflexivity|]. cbn [rev forallb]. rewrite forallb_app, IH. cbn [forallb]. rewrite andb_true_r. apply andb_comm. Qed.
Lemma forallb_compat : forall l m, length l = length m ->
  (forallb (fun p => (fst p =? snd p) || (fst p =? 1) || (snd p =? 1)) (combine l m) = true <-> forall k, dim_compat (nth k l 1) (nth k m 1)).
Proof.
  induction l as [|x l IH]; intros [|y m] L; cbn [length] in L; try discriminate.
  - split; [|reflexivity]. intros _ [|k]; now left.
  - cbn [combine forallb fst snd]. rewrite andb_true_iff, IH, !orb_true_iff, !Nat.eqb_eq by lia. split.
    + intros [H1 H2] [|k]; cbn [nth]; [unfold dim_compat; tauto|apply H2].
    + intros H. split; [specialize (H 0); cbn [nth] in H; unfold dim_compat in H; tauto|intros k; apply (H (S k))].
Qed.
Lemma compatible_spec a b : compatible a b = true <-> forall k, dim_compat (dim_r a k) (dim_r b k).
Proof.
  unfold compatible. rewrite <- forallb_rev, <- combine_rev by (rewrite !ones_left_length; lia).
  rewrite forallb_compat by (rewrite !rev_length, !ones_left_length; lia). unfold dim_r.
  assert (E : forall k n l, nth k (rev (ones_left n l)) 1 = nth k (rev l) 1).
  { intros k n l. unfold ones_left. rewrite rev_app_distr, rev_repeat. apply nth_ones. }
  split; intros H k; specialize (H k); now rewrite !E in *.
Qed.
Lemma axis_ok_spec axis nd : (axis_ok axis nd = false /\ as_absolute axis nd = Panic) \/
  (axis_ok axis nd = true /\ as_absolute axis nd = Ok (axis_of axis nd) /\ axis_of axis nd < nd).
Proof.
  unfold axis_ok. destruct (as_absolute_cases axis nd) as [E|[E L]].
  - left. split; [|auto]. unfold as_absolute in E. destruct (Z.ltb_spec axis (- Z.of_nat nd)), (Z.geb_spec axis (Z.of_nat nd)); try discriminate E;
      rewrite andb_false_iff, Z.leb_gt, Z.ltb_ge; lia.
  - right. split; [|auto]. apply as_absolute_inv in E as (_ & _ & H). rewrite andb_true_iff, Z.leb_le, Z.ltb_lt. lia.
Qed.
Section Lay.
  Context {T : Type} (N : num T) (inv0 : T -> T).
  Hypothesis F : is_field N inv0.
  Notation ghost := (list (list nat * (@pert T -> list nat -> T))).
  Implicit Types h : heap T.

  Definition tlay (nodes : list (gnode T)) (t : tensor) (l : ltensor) : Prop :=
    t_rg t = l_rg l /\ a_shape (t_arr t) = l_sh l /\ a_stride (t_arr t) = l_st l /\ unf nodes (t_fn t) (l_flow l) /\ is_none (t_fn t) = negb (l_rg l).
  Definition Lay (st : gstate) (ls : list ltensor) : Prop := Forall2 (tlay (g_nodes st)) (g_ts st) ls.
  Definition step_out (r : res gstate) (o : option (list ltensor)) : Prop :=
    (r = Panic /\ o = None) \/ exists st' ls', r = Ok st' /\ o = Some ls' /\ Lay st' ls'.

  Lemma tlay_app nodes l t x : tlay nodes t x -> tlay (nodes ++ l) t x.
  Proof. intros (A & B & C & D & E). repeat split; auto. now apply unf_app. Qed.
  Lemma lays_app nodes l ts ls : Forall2 (tlay nodes) ts ls -> Forall2 (tlay (nodes ++ l)) ts ls.
  Proof. induction 1; constructor; auto. now apply tlay_app. Qed.
  Lemma toward_arrow nodes t l w : tlay nodes t l -> toward w l = arrow w (l_sh l) (t_fn t) (l_flow l).
  Proof. intros (_ & _ & _ & _ & E). unfold toward, arrow. rewrite E. now destruct (l_rg l). Qed.
  Lemma last_node {A} (l : list A) x : nth_error (l ++ [x]) (length l) = Some x.
  Proof. now rewrite nth_error_app2, Nat.sub_diag by lia. Qed.

  Lemma lay_op st ls h a rg nd sh st' e : Lay st ls -> a_shape a = sh -> a_stride a = st' ->
    (rg = true -> unf (g_nodes st ++ [nd]) (RNode (length (g_nodes st))) e) -> (rg = false -> e = FNone) ->
    Lay (push_op st h a rg nd) (ls ++ [mkL rg sh st' e]).
  Proof.
    intros L <- <- U NU. unfold push_op, Lay. destruct rg; cbn [g_nodes g_ts]; apply Forall2_app; auto using lays_app; constructor; auto.
    - repeat split; cbn; auto. - repeat split; cbn; auto. rewrite NU by auto. constructor.
  Qed.
  Lemma lay_new st ls h a rg nd sh e : Lay st ls -> a_shape a = sh -> rmaj a ->
    (rg = true -> unf (g_nodes st ++ [nd]) (RNode (length (g_nodes st))) e) -> Lay (push_op st h a rg nd) (ls ++ [l_new rg sh e]).
  Proof.
    intros L S R U. unfold l_new. apply lay_op; auto.
    - rewrite row_major_rm, <- S. exact R. - intros ->. now apply U. - now intros ->.
  Qed.
  Lemma lay_same st ls h a x l st' sh : Lay st ls -> tlay (g_nodes st) x l -> a_shape a = sh -> a_stride a = st' ->
    Lay (push_same st h a x) (ls ++ [mkL (l_rg l) sh st' (l_flow l)]).
  Proof.
    intros L (A & B & C & D & E) <- <-. unfold push_same, Lay. cbn [g_nodes g_ts]. apply Forall2_app; auto. constructor; auto.
    assert (Q : (if t_rg x then t_fn x else RNone) = t_fn x). { rewrite A. destruct (l_rg l); [auto|]. destruct (t_fn x); [auto|discriminate|discriminate]. }
    rewrite Q. repeat split; auto.
  Qed.

  Section Step.
    Variables (st : gstate (T := T)) (ss : sstate (T := T)) (Gh : ghost) (ls : list ltensor).
    Hypothesis SM : Sim N st ss Gh.
    Hypothesis LY : Lay st ls.
    Notation lv := (g_leaves st). Notation Lsh := (s_leaves ss). Notation hp := (g_heap st).
    Notation tok := (tensor_ok N lv Lsh Gh hp). Notation tl := (tlay (g_nodes st)).

    Lemma get2 i : (vget (g_ts st) i = Panic /\ nth_error ls i = None) \/
      exists x s l, vget (g_ts st) i = Ok x /\ nth_error (g_ts st) i = Some x /\ nth_error (s_ts ss) i = Some s /\ nth_error ls i = Some l /\ tok x s /\ tl x l.
    Proof.
      assert (GL : (vget (g_ts st) i = Panic /\ nth_error ls i = None) \/ exists x l, vget (g_ts st) i = Ok x /\ nth_error ls i = Some l /\ tl x l).
      { unfold Lay in LY. revert i. induction LY as [|x l ts ls' H1 H2 IH]; intros [|i]; unfold vget in *; cbn [nth_error]; auto.
        right. exists x, l. auto. }
      destruct GL as [GL|(x & l & E & El & TL)]; [now left|]. right.
      destruct (get1 N st ss Gh SM i) as [E2|(x' & s & E2 & E3 & E4 & K)]; [congruence|]. rewrite E in E2. injection E2 as <-.
      exists x, s, l. auto 10.
    Qed.
    Lemma tl_shape x s l : tok x s -> tl x l -> l_sh l = s_shape s.
    Proof. intros K TL. rewrite <- (proj1 (proj2 TL)). now apply (good_shape _ _ _ _ (proj1 (k_good _ _ _ _ _ _ _ K))). Qed.
    Lemma tl_unf x l nd : tl x l -> unf (g_nodes st ++ [nd]) (t_fn x) (l_flow l).
    Proof. intros TL. apply unf_app, TL. Qed.
    Lemma made_rm h1 r sh v : made hp h1 r sh v -> a_shape r = sh /\ rmaj r.
    Proof. intros (_ & _ & G & R). split; [apply (good_shape _ _ _ _ G)|auto]. Qed.
    Lemma panic1 r : r = Panic -> step_out r None. Proof. now left. Qed.
    Lemma ok1 s l : Lay s l -> step_out (Ok s) (Some l). Proof. intros H. right. eauto. Qed.

    Ltac with1 i x s l K TL := cbn [lstep]; destruct (get2 i) as [[-> ->]|(x & s & l & -> & ? & ? & -> & K & TL)]; [now left|]; cbn [bind].
    Ltac shapes K TL := rewrite ?(tl_shape _ _ _ K TL), ?(tok_shape _ _ _ _ _ _ K), ?(proj1 TL).

    Lemma new_lay sh data : step_out (exec N st (INew sh data)) (lstep (T := T) ls (INew sh data)).
    Proof.
      cbn [exec lstep]. unfold fills. destruct (new_array_made hp sh data (n0 N)) as [(h1 & r & E & M)|E]; rewrite E; cbn [bind].
      - unfold new_array in E. destruct (length data =? prod sh); [|discriminate E]. cbn [guard bind andb] in *. destruct (length data =? 0); [discriminate E|].
        cbn [negb]. apply ok1. destruct (made_rm _ _ _ _ M) as [S R]. exact (lay_new st ls h1 r false (NNeg RNone []) sh FNone LY S R ltac:(discriminate)).
      - unfold new_array in E. destruct (length data =? prod sh); [|now left]. cbn [guard bind andb] in *. destruct (length data =? 0); [now left|discriminate E].
    Qed.
    Lemma neg_lay i : step_out (exec N st (INeg i)) (lstep (T := T) ls (INeg i)).
    Proof.
      cbn [exec]. with1 i x s l K TL.
      destruct (a_neg_ok N hp (t_arr x) (s_shape s) (sv N s) (proj1 (k_good _ _ _ _ _ _ _ K)) (k_md _ _ _ _ _ _ _ K)) as (h1 & r & E & M).
      rewrite E. cbn [bind]. apply ok1. destruct (made_rm _ _ _ _ M) as [S R]. rewrite (proj1 TL). apply lay_new; auto; [now shapes K TL|].
      intros _. rewrite (toward_arrow _ _ _ _ TL), <- (proj1 (proj2 TL)). eapply U_neg; [apply last_node|now apply tl_unf].
    Qed.
    Lemma bin_lay o i j : small (sstep N ss (IBin o i j)) -> step_out (exec N st (IBin o i j)) (lstep (T := T) ls (IBin o i j)).
    Proof.
      cbn [exec]. with1 i x sx lx Kx Tx. with1 j y sy ly Ky Ty. intros SMALL.
      cbn [sstep] in SMALL. unfold with2, with1 in SMALL. rewrite H0, H2 in SMALL. apply small_last in SMALL. cbn in SMALL.
      rewrite (tl_shape _ _ _ Kx Tx), (tl_shape _ _ _ Ky Ty).
      destruct (join_spec (s_shape sx) (s_shape sy)) as [J|J].
      { left. rewrite a_bin_panic; [|now shapes Kx Tx; shapes Ky Ty]. split; [reflexivity|].
        destruct (compatible (s_shape sx) (s_shape sy)) eqn:Q; [|auto]. rewrite compatible_spec in Q. destruct J as (k & J). now apply J in Q. }
      destruct (a_bin_ok N o hp _ _ _ _ _ _ _ (proj1 (k_good _ _ _ _ _ _ _ Kx)) (proj1 (k_good _ _ _ _ _ _ _ Ky)) J SMALL) as (h1 & r & E & M).
      rewrite E, (proj2 (compatible_spec _ _)) by apply J. cbn [bind]. apply ok1. destruct (made_rm _ _ _ _ M) as [S R]. rewrite (proj1 Tx), (proj1 Ty).
      apply lay_new; auto. intros _. destruct o; rewrite !(toward_arrow _ _ _ _ Tx), !(toward_arrow _ _ _ _ Ty), <- (proj1 (proj2 Tx)), <- (proj1 (proj2 Ty)); unfold bnode.
      - eapply U_add; [apply last_node| |]; now apply tl_unf.
      - eapply U_sub; [apply last_node| |]; now apply tl_unf.
      - eapply U_mul; [apply last_node| |]; now apply tl_unf.
      - eapply U_div; [apply last_node| |]; now apply tl_unf.
    Qed.
    Lemma scal_lay o i c : step_out (exec N st (IScal o i c)) (lstep (T := T) ls (IScal o i c)).
    Proof.
      cbn [exec]. with1 i x s l K TL.
      destruct (a_scal_ok N o hp (t_arr x) c (s_shape s) (sv N s) (proj1 (k_good _ _ _ _ _ _ _ K)) (k_md _ _ _ _ _ _ _ K)) as (h1 & r & E & M).
      rewrite E. cbn [bind]. destruct (made_rm _ _ _ _ M) as [S R]. rewrite <- (tl_shape _ _ _ K TL) in S.
      assert (Q : l_new (l_rg l) (l_sh l) (l_flow l) = mkL (l_rg l) (l_sh l) (row_major (l_sh l)) (l_flow l)).
      { unfold l_new. f_equal. destruct TL as (_ & _ & _ & U & Q). destruct (l_rg l); [auto|]. destruct (t_fn x); try discriminate. now inversion U. }
      assert (RS : a_stride r = row_major (l_sh l)) by (rewrite row_major_rm, <- S; exact R).
      destruct o; apply ok1.
      - rewrite Q. now apply lay_same.
      - rewrite Q. now apply lay_same.
      - rewrite (proj1 TL). apply lay_new; auto. intros _. rewrite (toward_arrow _ _ _ _ TL), <- (proj1 (proj2 TL)). eapply U_muls; [apply last_node|now apply tl_unf].
      - rewrite (proj1 TL). apply lay_new; auto. intros _. rewrite (toward_arrow _ _ _ _ TL), <- (proj1 (proj2 TL)). eapply U_divs; [apply last_node|now apply tl_unf].
    Qed.

    (** products *)
    Lemma product_lay x y lx ly h1 a sh nd : tl x lx -> tl y ly -> a_shape a = sh -> rmaj a ->
      nd = NDot (t_fn x) (t_fn y) (t_arr x) (t_arr y) \/ nd = NMatVec (t_fn x) (t_fn y) (t_arr x) (t_arr y) \/
      nd = NMatMul (t_fn x) (t_fn y) (t_arr x) (t_arr y) \/ nd = NBmm (t_fn x) (t_fn y) (t_arr x) (t_arr y) ->
      Lay (push_op st h1 a (t_rg x || t_rg y) nd) (ls ++ [l_new (l_rg lx || l_rg ly) sh (FBoth (toward WWhole lx) (toward WWhole ly))]).
    Proof.
      intros Tx Ty S R ND. rewrite (proj1 Tx), (proj1 Ty). apply lay_new; auto. intros _.
      rewrite !(toward_arrow _ _ _ _ Tx), !(toward_arrow _ _ _ _ Ty), <- (proj1 (proj2 Tx)), <- (proj1 (proj2 Ty)).
      destruct ND as [-> | [-> | [-> | ->]]].
      - eapply U_dot; [apply last_node| |]; now apply tl_unf.
      - eapply U_matvec; [apply last_node| |]; now apply tl_unf.
      - eapply U_matmul; [apply last_node| |]; now apply tl_unf.
      - eapply U_bmm; [apply last_node| |]; now apply tl_unf.
    Qed.
    Lemma dot_ok x y sx sy n : tok x sx -> tok y sy -> s_shape sx = [n] -> s_shape sy = [n] ->
      exists h1 a, a_dot N hp (t_arr x) (t_arr y) = Ok (h1, a) /\ a_shape a = [] /\ rmaj a.
    Proof.
      intros Kx Ky Sx Sy. pose proof (proj1 (k_good _ _ _ _ _ _ _ Kx)) as Gx. pose proof (proj1 (k_good _ _ _ _ _ _ _ Ky)) as Gy.
      rewrite Sx in Gx. rewrite Sy in Gy. destruct (a_dot_ok N inv0 F hp _ _ n _ _ Gx Gy) as (h1 & r & E & M). destruct (made_rm _ _ _ _ M). eauto 10.
    Qed.
    Lemma dot_lay i j : step_out (exec N st (IDot i j)) (lstep (T := T) ls (IDot i j)).
    Proof.
      cbn [exec]. with1 i x sx lx Kx Tx. with1 j y sy ly Ky Ty. rewrite (tl_shape _ _ _ Kx Tx), (tl_shape _ _ _ Ky Ty).
      assert (P : (forall n, ~ (s_shape sx = [n] /\ s_shape sy = [n])) -> a_dot N hp (t_arr x) (t_arr y) = Panic).
      { intros H'. apply dot_panic. intros n. rewrite (tok_shape _ _ _ _ _ _ Kx), (tok_shape _ _ _ _ _ _ Ky). apply H'. }
      destruct (s_shape sx) as [|n [|? ?]] eqn:Sx; [left; rewrite P by (intros ? [? ?]; discriminate); auto| |left; rewrite P by (intros ? [? ?]; discriminate); auto].
      destruct (s_shape sy) as [|n' [|? ?]] eqn:Sy; [left; rewrite P by (intros ? [? ?]; discriminate); auto| |left; rewrite P by (intros ? [? ?]; discriminate); auto].
      destruct (Nat.eqb_spec n n') as [<-|NE]; [|left; rewrite P by (intros ? [? ?]; congruence); auto].
      destruct (dot_ok x y sx sy n Kx Ky Sx Sy) as (h1 & a & E & S & R). rewrite E. cbn [bind]. apply ok1. apply product_lay; auto.
    Qed.
    Lemma matmul_lay i j : step_out (exec N st (IMatmul i j)) (lstep (T := T) ls (IMatmul i j)).
    Proof.
      cbn [exec]. with1 i x sx lx Kx Tx. with1 j y sy ly Ky Ty. rewrite (tl_shape _ _ _ Kx Tx), (tl_shape _ _ _ Ky Ty), (tok_shape _ _ _ _ _ _ Kx), (tok_shape _ _ _ _ _ _ Ky).
      assert (P : match s_shape sx, s_shape sy with [n], [m] => n <> m | [_; k], [m] => k <> m | [_; k], [k'; _] => k <> k' | _, _ => True end ->
                  a_matmul N hp (t_arr x) (t_arr y) = Panic).
      { intros HP. apply matmul_panic. now rewrite (tok_shape _ _ _ _ _ _ Kx), (tok_shape _ _ _ _ _ _ Ky). }
      pose proof (proj1 (k_good _ _ _ _ _ _ _ Kx)) as Gx. pose proof (proj1 (k_good _ _ _ _ _ _ _ Ky)) as Gy.
      destruct (s_shape sx) as [|n [|k [|? ?]]] eqn:Sx; cbn [length Nat.eqb andb].
      - left. rewrite P by auto. auto.
      - destruct (s_shape sy) as [|m [|? ?]] eqn:Sy; cbn [length Nat.eqb andb]; [left; rewrite P by auto; auto| |left; rewrite P by auto; auto].
        destruct (Nat.eqb_spec n m) as [<-|NE].
        + destruct (dot_ok x y sx sy n Kx Ky Sx Sy) as (h1 & a & E & S & R). rewrite E. cbn [bind]. apply ok1. apply product_lay; auto.
        + left. rewrite dot_panic; [auto|]. intros m0 [E1 E2]. rewrite (tok_shape _ _ _ _ _ _ Kx) in E1. rewrite (tok_shape _ _ _ _ _ _ Ky) in E2. congruence.
      - destruct (s_shape sy) as [|m [|p [|? ?]]] eqn:Sy; cbn [length Nat.eqb andb]; [left; rewrite P by auto; auto| | |left; rewrite P by auto; auto].
        + destruct (Nat.eqb_spec k m) as [<-|NE]; [|left; rewrite P by auto; auto].
          destruct (a_matvec_ok N inv0 F hp _ _ n k _ _ Gx Gy) as (h1 & r & E & M). destruct (made_rm _ _ _ _ M) as [S R]. rewrite E. cbn [bind].
          destruct (t_rg x || t_rg y) eqn:Q; apply ok1; rewrite <- Q; apply product_lay; auto.
        + destruct (Nat.eqb_spec k m) as [<-|NE]; [|left; rewrite P by auto; auto].
          destruct (a_matmul_ok N inv0 F hp _ _ n k p _ _ Gx Gy) as (h1 & r & E & M). destruct (made_rm _ _ _ _ M) as [S R]. rewrite E. cbn [bind].
          destruct (t_rg x || t_rg y) eqn:Q; apply ok1; rewrite <- Q; apply product_lay; auto.
      - left. rewrite P by auto. auto.
    Qed.
    Lemma bmm_lay i j : step_out (exec N st (IBmm i j)) (lstep (T := T) ls (IBmm i j)).
    Proof.
      cbn [exec]. with1 i x sx lx Kx Tx. with1 j y sy ly Ky Ty. rewrite (tl_shape _ _ _ Kx Tx), (tl_shape _ _ _ Ky Ty).
      assert (P : match s_shape sx, s_shape sy with [q; _; _], [q'; _; _] => q <> q' | _, _ => True end -> a_bmm N hp (t_arr x) (t_arr y) = Panic).
      { intros HP. apply (C26_mismatch_panics T (n0 N) (n1 N) (lift2 (nadd N)) (lift2 (nmul N)) (lift3 (nadd N) (nmul N)) hp (t_arr x) (t_arr y)).
        now rewrite (tok_shape _ _ _ _ _ _ Kx), (tok_shape _ _ _ _ _ _ Ky). }
      destruct (s_shape sx) as [|q [|n [|k [|? ?]]]] eqn:Sx; try (left; rewrite P by auto; auto).
      destruct (s_shape sy) as [|q' [|k' [|p [|? ?]]]] eqn:Sy; try (left; rewrite P by auto; auto).
      destruct (Nat.eqb_spec q q') as [<-|NE]; [|left; rewrite P by auto; auto]. cbn [andb].
      pose proof (proj1 (k_good _ _ _ _ _ _ _ Kx)) as Gx. pose proof (proj1 (k_good _ _ _ _ _ _ _ Ky)) as Gy. rewrite Sx in Gx. rewrite Sy in Gy.
      destruct (Nat.eqb_spec k k') as [<-|NE].
      - destruct (a_bmm_ok N inv0 F hp _ _ q n k p _ _ Gx Gy) as (h1 & r & E & M). destruct (made_rm _ _ _ _ M) as [S R]. rewrite E. cbn [bind].
        apply ok1. apply product_lay; auto.
      - left. pose proof (good_pos _ _ _ _ Gx) as Px. pose proof (good_pos _ _ _ _ Gy) as Py.
        pose proof (good_wf _ _ _ _ Gx) as Wx. pose proof (good_wf _ _ _ _ Gy) as Wy.
        unfold wf in *. rewrite (tok_shape _ _ _ _ _ _ Kx), Sx in Wx. rewrite (tok_shape _ _ _ _ _ _ Ky), Sy in Wy.
        inversion Px as [|? ? P1 Px']; subst. inversion Px' as [|? ? P2 Px'']; subst. inversion Px'' as [|? ? P3 _]; subst.
        inversion Py as [|? ? P4 Py']; subst. inversion Py' as [|? ? P5 Py'']; subst. inversion Py'' as [|? ? P6 _]; subst.
        unfold a_bmm. rewrite (C26_bmm_inner_mismatch_panics T _ _ _ _ _ hp (t_arr x) (t_arr y) q n k k' p); auto;
          [rewrite (tok_shape _ _ _ _ _ _ Kx); auto|rewrite (tok_shape _ _ _ _ _ _ Ky); auto].
    Qed.

    (** views *)
    Definition op_lay (op : mode -> arr -> res arr) (sh : list nat) (b : list nat -> bool) (sh' : list nat) (f : list nat -> list nat) : Prop :=
      forall h a v m, good h a sh v -> (op m a = Panic /\ b (a_stride a) = false) \/
        (b (a_stride a) = true /\ exists r, op m a = Ok r /\ a_shape r = sh' /\ a_stride r = f (a_stride a)).
    Lemma via_array_lay op m x s l b sh' f : tok x s -> tl x l -> op_lay op (l_sh l) b sh' f ->
      let s0 := kept m (l_sh l) (l_st l) in
      (via_array m op hp (t_arr x) = Panic /\ b s0 = false) \/
      (b s0 = true /\ exists h1 a, via_array m op hp (t_arr x) = Ok (h1, a) /\ a_shape a = sh' /\ a_stride a = f s0).
    Proof.
      intros K TL O. destruct (k_good _ _ _ _ _ _ _ K) as [G NB]. rewrite (tl_shape _ _ _ K TL) in *. destruct TL as (_ & _ & <- & _). cbv zeta. unfold via_array. destruct m; cbn [kept].
      - destruct (O hp (t_arr x) _ ByRef G) as [[E B]|(B & r & E & S & R)]; rewrite E, B; [now left|]. right. split; [auto|]. exists hp, (lifetime_cast r). auto.
      - destruct (O hp (t_arr x) _ ByValue G) as [[E B]|(B & r & E & S & R)]; rewrite E, B; [now left|]. right. split; [auto|]. exists hp, r. auto.
      - destruct (clone_made hp _ _ _ G (k_md _ _ _ _ _ _ _ K)) as (h1 & E1 & M). rewrite E1. cbn [bind]. rewrite row_major_rm.
        pose proof (proj2 (made_rm _ _ _ _ M)) as RM. unfold rmaj in RM. cbn [fresh_arr a_shape] in RM.
        destruct (O h1 _ _ ByValue (proj1 (proj2 (proj2 M)))) as [[E B]|(B & r & E & S & R)]; rewrite RM in *; rewrite E, B; [now left|].
        right. split; [auto|]. exists h1, r. auto.
    Qed.
    Lemma via_strides_lay op m x s l b sh' f : tok x s -> tl x l -> op_lay op (l_sh l) b sh' f ->
      (via_strides m op hp (t_arr x) = Panic /\ b (l_st l) = false) \/
      (b (l_st l) = true /\ exists h1 a, via_strides m op hp (t_arr x) = Ok (h1, a) /\ a_shape a = sh' /\ a_stride a = f (l_st l)).
    Proof.
      intros K TL O. destruct (k_good _ _ _ _ _ _ _ K) as [G NB]. rewrite (tl_shape _ _ _ K TL) in *. destruct TL as (_ & _ & <- & _). unfold via_strides. destruct m.
      - destruct (O hp (t_arr x) _ ByRef G) as [[E B]|(B & r & E & S & R)]; rewrite E, B; [now left|]. right. split; [auto|]. exists hp, (lifetime_cast r). auto.
      - destruct (O hp (t_arr x) _ ByValue G) as [[E B]|(B & r & E & S & R)]; rewrite E, B; [now left|]. right. split; [auto|]. exists hp, r. auto.
      - destruct (O hp (t_arr x) _ ByValue G) as [[E B]|(B & r & E & S & R)]; rewrite E, B; [now left|]. right. split; [auto|]. cbn [bind].
        destruct (clone_made hp _ _ _ G (k_md _ _ _ _ _ _ _ K)) as (h1 & E1 & M). rewrite E1. cbn [bind]. eexists _, _. split; [reflexivity|].
        rewrite reshaped_view_shape, reshaped_view_stride. auto.
    Qed.

    Lemma view_o sh : op_lay (fun m a => Ok (nd_view m a)) sh (fun _ => true) sh (fun s => s).
    Proof.
      intros h a v m G. right. split; [auto|]. exists (nd_view m a). split; [auto|]. unfold nd_view. rewrite reshaped_view_shape, reshaped_view_stride.
      now rewrite (good_shape _ _ _ _ G).
    Qed.
    Lemma reshape_o sh sh' : sh' <> sh -> op_lay (fun m a => nd_reshape m a sh') sh (fun s => (prod sh' =? prod sh) && reshapable sh s) sh' (fun s => reshaped s sh').
    Proof. intros NE h a v m G. apply (reshape_exact h a sh v m sh' G NE). Qed.
    Lemma squeeze_o sh : op_lay (fun m a => Ok (nd_squeeze m a)) sh (fun _ => true)
      (filter (fun n => negb (n =? 1)) sh) (fun s => map snd (filter (fun p => negb (fst p =? 1)) (combine sh s))).
    Proof.
      intros h a v m G. right. split; [auto|]. exists (nd_squeeze m a). split; [auto|]. unfold nd_squeeze. rewrite reshaped_view_shape, reshaped_view_stride.
      rewrite <- (good_shape _ _ _ _ G). split; [|reflexivity]. apply squeeze_shape_spec. apply (good_wf _ _ _ _ G).
    Qed.
    Lemma unsqueeze_o sh axis : let k := axis_of axis (length sh + 1) in
      op_lay (fun m a => nd_unsqueeze m a axis) sh (fun _ => axis_ok axis (length sh + 1)) (insert_at k 1 sh)
        (fun s => insert_at k (if k =? length sh then 1 else nth k s 0 * nth k sh 0) s).
    Proof.
      intros k h a v m G. destruct (axis_ok_spec axis (length sh + 1)) as [[B E]|(B & E & L)]; rewrite B.
      - left. unfold nd_unsqueeze. rewrite (good_shape _ _ _ _ G), E. auto.
      - right. split; [auto|]. fold k in E, L. pose proof (good_wf _ _ _ _ G) as W. pose proof (good_shape _ _ _ _ G) as S. unfold wf in W.
        unfold nd_unsqueeze. rewrite S, E in *. cbn [bind]. destruct (Nat.eqb_spec k (length sh)) as [Q|Q].
        + eexists. split; [reflexivity|]. rewrite reshaped_view_shape, reshaped_view_stride. unfold insert_at. rewrite Q.
          rewrite firstn_all, skipn_all, firstn_all2, skipn_all2 by lia. auto.
        + rewrite vinsert_ok by lia. cbn [bind]. rewrite (@vget_nth _ (a_stride a) k 0) by lia. cbn [bind].
          change (firstn k sh ++ 1 :: skipn k sh) with (insert_at k 1 sh).
          rewrite (vget_insert sh k 1 0) by lia. rewrite (@vget_nth _ sh k 0) by lia. cbn [bind]. rewrite vinsert_ok by lia. cbn [bind].
          eexists. split; [reflexivity|]. rewrite reshaped_view_shape, reshaped_view_stride. auto.
    Qed.
    Lemma transpose_o sh a1 a2 : let i := axis_of a1 (length sh) in let j := axis_of a2 (length sh) in
      op_lay (fun m a => nd_transpose m a a1 a2) sh (fun _ => axis_ok a1 (length sh) && axis_ok a2 (length sh)) (swap_at i j sh) (swap_at i j).
    Proof.
      intros i j h a v m G. pose proof (good_shape _ _ _ _ G) as S.
      destruct (axis_ok_spec a1 (length sh)) as [[B1 E1]|(B1 & E1 & L1)]; rewrite B1; cbn [andb].
      { left. unfold nd_transpose. rewrite S, E1. auto. }
      destruct (axis_ok_spec a2 (length sh)) as [[B2 E2]|(B2 & E2 & L2)]; rewrite B2.
      { left. unfold nd_transpose. rewrite S, E1, E2. auto. }
      right. split; [auto|]. rewrite <- S in E1, E2. destruct (nd_transpose_ok m a a1 a2 _ _ (good_wf _ _ _ _ G) E1 E2) as (r & E & SH & _ & _ & ST).
      exists r. rewrite S in SH, ST. auto.
    Qed.

    Lemma look_lay m x s l : tok x s -> tl x l ->
      step_out (r <- via_array m (fun m a => Ok (nd_view m a)) hp (t_arr x) ;; let '(h, a) := r in Ok (push_same st h a x))
        (Some (ls ++ [mkL (l_rg l) (l_sh l) (kept m (l_sh l) (l_st l)) (l_flow l)])).
    Proof.
      intros K TL. destruct (via_array_lay _ m x s l _ _ _ K TL (view_o (l_sh l))) as [[_ B]|(_ & h1 & a & E & S & R)]; [discriminate|].
      rewrite E. cbn [bind]. apply ok1. now apply lay_same.
    Qed.
    Lemma view_lay m i : step_out (exec N st (IView m i)) (lstep (T := T) ls (IView m i)).
    Proof. cbn [exec]. with1 i x s l K TL. now apply (look_lay m x s l). Qed.
    (** a view with a reshape node *)
    Lemma node_lay x l h1 a sh st' : tl x l -> a_shape a = sh -> a_stride a = st' ->
      step_out (Ok (push_op st h1 a (t_rg x) (NReshape (t_fn x) (a_shape (t_arr x))))) (Some (ls ++ [l_look l sh st' WReshape])).
    Proof.
      intros TL S R. apply ok1. rewrite (proj1 TL). apply lay_op; auto.
      - intros _. rewrite (toward_arrow _ _ _ _ TL), <- (proj1 (proj2 TL)). eapply U_reshape; [apply last_node|now apply tl_unf].
      - intros Q. unfold toward. now rewrite Q.
    Qed.
    Lemma reshape_lay m i sh : step_out (exec N st (IReshape m i sh)) (lstep (T := T) ls (IReshape m i sh)).
    Proof.
      cbn [exec]. with1 i x s l K TL.
      change same_shape with list_eqb.
      rewrite <- (proj1 (proj2 TL)).
      destruct (list_eqb sh (a_shape (t_arr x))) eqn:Q; [rewrite (proj1 (proj2 TL)); now apply (look_lay m x s l)|].
      assert (NE : sh <> l_sh l). { intros ->. rewrite <- (proj1 (proj2 TL)), (proj2 (list_eqb_spec _ _) eq_refl) in Q. discriminate. }
      rewrite (proj1 (proj2 TL)).
      destruct (via_strides_lay _ m x s l _ _ _ K TL (reshape_o (l_sh l) sh NE)) as [[E B]|(B & h1 & a & E & S & R)]; rewrite E, B; [now left|].
      cbn [bind]. rewrite <- (proj1 (proj2 TL)). now apply node_lay.
    Qed.
    Lemma squeeze_lay m i : step_out (exec N st (ISqueeze m i)) (lstep (T := T) ls (ISqueeze m i)).
    Proof.
      cbn [exec]. with1 i x s l K TL.
      destruct (via_strides_lay _ m x s l _ _ _ K TL (squeeze_o (l_sh l))) as [[_ B]|(_ & h1 & a & E & S & R)]; [discriminate|]. rewrite E. cbn [bind].
      apply node_lay; auto. rewrite S. symmetry. apply squeeze_shape_spec. rewrite <- (proj1 (proj2 TL)), <- (proj1 (proj2 (proj2 TL))).
      apply (good_wf _ _ _ _ (proj1 (k_good _ _ _ _ _ _ _ K))).
    Qed.
    Lemma unsqueeze_lay m i axis : step_out (exec N st (IUnsqueeze m i axis)) (lstep (T := T) ls (IUnsqueeze m i axis)).
    Proof.
      cbn [exec]. with1 i x s l K TL.
      destruct (via_strides_lay _ m x s l _ _ _ K TL (unsqueeze_o (l_sh l) axis)) as [[E B]|(B & h1 & a & E & S & R)]; rewrite E, B; [now left|]. cbn [bind].
      now apply node_lay.
    Qed.
    Lemma transpose_lay m i a1 a2 : step_out (exec N st (ITranspose m i a1 a2)) (lstep (T := T) ls (ITranspose m i a1 a2)).
    Proof.
      cbn [exec]. with1 i x s l K TL.
      destruct (via_array_lay _ m x s l _ _ _ K TL (transpose_o (l_sh l) a1 a2)) as [[E B]|(B & h1 & a & E & S & R)]; rewrite E, B; [now left|]. cbn [bind].
      apply ok1. rewrite (proj1 TL). apply lay_op; auto.
      - intros _. rewrite (toward_arrow _ _ _ _ TL). eapply U_trans; [apply last_node|now apply tl_unf].
      - intros Q. unfold toward. now rewrite Q.
    Qed.

    (** backward *)
    Lemma lay_heap h : Lay (mkG h (g_leaves st) (g_nodes st) (g_ts st)) ls.
    Proof. exact LY. Qed.
    Lemma run_lay y s l h1 g ga : tok y s -> tl y l -> extends hp h1 -> sgood lv h1 g (s_shape s) ga ->
      step_out (run_bw N st h1 y g) (if negb (stuck (l_flow l) (s_shape s) (a_stride g)) then Some ls else None).
    Proof.
      intros K TL X G. pose proof (keeps_extends lv _ _ X) as KX. unfold run_bw.
      destruct (bw_x N inv0 F lv Lsh (g_nodes st) Gh (m_len _ _ _ _ SM) (S (length (g_nodes st))) [] h1 (t_fn y) (s_shape s) (sd s) g ga (s_G ss) (l_flow l))
        as [[E C]|(C & h2 & G2 & E & KE & L)].
      - pose proof (tok_op _ _ _ _ SM _ _ K) as (_ & H & _). lia.
      - intros b [].
      - apply K. - apply K. - auto.
      - eapply nodes_keeps; [apply (m_nodes _ _ _ _ SM)|auto].
      - eapply lives_extends; [apply (m_lives _ _ _ _ SM)|auto].
      - apply TL.
      - left. now rewrite E, C.
      - rewrite E, C. apply ok1, LY.
    Qed.
    Lemma backward_lay i : step_out (exec N st (IBackward i)) (lstep (T := T) ls (IBackward i)).
    Proof.
      cbn [exec]. with1 i y s l K TL. rewrite (tok_shape _ _ _ _ _ _ K), (tl_shape _ _ _ K TL).
      destruct (nd_full_made hp (n1 N) (s_shape s) (good_prod _ _ _ _ (proj1 (k_good _ _ _ _ _ _ _ K)))) as (h1 & g & E & M & _).
      rewrite E. cbn [bind]. destruct (made_rm _ _ _ _ M) as [S R]. unfold rmaj in R. rewrite row_major_rm. rewrite S in R. rewrite <- R.
      eapply run_lay; eauto; [apply M|]. eapply made_sgood; eauto. apply (m_lives _ _ _ _ SM).
    Qed.
    Lemma backward_with_lay i sd0 : in_scope ss (IBackwardWith i sd0) -> step_out (exec N st (IBackwardWith i sd0)) (lstep (T := T) ls (IBackwardWith i sd0)).
    Proof.
      intros SC. destruct sd0 as [sh data| |j|]; cbn in SC; try easy; cbn [exec].
      - with1 i y s l K TL. rewrite (tok_shape _ _ _ _ _ _ K), (tl_shape _ _ _ K TL). cbn [seed_arr]. change same_shape with list_eqb. unfold fills.
        destruct (new_array_made hp sh data (n0 N)) as [(h1 & g & E & M)|E]; rewrite E; cbn [bind].
        + unfold new_array in E. destruct (length data =? prod sh); [|discriminate E]. cbn [guard bind andb] in *. destruct (length data =? 0); [discriminate E|]. cbn [negb andb].
          destruct (made_rm _ _ _ _ M) as [S R]. rewrite S. destruct (list_eqb sh (s_shape s)) eqn:Q; [|now left]. cbn [guard bind andb]. apply list_eqb_spec in Q.
          unfold rmaj in R. rewrite row_major_rm. rewrite S in R. rewrite <- R, Q. assert (SG : sgood lv h1 g sh (fun idx => nth (rank idx sh) data (n0 N))).
          { eapply made_sgood; eauto. apply (m_lives _ _ _ _ SM). }
          rewrite Q in SG. eapply run_lay; eauto. apply M.
        + unfold new_array in E. destruct (length data =? prod sh); [|now left]. cbn [guard bind andb] in *. destruct (length data =? 0); [now left|discriminate E].
      - with1 i y s l K TL. cbn [seed_arr]. destruct (get2 j) as [[-> ->]|(z & sz & lz & -> & _ & _ & -> & Kz & Tz)]; [now left|]. cbn [bind].
        rewrite (tok_shape _ _ _ _ _ _ K), (tok_shape _ _ _ _ _ _ Kz), (tl_shape _ _ _ K TL), (tl_shape _ _ _ Kz Tz). change same_shape with list_eqb.
        destruct (list_eqb (s_shape sz) (s_shape s)) eqn:Q; [|now left]. cbn [guard bind andb]. apply list_eqb_spec in Q.
        pose proof (k_good _ _ _ _ _ _ _ Kz) as Gz. rewrite Q in Gz. rewrite Q. rewrite <- (proj1 (proj2 (proj2 Tz))). eapply run_lay; eauto using ext_refl.
    Qed.
    Lemma zero_lay i : step_out (exec N st (IZeroGrad i)) (lstep (T := T) ls (IZeroGrad i)).
    Proof.
      cbn [exec]. with1 i x s l K TL. destruct (t_fn x) as [|k|m] eqn:Q; [apply ok1, LY| |apply ok1, LY].
      pose proof (k_fn _ _ _ _ _ _ _ K) as RS. rewrite Q in RS. destruct RS as [ES _]. destruct (m_lives _ _ _ _ SM) as (LL & ND & H1).
      destruct (nth_error lv k) as [a|] eqn:Ea; [|apply nth_error_None in Ea; assert (k < length Lsh) by (apply nth_error_Some; congruence); lia].
      unfold vget. rewrite Ea. cbn [bind]. destruct (H1 k a Ea) as (sh & ES' & Fa & MD & Ga).
      destruct (nd_fill_ok hp a (n0 N) (good_valid _ _ _ _ Ga) (good_nz _ _ _ _ Ga)) as (h2 & E & EL & SE).
      { intros _. rewrite Fa. reflexivity. }
      rewrite E. cbn [bind]. apply ok1, LY.
    Qed.
    Lemma setgrad_lay i b : step_out (exec N st (ISetGrad i b)) (lstep (T := T) ls (ISetGrad i b)).
    Proof.
      cbn [exec]. with1 i x s l K TL. assert (LI : i < length (g_ts st)) by (apply nth_error_Some; congruence).
      destruct TL as (TR & TS & TT & TU & TN). rewrite TR. destruct b, (l_rg l) eqn:Q; cbn [Bool.eqb].
      - apply ok1, LY.
      - rewrite (tok_shape _ _ _ _ _ _ K).
        destruct (nd_full_made hp (n0 N) (s_shape s) (good_prod _ _ _ _ (proj1 (k_good _ _ _ _ _ _ _ K)))) as (h1 & g & E & M & Fg).
        rewrite E. cbn [bind]. rewrite set_ok by auto. cbn [bind]. apply ok1. apply Forall2_set; [exact LY|]. repeat split; auto. constructor.
      - rewrite set_ok by auto. cbn [bind]. apply ok1. apply Forall2_set; [exact LY|]. repeat split; auto. constructor.
      - apply ok1, LY.
    Qed.

    Lemma exec_lay i : in_scope ss i -> small (sstep N ss i) -> step_out (exec N st i) (lstep (T := T) ls i).
    Proof.
      destruct i; intros SC SMALL.
      - apply new_lay. - apply setgrad_lay. - apply neg_lay. - now apply bin_lay. - apply scal_lay. - apply dot_lay.
      - apply matmul_lay. - apply bmm_lay. - apply view_lay. - apply reshape_lay. - apply squeeze_lay. - apply unsqueeze_lay.
      - apply transpose_lay. - apply backward_lay. - now apply backward_with_lay. - apply zero_lay.
    Qed.
  End Step.

  Lemma run_lays p : forall st ss Gh ls, Sim N st ss Gh -> Lay st ls -> admissible N p ss -> step_out (run N p st) (lrun p ls).
  Proof.
    induction p as [|i p IH]; intros st ss Gh ls SM LY A.
    - now apply ok1.
    - destruct A as (SC & SMALL & A). cbn [run lrun].
      destruct (exec_lay st ss Gh ls SM LY i SC SMALL) as [[-> ->]|(st' & ls' & E & -> & LY')]; [now left|].
      destruct (exec_ok N inv0 F st ss Gh SM i SC SMALL) as [E'|(st'' & Gh' & E' & SM')]; rewrite E in E'; [discriminate|]. injection E' as <-.
      rewrite E. cbn [bind]. eapply IH; eauto.
  Qed.
End Lay.
