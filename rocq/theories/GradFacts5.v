(** GradFacts5.v: facts about all programs: which tensors require a gradient, the shape of
    gradients, and graphs on which backward cannot panic. *)
From Coq Require Import List Arith Lia Bool ZArith Permutation.
From Verif Require Import Base Spec Layout SpecFacts LayoutFacts Views ViewsFacts ViewsFacts2 ViewsFacts3 ViewsFacts4
  Kernels Access HeapFacts KernelFacts OpFacts AccessFacts Chain ChainFacts Reduce ReduceFacts Einsum EinsumFacts2
  PropsViews PropsOps PropsReduce PropsEinsum SpecGrad Autograd GradMath GradFacts GradFacts2 GradFacts3 GradFacts4.
Import ListNotations.
Open Scope res_scope.

(** ** graphs on which backward cannot panic *)
Definition unit_scalar (sh : list nat) : Prop := prod sh = 1 -> sh = [].
Definition is_trans {T} (nd : gnode T) : bool := match nd with NTrans _ _ _ => true | _ => false end.
Definition is_resh {T} (nd : gnode T) : bool := match nd with NReshape _ _ => true | _ => false end.

Lemma kept_of s t : unit_scalar s -> broadcastable s t -> s = [] \/ some_kept s t = true.
Proof.
  intros U [L H]. destruct (some_kept s t) eqn:K; [now right|]. left. apply U. unfold some_kept in K. revert K. clear U L.
  generalize dependent (skipn (length t - length s) t). intros t' H. induction H as [|n m s t' P H IH]; intros K; [reflexivity|].
  cbn [combine existsb fst snd] in K. apply orb_false_iff in K as [K1 K2]. apply negb_false_iff, andb_true_iff in K1 as [K1 _].
  apply Nat.eqb_eq in K1. rewrite prod_cons, K1, IH by auto. reflexivity.
Qed.

Lemma join_broadcastable a b r : join_shape a b r -> broadcastable a r /\ broadcastable b r.
Proof. split; [eapply join_shape_broadcastable_l|eapply join_shape_broadcastable_r]; eauto. Qed.

Section Calm.
  Context {T : Type} (N : num T) (lv : list arr) (Lsh : list (list nat)) (nodes : list (gnode T))
    (Gh : list (list nat * (@pert T -> list nat -> T))) (h : heap T).
  Hypothesis NO : nodes_ok N lv Lsh nodes Gh h.
  Hypothesis US : forall sh, In sh Lsh \/ In sh (map fst Gh) -> unit_scalar sh.
  Variable noresh : bool.
  Hypothesis NR : noresh = true -> forall m nd, nth_error nodes m = Some nd -> is_resh nd = false.
  Hypothesis NT : noresh = false -> forall m nd, nth_error nodes m = Some nd -> is_trans nd = false.

  Lemma rspec_unit x sx D : rspec N Lsh Gh x sx D -> is_none x = true \/ unit_scalar sx.
  Proof.
    destruct x as [|k|m]; cbn [rspec]; intros R; [now left| |]; right; apply US.
    - left. destruct R as [E _]. eapply nth_error_In; eauto.
    - right. destruct R as (D' & E & _). apply (in_map fst _ (sx, D')). eapply nth_error_In; eauto.
  Qed.

  Lemma calm_all f : forall r sh D u, rspec N Lsh Gh r sh D -> (u = true \/ noresh = true) -> calm nodes f r sh u = true.
  Proof.
    induction f as [|f IH]; intros r sh D u R U; [reflexivity|]. destruct r as [|k|m]; [reflexivity|reflexivity|].
    cbn [calm]. destruct (nth_error nodes m) as [nd|] eqn:E; [|reflexivity].
    destruct (NO m nd E) as (sh' & D' & E' & _ & OK). cbn [rspec] in R. destruct R as (D'' & E'' & _). rewrite E'' in E'. injection E' as <- <-.
    assert (NXT : forall x sx Dx mm uu, op1 N Lsh Gh mm x sx Dx -> (uu = true \/ noresh = true) -> calm_next (calm nodes f) x sx uu = true).
    { intros x sx Dx mm uu (RX & _ & _) UU. unfold calm_next. rewrite (IH x sx Dx uu RX UU). apply orb_true_r. }
    assert (SHP : forall x sx Dx mm uu, op1 N Lsh Gh mm x sx Dx -> broadcastable sx sh -> (uu = true \/ noresh = true) -> calm_shape (calm nodes f) x sh sx uu = true).
    { intros x sx Dx mm uu (RX & _ & _) B UU. unfold calm_shape. destruct (rspec_unit _ _ _ RX) as [->|UX]; [reflexivity|].
      destruct (list_eqb sx sh); [rewrite (IH x sx Dx uu RX UU); apply orb_true_r|].
      rewrite (IH x sx Dx true RX) by auto. destruct (kept_of _ _ UX B) as [->| ->]; cbn; [apply orb_true_r|]. rewrite !orb_true_r. reflexivity. }
    destruct nd; cbn [node_ok] in OK.
    - destruct OK as (Dx & Dy & OX & OY & J & _). destruct (join_broadcastable _ _ _ J). rewrite (SHP x sx Dx m u), (SHP y sy Dy m u) by auto. reflexivity.
    - destruct OK as (Dx & Dy & OX & OY & J & _). destruct (join_broadcastable _ _ _ J). rewrite (SHP x sx Dx m u), (SHP y sy Dy m true) by auto. reflexivity.
    - destruct OK as (sx & sy & vx & vy & Dx & Dy & OX & OY & J & GL & GR & _). destruct (join_broadcastable _ _ _ J).
      rewrite (good_shape _ _ _ _ (proj1 GL)), (good_shape _ _ _ _ (proj1 GR)). rewrite (SHP x sx Dx m true), (SHP y sy Dy m true) by auto. reflexivity.
    - destruct OK as (Dx & OX & -> & _). apply (SHP x sh Dx m true); auto. apply broadcastable_refl.
    - destruct OK as (sx & sy & vx & vy & Dx & Dy & OX & OY & J & GL & GR & _). destruct (join_broadcastable _ _ _ J).
      rewrite (good_shape _ _ _ _ (proj1 GL)), (good_shape _ _ _ _ (proj1 GR)). rewrite (SHP x sx Dx m true), (SHP y sy Dy m true) by auto. reflexivity.
    - destruct OK as (Dx & OX & -> & _). apply (SHP x sh Dx m true); auto. apply broadcastable_refl.
    - destruct OK as (Dx & OX & -> & _). apply (SHP x sh Dx m true); auto. apply broadcastable_refl.
    - destruct OK as (n & vx & vy & Dx & Dy & OX & OY & GL & GR & _).
      rewrite (good_shape _ _ _ _ (proj1 GL)), (good_shape _ _ _ _ (proj1 GR)). rewrite (NXT x _ Dx m true), (NXT y _ Dy m true) by auto. reflexivity.
    - destruct OK as (n & k & vx & vy & Dx & Dy & OX & OY & GL & GR & _).
      rewrite (good_shape _ _ _ _ (proj1 GL)), (good_shape _ _ _ _ (proj1 GR)). rewrite (NXT x _ Dx m true), (NXT y _ Dy m true) by auto. reflexivity.
    - destruct OK as (n & k & p & vx & vy & Dx & Dy & OX & OY & GL & GR & _).
      rewrite (good_shape _ _ _ _ (proj1 GL)), (good_shape _ _ _ _ (proj1 GR)). rewrite (NXT x _ Dx m true), (NXT y _ Dy m true) by auto. reflexivity.
    - destruct OK as (q & n & k & p & vx & vy & Dx & Dy & OX & OY & GL & GR & _).
      rewrite (good_shape _ _ _ _ (proj1 GL)), (good_shape _ _ _ _ (proj1 GR)). rewrite (NXT x _ Dx m true), (NXT y _ Dy m true) by auto. reflexivity.
    - destruct U as [->|NRT]; [|specialize (NR NRT _ _ E); discriminate]. destruct OK as (Dx & OX & PR & _).
      rewrite (IH x _ Dx true (proj1 OX)) by auto. rewrite andb_true_r. cbn [andb]. destruct (rspec_unit _ _ _ (proj1 OX)) as [->|UX]; [reflexivity|].
      destruct (list_eqb sh []) eqn:Q; [|cbn [negb]; rewrite !orb_true_r; reflexivity]. apply list_eqb_spec in Q. subst sh. rewrite (UX PR).
      cbn. apply orb_true_r.
    - destruct noresh; [|specialize (NT eq_refl _ _ E); discriminate]. destruct OK as (s & Dx & OX & H). cbv zeta in H.
      destruct H as (_ & _ & L1 & L2 & -> & _). rewrite swap_at_length, swap_at_invol by auto. apply (NXT x s Dx m false); auto.
  Qed.
End Calm.

(** ** facts about all programs, by induction on the program *)
Section All.
  Context {T : Type} (N : num T).
  Implicit Types st : gstate (T := T).

  Ltac inv_ok H := repeat match type of H with
    | bind ?r _ = Ok _ => let E := fresh "E" in destruct r eqn:E; cbn [bind] in H; try discriminate H
    | (let '(_, _) := ?p in _) = Ok _ => destruct p
    | (if ?b then _ else _) = Ok _ => let E := fresh "E" in destruct b eqn:E; try discriminate H
    end.

  Lemma run_inv (P : gstate -> Prop) : (forall st i st', P st -> exec N st i = Ok st' -> P st') ->
    forall p st st', P st -> run N p st = Ok st' -> P st'.
  Proof.
    intros H p. induction p as [|i p IH]; intros st st' A E; cbn [run] in E; [congruence|].
    destruct (exec N st i) eqn:Q; cbn [bind] in E; try discriminate. eauto.
  Qed.
  Lemma run_inv2 {A} (R : gstate -> A -> Prop) (f : A -> instr T -> A) : (forall st a i st', R st a -> exec N st i = Ok st' -> R st' (f a i)) ->
    forall p st a st', R st a -> run N p st = Ok st' -> R st' (fold_left f p a).
  Proof.
    intros H p. induction p as [|i p IH]; intros st a st' B E; cbn [run fold_left] in E |- *; [congruence|].
    destruct (exec N st i) eqn:Q; cbn [bind] in E; try discriminate. eauto.
  Qed.

  (** requires_grad *)
  Definition flag_step (fs : list bool) (i : instr T) : list bool :=
    let get k := nth k fs false in
    match i with
    | INew _ _ => fs ++ [false]
    | ISetGrad k b => set_nth fs k b
    | INeg k | IScal _ k _ | IView _ k | IReshape _ k _ | ISqueeze _ k | IUnsqueeze _ k _ | ITranspose _ k _ _ => fs ++ [get k]
    | IBin _ j k | IDot j k | IMatmul j k | IBmm j k => fs ++ [get j || get k]
    | IBackward _ | IBackwardWith _ _ | IZeroGrad _ => fs
    end.

  Lemma vget_nth (ts : list tensor) i x : vget ts i = Ok x -> nth i (map t_rg ts) false = t_rg x.
  Proof.
    unfold vget. destruct (nth_error ts i) eqn:E; intros Q; [|discriminate]. apply Ok_inj in Q. subst.
    apply nth_error_nth with (d := false). rewrite nth_error_map, E. reflexivity.
  Qed.
  Lemma vget_lt {A} (l : list A) i x : vget l i = Ok x -> i < length l.
  Proof. unfold vget. destruct (nth_error l i) eqn:E; [|discriminate]. intros _. apply nth_error_Some. congruence. Qed.
  Lemma map_set {A B} (f : A -> B) l i x : map f (set_nth l i x) = set_nth (map f l) i (f x).
  Proof. unfold set_nth. rewrite map_app. cbn [map]. now rewrite firstn_map, skipn_map. Qed.
  Lemma vset_ok {A} (l : list A) i x r : vset l i x = Ok r -> i < length l -> r = set_nth l i x.
  Proof. intros E L. rewrite (set_ok _ _ _ L) in E. now apply Ok_inj in E. Qed.
  Lemma set_same {A} (l : list A) i x : nth_error l i = Some x -> set_nth l i x = l.
  Proof. unfold set_nth. revert i. induction l as [|y l IH]; intros [|i] E; cbn in *; try discriminate; [congruence|]. f_equal. now apply IH. Qed.
  Lemma push_op_flags st h a rg nd : map t_rg (g_ts (push_op st h a rg nd)) = map t_rg (g_ts st) ++ [rg].
  Proof. unfold push_op. destruct rg; cbn [g_ts]; rewrite map_app; reflexivity. Qed.
  Lemma push_same_flags st h a x : map t_rg (g_ts (push_same st h a x)) = map t_rg (g_ts st) ++ [t_rg x].
  Proof. unfold push_same. cbn [g_ts]. rewrite map_app. reflexivity. Qed.

  Lemma run_bw_ts st h y g st' : run_bw N st h y g = Ok st' -> g_ts st' = g_ts st /\ g_leaves st' = g_leaves st /\ g_nodes st' = g_nodes st.
  Proof. unfold run_bw. destruct (bw _ _ _ _ _ _ _ _); cbn [bind]; try discriminate. intros E. apply Ok_inj in E. now subst. Qed.

  Lemma exec_flags st fs i st' : map t_rg (g_ts st) = fs -> exec N st i = Ok st' -> map t_rg (g_ts st') = flag_step fs i.
  Proof.
    intros <- H. destruct i; cbn [exec] in H; cbn [flag_step]; cbv zeta in H |- *.
    - inv_ok H. apply Ok_inj in H. subst. cbn [g_ts]. now rewrite map_app.
    - destruct (vget (g_ts st) i) as [x| |] eqn:E; cbn [bind] in H; try discriminate. pose proof (vget_lt _ _ _ E) as L.
      assert (Q : nth_error (g_ts st) i = Some x).
      { unfold vget in E. destruct (nth_error (g_ts st) i); [|discriminate]. apply Ok_inj in E. congruence. }
      destruct (t_rg x) eqn:R, b; inv_ok H; apply Ok_inj in H; subst; cbn [g_ts];
        try (match goal with V : vset _ _ _ = Ok _ |- _ => apply vset_ok in V; [subst|auto] end; now rewrite map_set);
        rewrite set_same; try reflexivity; rewrite nth_error_map, Q; cbn; congruence.
    - inv_ok H. apply Ok_inj in H. subst. rewrite push_op_flags. now rewrite (vget_nth _ _ _ E).
    - inv_ok H. apply Ok_inj in H. subst. rewrite push_op_flags. now rewrite (vget_nth _ _ _ E), (vget_nth _ _ _ E0).
    - inv_ok H. rewrite (vget_nth _ _ _ E). destruct o; apply Ok_inj in H; subst; first [apply push_same_flags|apply push_op_flags].
    - inv_ok H. apply Ok_inj in H. subst. rewrite push_op_flags. now rewrite (vget_nth _ _ _ E), (vget_nth _ _ _ E0).
    - inv_ok H; apply Ok_inj in H; subst; rewrite push_op_flags; rewrite (vget_nth _ _ _ E), (vget_nth _ _ _ E0); congruence.
    - inv_ok H. apply Ok_inj in H. subst. rewrite push_op_flags. now rewrite (vget_nth _ _ _ E), (vget_nth _ _ _ E0).
    - inv_ok H. apply Ok_inj in H. subst. rewrite push_same_flags. now rewrite (vget_nth _ _ _ E).
    - inv_ok H; apply Ok_inj in H; subst; rewrite ?push_same_flags, ?push_op_flags; now rewrite (vget_nth _ _ _ E).
    - inv_ok H. apply Ok_inj in H. subst. rewrite push_op_flags. now rewrite (vget_nth _ _ _ E).
    - inv_ok H. apply Ok_inj in H. subst. rewrite push_op_flags. now rewrite (vget_nth _ _ _ E).
    - inv_ok H. apply Ok_inj in H. subst. rewrite push_op_flags. now rewrite (vget_nth _ _ _ E).
    - inv_ok H. apply run_bw_ts in H as (-> & _). reflexivity.
    - inv_ok H. apply run_bw_ts in H as (-> & _). reflexivity.
    - inv_ok H. destruct (t_fn a); inv_ok H; apply Ok_inj in H; subst; reflexivity.
  Qed.

  (** references to leaves *)
  Definition refs_ok (lv : list arr) (t : tensor) : Prop :=
    (t_rg t = false -> t_fn t = RNone) /\
    forall k, t_fn t = RLeaf k -> exists a, nth_error lv k = Some a /\ a_shape a = a_shape (t_arr t).
  Definition wfs st : Prop := Forall (refs_ok (g_leaves st)) (g_ts st).

  Lemma refs_more lv l t : refs_ok lv t -> refs_ok (lv ++ l) t.
  Proof.
    intros [A B]. split; [auto|]. intros k E. destruct (B k E) as (a & Q & S). exists a. split; [|auto].
    rewrite nth_error_app1; [auto|]. apply nth_error_Some. congruence.
  Qed.
  Lemma push_op_wfs st h a rg nd : wfs st -> wfs (push_op st h a rg nd).
  Proof.
    unfold wfs, push_op. destruct rg; cbn; intros H; apply Forall_app; split; auto; constructor; auto; split; cbn; auto; discriminate.
  Qed.
  Lemma push_same_wfs st h a x : wfs st -> refs_ok (g_leaves st) x -> a_shape a = a_shape (t_arr x) -> wfs (push_same st h a x).
  Proof.
    unfold wfs, push_same. cbn. intros H [A B] S. apply Forall_app. split; [auto|]. constructor; [|auto]. split; cbn.
    - intros Q. now rewrite Q.
    - intros k. destruct (t_rg x); [|discriminate]. rewrite S. apply B.
  Qed.
  Lemma vget_refs st i x : wfs st -> vget (g_ts st) i = Ok x -> refs_ok (g_leaves st) x.
  Proof.
    unfold wfs, vget. intros H E. destruct (nth_error (g_ts st) i) eqn:Q; [|discriminate]. apply Ok_inj in E. subst.
    rewrite Forall_forall in H. apply H. eapply nth_error_In; eauto.
  Qed.
  Lemma Forall_set {A} (P : A -> Prop) l i x : Forall P l -> P x -> Forall P (set_nth l i x).
  Proof.
    intros H X. unfold set_nth. rewrite Forall_forall in *. intros y I. apply in_app_or in I as [I|[->|I]]; [|auto|]; apply H.
    - rewrite <- (firstn_skipn i l). apply in_or_app. now left.
    - rewrite <- (firstn_skipn (S i) l). apply in_or_app. now right.
  Qed.
  Lemma scal_shape o (h : heap T) a c h' r : a_scal N o h a c = Ok (h', r) -> a_shape r = a_shape a.
  Proof.
    unfold a_scal, nd_scalar_op. destruct (alloc _ _). destruct (k_scalar _ _ _ _ _ _ _); cbn [bind]; try discriminate.
    intros E. apply Ok_inj in E. now inversion E.
  Qed.
  Lemma view_shape m (h : heap T) a h' r : via_array m (fun m a => Ok (nd_view m a)) h a = Ok (h', r) -> a_shape r = a_shape a.
  Proof.
    unfold via_array, nd_view. destruct m; cbn [bind].
    - intros E. apply Ok_inj in E. inversion E. reflexivity.
    - intros E. apply Ok_inj in E. inversion E. reflexivity.
    - unfold nd_clone. destruct (clone_data h a); cbn [bind]; try discriminate. destruct (from_buffer _ _ _) eqn:Q. cbn [bind]. intros E. apply Ok_inj in E. inversion E.
      unfold from_buffer in Q. destruct (alloc _ _) in Q. injection Q as _ <-. reflexivity.
  Qed.
  Lemma full_shape (h : heap T) v sh h' r : nd_full h v sh = Ok (h', r) -> a_shape r = sh.
  Proof.
    unfold nd_full. intros H. inv_ok H. unfold from_buffer in H. destruct (alloc _ _) in H. apply Ok_inj in H. now inversion H.
  Qed.
  Lemma exec_wfs st i st' : wfs st -> exec N st i = Ok st' -> wfs st'.
  Proof.
    intros W H. destruct i; cbn [exec] in H; cbv zeta in H.
    - inv_ok H. apply Ok_inj in H. subst. unfold wfs. cbn. apply Forall_app. split; [exact W|]. constructor; [|auto]. split; cbn; [auto|discriminate].
    - destruct (vget (g_ts st) i) as [x| |] eqn:E; cbn [bind] in H; try discriminate. pose proof (vget_lt _ _ _ E) as L.
      pose proof (vget_refs _ _ _ W E) as [A B].
      destruct (t_rg x) eqn:R, b; inv_ok H; apply Ok_inj in H; subst; auto;
        match goal with V : vset _ _ _ = Ok _ |- _ => apply vset_ok in V; [subst|auto] end; unfold wfs; cbn.
      + apply Forall_set; [exact W|]. split; cbn; [auto|discriminate].
      + apply Forall_set.
        * eapply Forall_impl; [|exact W]. intros t. apply refs_more.
        * split; cbn; [discriminate|]. intros k Q. injection Q as <-. eexists. rewrite nth_error_app2, Nat.sub_diag by lia.
          split; [reflexivity|]. eapply full_shape; eauto.
    - inv_ok H. apply Ok_inj in H. subst. now apply push_op_wfs.
    - inv_ok H. apply Ok_inj in H. subst. now apply push_op_wfs.
    - inv_ok H. destruct o; apply Ok_inj in H; subst; first [now apply push_op_wfs|apply push_same_wfs; eauto using vget_refs, scal_shape].
    - inv_ok H. apply Ok_inj in H. subst. now apply push_op_wfs.
    - inv_ok H; apply Ok_inj in H; subst; now apply push_op_wfs.
    - inv_ok H. apply Ok_inj in H. subst. now apply push_op_wfs.
    - inv_ok H. apply Ok_inj in H. subst. apply push_same_wfs; eauto using vget_refs, view_shape.
    - inv_ok H; apply Ok_inj in H; subst; [apply push_same_wfs; eauto using vget_refs, view_shape|now apply push_op_wfs].
    - inv_ok H. apply Ok_inj in H. subst. now apply push_op_wfs.
    - inv_ok H. apply Ok_inj in H. subst. now apply push_op_wfs.
    - inv_ok H. apply Ok_inj in H. subst. now apply push_op_wfs.
    - inv_ok H. apply run_bw_ts in H as (E1 & E2 & _). unfold wfs. now rewrite E1, E2.
    - inv_ok H. apply run_bw_ts in H as (E1' & E2' & _). unfold wfs. now rewrite E1', E2'.
    - inv_ok H. destruct (t_fn a); inv_ok H; apply Ok_inj in H; subst; auto.
  Qed.
  Lemma run_wfs p st : run N p g0 = Ok st -> wfs st.
  Proof. intros H. eapply (run_inv wfs); [exact exec_wfs| |exact H]. constructor. Qed.

  (** kinds of nodes *)
  Definition moves_axes (i : instr T) : bool := match i with ITranspose _ _ _ _ => true | _ => false end.
  Definition changes_shape (i : instr T) : bool := match i with IReshape _ _ _ | ISqueeze _ _ | IUnsqueeze _ _ _ => true | _ => false end.
  Lemma push_op_nodes (P : gnode T -> Prop) st h a rg nd : Forall P (g_nodes st) -> (rg = true -> P nd) -> Forall P (g_nodes (push_op st h a rg nd)).
  Proof. unfold push_op. destruct rg; cbn; intros; auto. apply Forall_app. auto. Qed.
  Lemma exec_kinds (sel : gnode T -> bool) st i st' :
    (sel = is_trans /\ moves_axes i = false) \/ (sel = is_resh /\ changes_shape i = false) ->
    Forall (fun nd => sel nd = false) (g_nodes st) -> exec N st i = Ok st' -> Forall (fun nd => sel nd = false) (g_nodes st').
  Proof.
    intros D W H. destruct i; cbn [exec] in H; cbv zeta in H; inv_ok H;
      try (apply Ok_inj in H; subst; try apply push_op_nodes; auto; destruct D as [[-> Q]|[-> Q]]; try discriminate Q; try (destruct o; reflexivity); reflexivity).
    - destruct o; apply Ok_inj in H; subst; try apply push_op_nodes; auto; destruct D as [[-> Q]|[-> Q]]; reflexivity.
    - apply run_bw_ts in H as (_ & _ & ->). auto.
    - apply run_bw_ts in H as (_ & _ & ->). auto.
    - destruct (t_fn a); inv_ok H; apply Ok_inj in H; subst; auto.
  Qed.
  Lemma run_kinds sel p : (sel = is_trans /\ forallb (fun i => negb (moves_axes i)) p = true) \/ (sel = is_resh /\ forallb (fun i => negb (changes_shape i)) p = true) ->
    forall st st', Forall (fun nd => sel nd = false) (g_nodes st) -> run N p st = Ok st' -> Forall (fun nd => sel nd = false) (g_nodes st').
  Proof.
    induction p as [|i p IH]; intros D st st' W E; cbn [run forallb] in *; [apply Ok_inj in E; now subst|].
    destruct (exec N st i) as [s| |] eqn:Q; cbn [bind] in E; try discriminate. rewrite !andb_true_iff, !negb_true_iff in D.
    eapply IH; [|eapply (exec_kinds sel st i s); eauto|eauto]; intuition.
  Qed.
End All.
