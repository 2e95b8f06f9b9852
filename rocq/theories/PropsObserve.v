(** PropsObserve.v: what a program can ask of a tensor (C91). *)
From Coq Require Import List Arith Lia Bool ZArith.
From Verif Require Import Base Spec Layout SpecFacts LayoutFacts Views ViewsFacts ViewsFacts2 ViewsFacts3 ViewsFacts4 Chain OpFacts Kernels Access HeapFacts KernelFacts AccessFacts ChainFacts SpecGrad Autograd GradFacts GradFacts3 GradFacts4 GradFacts5
  PropsOps PropsGrad PropsGrad2 PropsParam2 Observe.
Import ListNotations.
Open Scope res_scope.

(** ** Specification: read off the text of the program *)
(** the instructions that make a tensor; tensor number j is made by the j-th of them *)
Definition makes {T} (i : instr T) : bool :=
  match i with ISetGrad _ _ | IBackward _ | IBackwardWith _ _ | IZeroGrad _ => false | _ => true end.
Definition made_by {T} (p : list (instr T)) (j : nat) (i : instr T) : Prop := nth_error (filter makes p) j = Some i.
(** by a constructor, and not from other tensors *)
Definition constructs {T} (i : instr T) : bool := match i with INew _ _ => true | _ => false end.
Definition operands {T} (i : instr T) : list nat :=
  match i with
  | INeg i | IScal _ i _ | IView _ i | IReshape _ i _ | ISqueeze _ i | IUnsqueeze _ i _ | ITranspose _ i _ _ => [i]
  | IBin _ i j | IDot i j | IMatmul i j | IBmm i j => [i; j]
  | _ => []
  end.
(** the argument of the last call of set_requires_grad on tensor j in p, or d *)
Definition last_set {T} (p : list (instr T)) (j : nat) (d : bool) : bool :=
  fold_left (fun b i => match i with ISetGrad k c => if k =? j then c else b | _ => b end) p d.

Section Steps.
  Context {T : Type} (N : num T).
  Definition rg_at (ts : list tensor) (k : nat) : bool := match nth_error ts k with Some x => t_rg x | None => false end.

  Definition from_op (st : gstate (T := T)) (i : instr T) (t : tensor) : Prop :=
    t_rg t = existsb (rg_at (g_ts st)) (operands i) /\ (t_rg t = false -> t_fn t = RNone).

  Lemma push_op_step st h a rg nd : exists t, g_ts (push_op (T := T) st h a rg nd) = g_ts st ++ [t] /\ g_leaves (push_op st h a rg nd) = g_leaves st /\
    t_rg t = rg /\ (t_rg t = false -> t_fn t = RNone).
  Proof. unfold push_op. destruct rg; eexists; (split; [reflexivity|]); repeat split; cbn; congruence. Qed.
  Lemma push_same_step st h a x : exists t, g_ts (push_same (T := T) st h a x) = g_ts st ++ [t] /\ g_leaves (push_same st h a x) = g_leaves st /\
    t_rg t = t_rg x /\ (t_rg t = false -> t_fn t = RNone).
  Proof. unfold push_same. eexists; (split; [reflexivity|]). repeat split. cbn. now intros ->. Qed.

  Lemma vget_some {A} (l : list A) k x : vget l k = Ok x -> nth_error l k = Some x.
  Proof. unfold vget. destruct (nth_error l k); congruence. Qed.

  Lemma step_makes st i st' : makes i = true -> exec N st i = Ok st' ->
    exists t, g_ts st' = g_ts st ++ [t] /\ g_leaves st' = g_leaves st /\ from_op st i t.
  Proof.
    intros M X. unfold from_op. destruct i; try discriminate M; cbn [exec] in X; cbv zeta in X;
    repeat match type of X with
    | bind ?r _ = Ok _ => let E := fresh "E" in destruct r eqn:E; cbn [bind] in X; try discriminate X
    | (let '(_, _) := ?p in _) = Ok _ => destruct p
    | (if _ || _ then _ else _) = Ok _ => let Q := fresh "Q" in match type of X with (if ?b then _ else _) = _ => destruct b eqn:Q end; try discriminate X
    | (if ?b then _ else _) = Ok _ => destruct b; try discriminate X
    | match ?o with BAdd => _ | BSub => _ | BMul => _ | BDiv => _ end = Ok _ => destruct o
    end; apply Ok_inj in X; subst; cbn [operands existsb];
    repeat match goal with E : vget _ _ = Ok _ |- _ => apply vget_some in E end;
    unfold rg_at; repeat match goal with E : nth_error (g_ts st) _ = Some _ |- _ => rewrite E end; rewrite ?orb_false_r;
    try (match goal with Q : _ || _ = _ |- _ => rewrite Q end);
    try apply push_op_step; try apply push_same_step.
    eexists. split; [reflexivity|]. repeat split.
  Qed.
  Lemma step_keeps st i st' : makes i = false -> (forall k b, i <> ISetGrad k b) -> exec N st i = Ok st' ->
    g_ts st' = g_ts st /\ g_leaves st' = g_leaves st.
  Proof.
    intros M NS X. destruct i; try discriminate M; cbn [exec] in X; cbv zeta in X; [exfalso; eapply NS; reflexivity| | |];
    unfold run_bw in X;
    repeat match type of X with
    | bind ?r _ = Ok _ => let E := fresh "E" in destruct r eqn:E; cbn [bind] in X; try discriminate X
    | (let '(_, _) := ?p in _) = Ok _ => destruct p
    | match ?o with RNone => _ | RLeaf _ => _ | RNode _ => _ end = Ok _ => destruct o
    end; apply Ok_inj in X; subst; split; reflexivity.
  Qed.
End Steps.

Section Inv.
  Context {T : Type} (N : num T).

  Lemma vset_nth {A} (l : list A) i v l' : vset l i v = Ok l' ->
    length l' = length l /\ i < length l /\ forall j, nth_error l' j = if j =? i then Some v else nth_error l j.
  Proof.
    unfold vset. destruct (upd l i v) as [r|] eqn:E; [|discriminate]. intros H. apply Ok_inj in H. subst r. revert i l' E.
    induction l as [|x l IH]; intros i l' E; [discriminate|]. destruct i as [|i]; cbn [upd] in E.
    - injection E as <-. split; [reflexivity|]. split; [cbn; lia|]. now intros [|j].
    - destruct (upd l i v) as [r|] eqn:E'; [|discriminate]. injection E as <-. destruct (IH _ _ E') as (H1 & H2 & H3).
      split; [cbn; lia|]. split; [cbn; lia|]. intros [|j]; [reflexivity|apply H3].
  Qed.

  Definition fine (st : gstate (T := T)) (u : bool) (t : tensor) : Prop :=
    (t_rg t = false -> t_fn t = RNone) /\
    (u = true -> t_rg t = true -> exists k a, t_fn t = RLeaf k /\ nth_error (g_leaves st) k = Some a /\ a_shape a = a_shape (t_arr t)).
  Record Inv (p : list (instr T)) (s : ostate) : Prop := mkInv {
    v_user : o_user s = map constructs (filter makes p);
    v_len : length (g_ts (o_st s)) = length (filter makes p);
    v_fine : forall j t u, nth_error (g_ts (o_st s)) j = Some t -> nth_error (o_user s) j = Some u -> fine (o_st s) u t }.

  Lemma fine_more st st' u t : (exists l, g_leaves st' = g_leaves st ++ l) -> fine st u t -> fine st' u t.
  Proof.
    intros [l E] [F1 F2]. split; [exact F1|]. intros U R. destruct (F2 U R) as (k & a & H1 & H2 & H3). exists k, a. split; [auto|]. split; [|auto].
    rewrite E. rewrite nth_error_app1; [auto|]. apply nth_error_Some. congruence.
  Qed.
  Lemma flag_makes us (i : instr T) : flag_user us i = us ++ map constructs (filter makes [i]).
  Proof. destruct i; cbn; rewrite ?app_nil_r; reflexivity. Qed.

  Lemma set_grad_step st k b st' : exec N st (ISetGrad k b) = Ok st' -> exists x x', nth_error (g_ts st) k = Some x /\
    t_arr x' = t_arr x /\ t_rg x' = b /\ length (g_ts st') = length (g_ts st) /\
    (forall j, nth_error (g_ts st') j = if j =? k then Some x' else nth_error (g_ts st) j) /\
    (exists l, g_leaves st' = g_leaves st ++ l) /\
    (x' = x \/ (b = false /\ t_fn x' = RNone) \/
     (b = true /\ exists a, t_fn x' = RLeaf (length (g_leaves st)) /\ nth_error (g_leaves st') (length (g_leaves st)) = Some a /\ a_shape a = a_shape (t_arr x))).
  Proof.
    cbn [exec]. intros X. destruct (vget (g_ts st) k) as [x| |] eqn:G; cbn [bind] in X; try discriminate X. apply vget_some in G. exists x.
    assert (SAME : b = t_rg x -> Ok st = Ok st' -> exists x', Some x = Some x /\
      t_arr x' = t_arr x /\ t_rg x' = b /\ length (g_ts st') = length (g_ts st) /\
      (forall j, nth_error (g_ts st') j = if j =? k then Some x' else nth_error (g_ts st) j) /\
      (exists l, g_leaves st' = g_leaves st ++ l) /\ (x' = x \/ (b = false /\ t_fn x' = RNone) \/
     (b = true /\ exists a, t_fn x' = RLeaf (length (g_leaves st)) /\ nth_error (g_leaves st') (length (g_leaves st)) = Some a /\ a_shape a = a_shape (t_arr x)))).
    { intros -> E. apply Ok_inj in E. subst st'. exists x. split; [reflexivity|]. split; [reflexivity|]. split; [reflexivity|]. split; [reflexivity|]. split.
      - intros j. destruct (j =? k) eqn:Q; [apply Nat.eqb_eq in Q; subst j; exact G|reflexivity].
      - split; [exists []; now rewrite app_nil_r|]. now left. }
    rewrite G. destruct (t_rg x) eqn:R, b; try (now apply SAME); clear SAME.
    - destruct (vset (g_ts st) k _) as [ts| |] eqn:V; cbn [bind] in X; try discriminate X. apply Ok_inj in X. subst st'. apply vset_nth in V. destruct V as (V1 & V2 & V3).
      eexists. split; [reflexivity|]. split; [|split; [|split; [exact V1|split; [exact V3|]]]]; [reflexivity|reflexivity|].
      cbn. split; [exists []; now rewrite app_nil_r|]. right. left. auto.
    - destruct (nd_full (g_heap st) (n0 N) (a_shape (t_arr x))) as [[h g]| |] eqn:F; cbn [bind] in X; try discriminate X.
      destruct (vset (g_ts st) k _) as [ts| |] eqn:V; cbn [bind] in X; try discriminate X. apply Ok_inj in X. subst st'. apply vset_nth in V. destruct V as (V1 & V2 & V3).
      eexists. split; [reflexivity|]. split; [|split; [|split; [exact V1|split; [exact V3|]]]]; [reflexivity|reflexivity|].
      cbn [g_leaves t_fn]. split; [eauto|]. right. right. split; [reflexivity|]. exists g. split; [reflexivity|]. split; [rewrite nth_error_app2, Nat.sub_diag by lia; reflexivity|].
      now apply full_shape in F.
  Qed.

  Lemma inv_step p s i s' : Inv p s -> oexec N s i = Ok s' -> Inv (p ++ [i]) s'.
  Proof.
    intros I X. unfold oexec in X. destruct (exec N (o_st s) i) as [st| |] eqn:E; cbn [bind] in X; try discriminate X. apply Ok_inj in X. subst s'.
    assert (U : flag_user (o_user s) i = map constructs (filter makes (p ++ [i]))) by now rewrite flag_makes, (v_user _ _ I), <- map_app, <- filter_app.
    assert (LU : length (o_user s) = length (g_ts (o_st s))) by now rewrite (v_user _ _ I), map_length, (v_len _ _ I).
    destruct (makes i) eqn:M.
    - destruct (step_makes N _ _ _ M E) as (t & TS & LV & RG & FN). split; cbn [o_st o_user]; [exact U| |].
      + rewrite TS, app_length, (v_len _ _ I), filter_app, app_length. cbn [filter]. rewrite M. reflexivity.
      + intros j t' u. rewrite TS, flag_makes. cbn [filter]. rewrite M. cbn [map]. destruct (Nat.lt_ge_cases j (length (g_ts (o_st s)))) as [L|L].
        * rewrite !nth_error_app1 by lia. intros Et Eu. eapply fine_more; [|eapply (v_fine _ _ I); eauto]. exists []. now rewrite app_nil_r.
        * rewrite !nth_error_app2 by lia. rewrite LU. destruct (j - length (g_ts (o_st s))) as [|[|]]; try discriminate. cbn [nth_error]. intros [= <-] [= <-].
          split; [exact FN|]. intros C R. destruct i; try discriminate C. cbn in RG. congruence.
    - assert (FU : flag_user (o_user s) i = o_user s) by (destruct i; try discriminate M; reflexivity).
      destruct (match i with ISetGrad _ _ => true | _ => false end) eqn:SG.
      + destruct i; try discriminate SG. destruct (set_grad_step _ _ _ _ E) as (x & x' & Ex & A' & R' & L' & NT & LV & ALT). split; cbn [o_st o_user]; [exact U| |].
        * now rewrite L', (v_len _ _ I), filter_app, app_nil_r.
        * intros j t u. rewrite NT, FU. destruct (j =? i) eqn:Q; [|intros Et Eu; eapply fine_more; [exact LV|eapply (v_fine _ _ I); eauto]].
          apply Nat.eqb_eq in Q. subst j. intros [= <-] Eu. destruct ALT as [->|[[-> F]|(-> & a & F & Ea & Sa)]].
          -- eapply fine_more; [exact LV|eapply (v_fine _ _ I); eauto].
          -- split; [auto|]. intros _ H. congruence.
          -- split; [congruence|]. intros _ _. exists (length (g_leaves (o_st s))), a. rewrite A'. auto.
      + assert (NS : forall k b, i <> ISetGrad k b) by (intros k b ->; discriminate SG). destruct (step_keeps N _ _ _ M NS E) as [TS LV].
        split; cbn [o_st o_user]; [exact U| |].
        * rewrite TS, (v_len _ _ I), filter_app. cbn [filter]. now rewrite M, app_nil_r.
        * intros j t u. rewrite TS, FU. intros Et Eu. eapply fine_more; [|eapply (v_fine _ _ I); eauto]. exists []. now rewrite app_nil_r.
  Qed.
  Lemma inv_run q : forall p s s', Inv p s -> orun N q s = Ok s' -> Inv (p ++ q) s'.
  Proof.
    induction q as [|i q IH]; intros p s s' I X; cbn [orun] in X.
    - apply Ok_inj in X. subst. now rewrite app_nil_r.
    - destruct (oexec N s i) as [s1| |] eqn:E; cbn [bind] in X; try discriminate X. replace (p ++ i :: q) with ((p ++ [i]) ++ q) by now rewrite <- app_assoc. eapply IH; [|exact X]. eapply inv_step; eauto.
  Qed.
  Lemma inv0 : Inv [] o0.
  Proof. split; [reflexivity|reflexivity|]. intros [|j] t u H; discriminate H. Qed.
  Lemma orun_run q : forall s s', orun N q s = Ok s' -> run N q (o_st s) = Ok (o_st s').
  Proof.
    induction q as [|i q IH]; intros s s' X; cbn [orun run] in *; [apply Ok_inj in X; now subst|].
    unfold oexec in X. destruct (exec N (o_st s) i) as [st| |] eqn:E; cbn [bind] in *; try discriminate X. now apply IH in X.
  Qed.
  Lemma run_orun q : forall s st', run N q (o_st s) = Ok st' -> exists us, orun N q s = Ok (mkO st' us).
  Proof.
    induction q as [|i q IH]; intros s st' X; cbn [orun run] in *; [apply Ok_inj in X; subst; destruct s; eexists; reflexivity|].
    unfold oexec. destruct (exec N (o_st s) i) as [st| |] eqn:E; cbn [bind] in *; try discriminate X. now apply IH.
  Qed.
End Inv.

(** ** C91 *)
(** requires_grad: what the operands said when the tensor was made, unless set since *)
Section Requires.
  Context {T : Type} (N : num T).
  Lemma keep_rg i s s' j : oexec N s i = Ok s' -> j < length (g_ts (o_st s)) ->
    j < length (g_ts (o_st s')) /\
    rg_at (g_ts (o_st s')) j = match i with ISetGrad k c => if k =? j then c else rg_at (g_ts (o_st s)) j | _ => rg_at (g_ts (o_st s)) j end.
  Proof.
    intros X L. unfold oexec in X. destruct (exec N (o_st s) i) as [st| |] eqn:E; cbn [bind] in X; try discriminate X. apply Ok_inj in X. subst s'. cbn [o_st].
    destruct (makes i) eqn:M.
    - destruct (step_makes N _ _ _ M E) as (t & TS & _). rewrite TS. unfold rg_at. rewrite app_length, nth_error_app1 by lia. split; [lia|]. destruct i; try discriminate M; reflexivity.
    - destruct (match i with ISetGrad _ _ => true | _ => false end) eqn:SG.
      + destruct i; try discriminate SG. destruct (set_grad_step N _ _ _ _ E) as (x & x' & Ex & A' & R' & L' & NT & _). split; [lia|].
        unfold rg_at. rewrite NT, Nat.eqb_sym. destruct (i =? j); [now rewrite R'|reflexivity].
      + assert (NS : forall k b, i <> ISetGrad k b) by (intros k b ->; discriminate SG). destruct (step_keeps N _ _ _ M NS E) as [TS _]. rewrite TS. split; [auto|].
        destruct i; try discriminate SG; reflexivity.
  Qed.
  Lemma run_rg q : forall s s' j, orun N q s = Ok s' -> j < length (g_ts (o_st s)) ->
    j < length (g_ts (o_st s')) /\ rg_at (g_ts (o_st s')) j = last_set q j (rg_at (g_ts (o_st s)) j).
  Proof.
    induction q as [|i q IH]; intros s s' j X L; cbn [orun] in X.
    - apply Ok_inj in X. subst. auto.
    - destruct (oexec N s i) as [s1| |] eqn:E; cbn [bind] in X; try discriminate X. destruct (keep_rg _ _ _ _ E L) as [L1 R1].
      destruct (IH _ _ _ X L1) as [L2 R2]. split; [auto|]. rewrite R2, R1. reflexivity.
  Qed.
  Lemma requires_at s j : j < length (g_ts (o_st (T := T) s)) -> t_requires_grad s j = Ok (rg_at (g_ts (o_st s)) j).
  Proof. intros L. unfold t_requires_grad, rg_at, vget. destruct (nth_error (g_ts (o_st s)) j) eqn:E; [reflexivity|]. apply nth_error_None in E. lia. Qed.
End Requires.

(** [i], run after [p], makes tensor number [j]; [q] follows *)
Theorem C91_requires_grad : forall (T : Type) (N : num T) p i q s s', orun N p o0 = Ok s -> makes i = true -> orun N (i :: q) s = Ok s' ->
  let j := length (filter makes p) in
  t_requires_grad s' j = Ok (last_set q j (existsb (fun k => match t_requires_grad s k with Ok b => b | _ => false end) (operands i))).
Proof.
  intros T N p i q s s' P M X j. pose proof (v_len _ _ (inv_run N p [] o0 s inv0 P)) as L. cbn [app] in L. fold j in L.
  cbn [orun] in X. destruct (oexec N s i) as [s1| |] eqn:E; cbn [bind] in X; try discriminate X.
  assert (E' := E). unfold oexec in E'. destruct (exec N (o_st s) i) as [st| |] eqn:E0; cbn [bind] in E'; try discriminate E'. apply Ok_inj in E'. subst s1.
  destruct (step_makes N _ _ _ M E0) as (t & TS & _ & RG & _).
  destruct (run_rg N q _ s' j X) as [L' R']; [cbn [o_st]; rewrite TS, app_length; cbn; lia|]. rewrite requires_at by exact L'. f_equal. rewrite R'. f_equal.
  cbn [o_st]. unfold rg_at at 1. rewrite TS, <- L, nth_error_app2, Nat.sub_diag by lia. cbn [nth_error]. rewrite RG.
  clear. induction (operands i) as [|k l IH]; [reflexivity|]. cbn [existsb]. rewrite IH. f_equal. unfold rg_at, t_requires_grad, vget. now destruct (nth_error (g_ts (o_st s)) k).
Qed.
Print Assumptions C91_requires_grad.

(** is_leaf: exactly the tensors that require no gradient or were made by a constructor *)
Theorem C91_is_leaf : forall (T : Type) (N : num T) p s, orun N p o0 = Ok s ->
  (forall j i, made_by p j i -> exists r, t_requires_grad s j = Ok r /\ t_is_leaf s j = Ok (negb r || constructs i)) /\
  (forall j, length (filter makes p) <= j -> t_is_leaf s j = Panic).
Proof.
  intros T N p s P. pose proof (inv_run N p [] o0 s inv0 P) as I. cbn [app] in I. split.
  - intros j i MB. assert (L : j < length (g_ts (o_st s))) by (rewrite (v_len _ _ I); apply nth_error_Some; unfold made_by in MB; congruence).
    exists (rg_at (g_ts (o_st s)) j). rewrite requires_at by exact L. split; [reflexivity|]. unfold t_is_leaf, rg_at, vget.
    destruct (nth_error (g_ts (o_st s)) j) as [t|] eqn:E; [|apply nth_error_None in E; lia]. cbn [bind]. rewrite (v_user _ _ I), nth_error_map, MB. cbn [option_map bind].
    now destruct (t_rg t), (constructs i).
  - intros j L. unfold t_is_leaf, vget. rewrite <- (v_len _ _ I) in L. apply nth_error_None in L. now rewrite L.
Qed.
Print Assumptions C91_is_leaf.

(** gradient: no tensor that requires none shows one; a leaf that requires one shows one, of its
    own shape (the comment at src/tensor/autograd.rs 76-79) *)
Theorem C91_gradient : forall (T : Type) (N : num T) p s j i, orun N p o0 = Ok s -> made_by p j i ->
  exists g, t_grad s j = Ok g /\
    (t_requires_grad s j = Ok false -> g = None) /\
    (t_requires_grad s j = Ok true -> t_is_leaf s j = Ok true ->
       exists a t, g = Some a /\ nth_error (g_ts (o_st s)) j = Some t /\ a_shape a = a_shape (t_arr t)).
Proof.
  intros T N p s j i P MB. pose proof (inv_run N p [] o0 s inv0 P) as I. cbn [app] in I.
  assert (L : j < length (g_ts (o_st s))) by (rewrite (v_len _ _ I); apply nth_error_Some; unfold made_by in MB; congruence).
  destruct (nth_error (g_ts (o_st s)) j) as [t|] eqn:E; [|apply nth_error_None in E; lia].
  assert (EU : nth_error (o_user s) j = Some (constructs i)) by now rewrite (v_user _ _ I), nth_error_map, MB.
  destruct (v_fine _ _ I _ _ _ E EU) as [F1 F2].
  unfold t_grad, t_requires_grad, t_is_leaf, vget. rewrite E, EU. cbn [bind]. eexists. split; [reflexivity|]. split; intros R; apply Ok_inj in R; rewrite ?R.
  - unfold t_gradient. now rewrite (F1 R).
  - intros LF. apply Ok_inj in LF. destruct (F2 LF R) as (k & a & FN & EA & SA). exists (nd_view ByRef a), t. unfold t_gradient. rewrite FN, EA. split; [reflexivity|]. split; [reflexivity|]. exact SA.
Qed.
Print Assumptions C91_gradient.

(** *** detach, value and ==, for any numbers *)
Section Sound.
  Context {T : Type} (N : num T).
  (** an array of a program: readable, and laid out so that it can be copied *)
  Definition sound (h : heap T) (a : arr) : Prop :=
    valid h a /\ flags_ok a /\ tight a /\ no_bcast (a_shape a) (a_stride a) /\ length (a_shape a) <= MAX_DIMS /\ 0 < prod (a_shape a) /\ a_blk a < length h.

  Lemma load_blank {U} (h : heap T) (h' : heap U) b o v : map (option_map (map (fun _ => tt))) h = map (option_map (map (fun _ => tt))) h' ->
    load h' b o = Ok v -> exists w, load h b o = Ok w.
  Proof.
    intros E H. unfold load in *. assert (E1 := f_equal (fun l => nth_error l b) E). cbn beta in E1. rewrite !nth_error_map in E1.
    destruct (nth_error h' b) as [[l'|]|]; try discriminate H. destruct (nth_error h b) as [[l|]|]; try discriminate E1. cbn [option_map] in E1. injection E1 as E1.
    assert (E2 := f_equal (fun l => nth_error l o) E1). cbn beta in E2. rewrite !nth_error_map in E2.
    destruct (nth_error l' o); [|discriminate H]. destruct (nth_error l o); [eauto|discriminate E2].
  Qed.
  Lemma get_blank {U} (h : heap T) (h' : heap U) a idx v : map (option_map (map (fun _ => tt))) h = map (option_map (map (fun _ => tt))) h' ->
    get h' a idx = Ok v -> exists w, get h a idx = Ok w.
  Proof. intros E. unfold get. intros H. eapply load_blank; eauto. Qed.

  Lemma run_sound p st j t : admissible N p (s0 N) -> run N p g0 = Ok st -> nth_error (g_ts st) j = Some t -> sound (g_heap st) (t_arr t).
  Proof.
    intros A E Et. pose proof (C80_shapes_decide T N p) as H. pose proof (C80_shapes_decide Z ZN (blank p)) as H'. rewrite blank_unit, H, E in H'. clear H.
    destruct (run_ok ZN _ ZN_field (blank p) g0 (s0 ZN) [] (sim0 ZN) (blank_admissible T N p A)) as [E'|(sz & Gh & E' & SM)]; rewrite E' in H'; [discriminate|].
    apply Ok_inj in H'. unfold map_gstate in H'. injection H' as HH HL _ HT. rewrite HT in Et.
    assert (K : exists s, tensor_ok ZN (g_leaves sz) (s_leaves (srun ZN (blank p) (s0 ZN))) Gh (g_heap sz) t s).
    { pose proof (m_ts _ _ _ _ SM) as F. clear - F Et. revert j Et. induction F as [|x y l l' Hxy _ IH]; intros [|j] Et; try discriminate Et; cbn [nth_error] in Et; [injection Et as <-; eauto|eauto]. }
    destruct K as [s K]. destruct (k_good _ _ _ _ _ _ _ K) as [G _]. pose proof (good_shape _ _ _ _ G) as SH.
    assert (V : valid (g_heap st) (t_arr t)).
    { split; [apply (good_valid _ _ _ _ G)|]. intros idx R. rewrite SH in R. eapply get_blank; [exact HH|]. now apply (good_get _ _ _ _ _ G). }
    assert (P : 0 < prod (a_shape (t_arr t))) by (rewrite SH; apply (good_prod _ _ _ _ G)).
    split; [exact V|]. split; [apply (good_flags _ _ _ _ G)|]. split; [apply (good_tight _ _ _ _ G)|]. split; [apply (good_nb _ _ _ _ G)|].
    split; [rewrite SH; apply (k_md _ _ _ _ _ _ _ K)|]. split; [exact P|].
    destruct (proj2 V (repeat 0 (length (a_shape (t_arr t))))) as [v HV]; [apply in_zero; rewrite SH; apply (good_pos _ _ _ _ G)|].
    unfold get, load in HV. apply nth_error_Some. destruct (nth_error (g_heap st) (a_blk (t_arr t))); [discriminate|discriminate HV].
  Qed.
  Lemma run_leaf p st a : admissible N p (s0 N) -> run N p g0 = Ok st -> In a (g_leaves st) -> a_blk a < length (g_heap st).
  Proof.
    intros A E Ia. pose proof (C80_shapes_decide T N p) as H. pose proof (C80_shapes_decide Z ZN (blank p)) as H'. rewrite blank_unit, H, E in H'. clear H.
    destruct (run_ok ZN _ ZN_field (blank p) g0 (s0 ZN) [] (sim0 ZN) (blank_admissible T N p A)) as [E'|(sz & Gh & E' & SM)]; rewrite E' in H'; [discriminate|].
    apply Ok_inj in H'. unfold map_gstate in H'. injection H' as HH HL _ HT. rewrite HL in Ia. destruct (In_nth_error _ _ Ia) as [k Ek].
    destruct (m_lives _ _ _ _ SM) as (_ & _ & LV). destruct (LV k a Ek) as (sh & _ & _ & _ & G).
    assert (Q := good_get _ _ _ _ (repeat 0 (length sh)) G (in_zero _ (good_pos _ _ _ _ G))).
    destruct (get_blank _ _ _ _ _ HH Q) as [w W]. unfold get, load in W. apply nth_error_Some. destruct (nth_error (g_heap st) (a_blk a)); [discriminate|discriminate W].
  Qed.
End Sound.

(** detach: a new array, in a block of its own, with the tensor's shape and elements; the old
    memory is not changed, and the copy compares equal unless an element differs from itself *)
Theorem C91_detach : forall (T : Type) (N : num T) p s j t, admissible N p (s0 N) -> orun N p o0 = Ok s -> nth_error (g_ts (o_st s)) j = Some t ->
  let h := g_heap (o_st s) in
  exists h' c, t_detach s j = Ok (h', c) /\ fresh_result h h' c (a_shape (t_arr t)) (get h (t_arr t)) /\
    (forall k t', nth_error (g_ts (o_st s)) k = Some t' -> a_blk (t_arr t') <> a_blk c /\ forall g, t_gradient (o_st s) t' = Some g -> a_blk g <> a_blk c) /\
    (forall eqb, (forall x, eqb x x = true) -> nd_eq eqb h' (t_arr t) c = Ok true).
Proof.
  intros T N p s j t A X Et h. apply orun_run in X. cbn [o_st o0] in X. destruct (run_sound N p _ _ _ A X Et) as (V & FL & TI & NB & MD & P & B).
  destruct (nd_clone_ok (g_heap (o_st s)) (t_arr t) V FL TI (fun _ => NB) MD) as (vs & EL & L & C & _).
  pose proof (fresh_result_of (g_heap (o_st s)) _ _ vs P EL) as FR.
  exists (h ++ [Some vs]), (fresh_arr (length h) (prod (a_shape (t_arr t))) (a_shape (t_arr t))).
  split; [unfold t_detach, vget; rewrite Et; exact C|]. split; [exact FR|]. split.
  - intros k t' Ek. destruct (run_sound N p _ _ _ A X Ek) as (_ & _ & _ & _ & _ & _ & B'). split; [cbn; unfold h; lia|].
    unfold t_gradient. intros g Eg. destruct (t_fn t') as [|m|]; try discriminate Eg. destruct (nth_error (g_leaves (o_st s)) m) as [a|] eqn:Em; [|discriminate Eg].
    injection Eg as <-. apply nth_error_In in Em. apply (run_leaf N p _ _ A X) in Em. cbn. unfold h. lia.
  - intros eqb RF. assert (OLD : forall idx, in_range idx (a_shape (t_arr t)) -> exists v, get h (t_arr t) idx = Ok v /\ get (h ++ [Some vs]) (t_arr t) idx = Ok v).
    { intros idx R. destruct (proj2 V idx R) as [v Hv]. exists v. split; [exact Hv|]. unfold get in *. rewrite load_app_old; auto. }
    destruct FR as (_ & _ & _ & VC & _ & _ & GC).
    destruct (nd_eq_ok eqb (h ++ [Some vs]) (t_arr t) (fresh_arr (length h) (prod (a_shape (t_arr t))) (a_shape (t_arr t)))) as (r & -> & IFF); [|exact VC|exact MD|].
    + split; [apply V|]. intros idx R. destruct (OLD idx R) as (v & _ & H). eauto.
    + f_equal. apply IFF. split; [reflexivity|]. intros idx R. destruct (OLD idx R) as (v & H1 & H2). exists v, v. split; [exact H2|]. split; [|apply RF]. fold h in GC. now rewrite GC.
Qed.
Print Assumptions C91_detach.

(** value: the only element; a panic if there are several *)
Theorem C91_value : forall (T : Type) (N : num T) p s j t, admissible N p (s0 N) -> orun N p o0 = Ok s -> nth_error (g_ts (o_st s)) j = Some t ->
  (prod (a_shape (t_arr t)) = 1 -> exists v, t_value s j = Ok v /\ forall idx, in_range idx (a_shape (t_arr t)) -> get (g_heap (o_st s)) (t_arr t) idx = Ok v) /\
  (prod (a_shape (t_arr t)) <> 1 -> t_value s j = Panic).
Proof.
  intros T N p s j t A X Et. apply orun_run in X. cbn [o_st o0] in X. destruct (run_sound N p _ _ _ A X Et) as (V & _).
  unfold t_value, vget. rewrite Et. cbn [bind]. split; [|apply nd_value_panic]. intros P1. rewrite nd_value_eq by exact P1.
  assert (Z : forall sh idx, prod sh = 1 -> in_range idx sh -> idx = repeat 0 (length sh)).
  { clear. induction sh as [|n sh IH]; intros idx P R; inversion R; subst; [reflexivity|]. cbn [prod fold_right] in P. cbn [length repeat].
    change (n * prod sh = 1) in P. apply Nat.eq_mul_1 in P. destruct P as [-> P]. f_equal; [lia|]. now apply IH. }
  destruct (proj2 V (repeat 0 (length (a_shape (t_arr t))))) as [v Hv].
  { clear - P1. revert P1. generalize (a_shape (t_arr t)). induction l as [|n l IH]; intros P; [constructor|]. change (n * prod l = 1) in P. apply Nat.eq_mul_1 in P. destruct P as [-> P]. constructor; [lia|now apply IH]. }
  exists v. split; [exact Hv|]. intros idx R. now rewrite (Z _ _ P1 R).
Qed.
Print Assumptions C91_value.

(** ==: same shape and equal elements; gradients and flags are not compared *)
Theorem C91_equality : forall (T : Type) (N : num T) p s i j x y (eqb : T -> T -> bool), admissible N p (s0 N) -> orun N p o0 = Ok s ->
  nth_error (g_ts (o_st s)) i = Some x -> nth_error (g_ts (o_st s)) j = Some y ->
  exists r, t_eq eqb s i j = Ok r /\
    (r = true <-> a_shape (t_arr x) = a_shape (t_arr y) /\ forall idx, in_range idx (a_shape (t_arr x)) ->
       exists v w, get (g_heap (o_st s)) (t_arr x) idx = Ok v /\ get (g_heap (o_st s)) (t_arr y) idx = Ok w /\ eqb v w = true).
Proof.
  intros T N p s i j x y eqb A X Ex Ey. apply orun_run in X. cbn [o_st o0] in X.
  destruct (run_sound N p _ _ _ A X Ex) as (Vx & _ & _ & _ & MD & _). destruct (run_sound N p _ _ _ A X Ey) as (Vy & _).
  unfold t_eq, vget. rewrite Ex, Ey. cbn [bind]. now apply nd_eq_ok.
Qed.
Print Assumptions C91_equality.

(** one program: x is a leaf; -x is not, and shows no gradient; z = c + c is a leaf until it is
    told to require a gradient, and then shows one though it is not a leaf, as x + 5 does *)
Definition p91 : list (instr Z) :=
  [INew [2] [3; 4]%Z; ISetGrad 0 true; INeg 0; INew [2] [1; 1]%Z; IBin BAdd 2 2; ISetGrad 3 true; IScal BAdd 0 5%Z; IBin BMul 3 4; IBackward 5; INew [1; 1] [9]%Z].
Definition seen (p : list (instr Z)) (j : nat) : res (bool * bool * option (list Z)) :=
  s <- orun ZN p o0 ;; r <- t_requires_grad s j ;; l <- t_is_leaf s j ;; g <- t_grad s j ;;
  match g with None => Ok (r, l, None) | Some a => e <- elems (g_heap (o_st s)) a ;; Ok (r, l, Some e) end.
Example C91_example :
  seen p91 0 = Ok (true, true, Some [2; 2]%Z) /\ seen p91 1 = Ok (true, false, None) /\ seen p91 2 = Ok (false, true, None) /\
  seen (firstn 5 p91) 3 = Ok (false, true, None) /\ seen p91 3 = Ok (true, false, Some [8; 9]%Z) /\ seen p91 4 = Ok (true, false, Some [2; 2]%Z) /\
  seen (p91 ++ [ISetGrad 1 false]) 1 = Ok (false, true, None) /\ made_by p91 3 (IBin BAdd 2 2) /\ last_set (skipn 5 p91) 3 false = true.
Proof. repeat split; vm_compute; reflexivity. Qed.
Example C91_reads : admissible ZN p91 (s0 ZN) /\ exists s, orun ZN p91 o0 = Ok s /\
  (d <- t_detach s 5 ;; elems (fst d) (snd d)) = Ok [16; 18]%Z /\ t_value s 6 = Ok 9%Z /\ t_value s 5 = Panic /\ t_eq Z.eqb s 2 2 = Ok true /\ t_eq Z.eqb s 0 2 = Ok false.
Proof.
  split; [cbn; repeat split; repeat constructor|]. destruct (orun ZN p91 o0) as [s| |] eqn:E; vm_compute in E; try discriminate E.
  apply Ok_inj in E. subst s. eexists. split; [reflexivity|]. repeat split; vm_compute; reflexivity.
Qed.
