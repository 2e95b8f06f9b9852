(** PropsGrad2.v: properties of whole programs of tensor operations (C33-C37, C47). *)
From Coq Require Import List Arith Lia Bool ZArith Permutation QArith Qcanon.
From Verif Require Import Base Spec Layout SpecFacts LayoutFacts Views ViewsFacts ViewsFacts2 ViewsFacts3 ViewsFacts4
  Kernels Access HeapFacts KernelFacts OpFacts AccessFacts Chain ChainFacts Reduce ReduceFacts Einsum EinsumFacts2
  PropsViews PropsOps PropsReduce PropsEinsum SpecGrad Autograd GradMath GradFacts GradFacts2 GradFacts3 GradFacts4 GradFacts5
  PropsGrad.
Import ListNotations.
Open Scope res_scope.
Close Scope Qc_scope. Close Scope Q_scope. Open Scope nat_scope.

(** ** agreement of a state with the reference machine of SpecGrad.v *)
(** array [a] has shape [sh] and elements [v] *)
Definition shows {T} (h : heap T) (a : arr) (sh : list nat) (v : list nat -> T) : Prop :=
  a_shape a = sh /\ forall idx, in_range idx sh -> get h a idx = Ok (v idx).
Definition value {T} (N : num T) (s : stensor) : list nat -> T := fun idx => fst (s_val s (fun _ _ => n0 N) idx).
Definition agrees1 {T} (N : num T) (st : gstate) (ss : sstate) (t : tensor) (s : stensor (T := T)) : Prop :=
  t_rg t = s_rg s /\ shows (g_heap st) (t_arr t) (s_shape s) (value N s) /\
  match s_leaf s with
  | Some k => exists a, t_gradient st t = Some a /\ shows (g_heap st) a (s_shape s) (s_G ss k)
  | None => t_gradient st t = None
  end.
Definition agrees {T} (N : num T) (st : gstate) (ss : sstate (T := T)) : Prop := Forall2 (agrees1 N st ss) (g_ts st) (s_ts ss).

Section Agree.
  Context {T : Type} (N : num T) (inv0 : T -> T).
  Hypothesis F : is_field N inv0.

  Lemma sim_agrees st ss Gh : Sim N st ss Gh -> agrees N st ss.
  Proof.
    intros SM. unfold agrees. pose proof (m_ts _ _ _ _ SM) as H. destruct (m_lives _ _ _ _ SM) as (LL & _ & LV).
    assert (X : forall t s, tensor_ok N (g_leaves st) (s_leaves ss) Gh (g_heap st) t s -> agrees1 N st ss t s).
    { intros t s K. split; [apply K|]. destruct (k_good _ _ _ _ _ _ _ K) as [G _]. split; [split; [apply (good_shape _ _ _ _ G)|]; intros; now apply (good_get _ _ _ _ _ G)|].
      destruct (s_leaf s) as [k|] eqn:Q.
      - apply (k_leaf _ _ _ _ _ _ _ K) in Q. unfold t_gradient. rewrite Q. pose proof (k_fn _ _ _ _ _ _ _ K) as RS. rewrite Q in RS. destruct RS as [ES _].
        destruct (nth_error (g_leaves st) k) as [a|] eqn:Ea; [|apply nth_error_None in Ea; assert (k < length (s_leaves ss)) by (apply nth_error_Some; congruence); lia].
        destruct (LV k a Ea) as (sh & E' & _ & _ & Ga). rewrite ES in E'. injection E' as <-. eexists. split; [reflexivity|].
        pose proof (view_good _ _ _ _ ByRef Ga) as Gv. split; [apply (good_shape _ _ _ _ Gv)|]. intros idx R. now apply (good_get _ _ _ _ _ Gv).
      - unfold t_gradient. destruct (t_fn t) as [|k|m] eqn:Q'; auto. apply (k_leaf _ _ _ _ _ _ _ K) in Q'. congruence. }
    clear -H X. induction H; constructor; auto.
  Qed.

  Lemma run_app p q st : run N (p ++ q) st = bind (run N p st) (run N q).
  Proof. revert st. induction p as [|i p IH]; intros st; cbn [app run]; [reflexivity|]. destruct (exec N st i); cbn [bind]; auto. Qed.
  Lemma srun_app p q ss : srun N (p ++ q) ss = srun N q (srun N p ss).
  Proof. unfold srun. apply fold_left_app. Qed.
  Lemma admissible_app p q ss : admissible N (p ++ q) ss <-> admissible N p ss /\ admissible N q (srun N p ss).
  Proof.
    revert ss. induction p as [|i p IH]; intros ss; cbn [app admissible srun fold_left]; [tauto|]. rewrite IH. unfold srun. tauto.
  Qed.
  Lemma run_sim p st : admissible N p (s0 N) -> run N p g0 = Ok st -> exists Gh, Sim N st (srun N p (s0 N)) Gh.
  Proof.
    intros A E. destruct (run_ok N inv0 F p g0 (s0 N) [] (sim0 N) A) as [E'|(st' & Gh & E' & SM)]; rewrite E in E'; [discriminate|].
    apply Ok_inj in E'. subst. eauto.
  Qed.
  Lemma sim_small st ss Gh : Sim N st ss Gh -> small ss.
  Proof. intros SM. unfold small. pose proof (m_ts _ _ _ _ SM) as H. induction H; constructor; auto. apply H. Qed.
  Lemma agrees_nth st ss i t : agrees N st ss -> nth_error (g_ts st) i = Some t -> exists s, nth_error (s_ts ss) i = Some s /\ agrees1 N st ss t s.
  Proof.
    unfold agrees. generalize (g_ts st) (s_ts ss). intros l m H. revert i. induction H as [|x y l m XY H IH]; intros [|i] E; cbn in *; try discriminate; [|auto].
    injection E as <-. eauto.
  Qed.
End Agree.

(** ** C33 backward computes the full gradient of any expression graph *)
(** Every admissible program either panics or ends in a state in which every tensor has the
    value, and every gradient is the sum of vector-Jacobian products, of the reference machine.
    It never reads or writes out of bounds. *)
Theorem C33_programs_partial : forall T (N : num T) inv, is_field N inv -> forall p, admissible N p (s0 N) ->
  run N p g0 = Panic \/ exists st, run N p g0 = Ok st /\ agrees N st (srun N p (s0 N)).
Proof.
  intros T N inv F p A. destruct (run_ok N inv F p g0 (s0 N) [] (sim0 N) A) as [E|(st & Gh & E & SM)]; [now left|]. right. exists st. split; [auto|].
  eapply sim_agrees; eauto.
Qed.
Print Assumptions C33_programs_partial.

(** one call of backward_with: the gradient of every leaf x has grown by the sum over the
    entries o of y of g(o) * dy(o)/dx(idx).  Missing: seeds that alias a gradient or are
    broadcast (refuted below). *)
Theorem C33_backward_with_partial : forall T (N : num T) inv, is_field N inv -> forall p st i sd st' y j x k,
  admissible N p (s0 N) -> run N p g0 = Ok st -> let ss := srun N p (s0 N) in
  match sd with SNew _ _ | SVal _ => True | _ => False end ->
  exec N st (IBackwardWith i sd) = Ok st' -> nth_error (s_ts ss) i = Some y -> nth_error (s_ts ss) j = Some x -> s_leaf x = Some k ->
  exists t a, nth_error (g_ts st) j = Some t /\ nth_error (g_ts st') j = Some t /\ t_gradient st t = Some a /\ t_gradient st' t = Some a /\
    shows (g_heap st) a (s_shape x) (s_G ss k) /\
    shows (g_heap st') a (s_shape x) (fun idx => nadd N (s_G ss k idx)
      (inner N (s_shape y) (seed_val N ss sd) (fun o => snd (s_val y (unit_pert N k idx) o)))).
Proof.
  intros T N inv F p st i sd st' y j x k A E ss SC X Ey Ex Lx. destruct (run_sim N inv F p st A E) as (Gh & SM). fold ss in SM.
  assert (SC' : in_scope ss (IBackwardWith i sd)) by (destruct sd; easy).
  assert (ES : sstep N ss (IBackwardWith i sd) = s_backward N ss y (seed_val N ss sd)) by (cbn [sstep]; unfold with1; now rewrite Ey).
  destruct (exec_ok N inv F st ss Gh SM (IBackwardWith i sd) SC') as [E2|(st2 & Gh2 & E2 & SM2)].
  - rewrite ES. exact (sim_small N _ _ _ SM).
  - congruence.
  - rewrite X in E2. apply Ok_inj in E2. subst st2. rewrite ES in SM2.
    assert (TS : g_ts st' = g_ts st /\ g_leaves st' = g_leaves st).
    { cbn [exec] in X. destruct (vget _ _); try discriminate. cbn [bind] in X. destruct (seed_arr st sd) as [[h0 g0]| |]; try discriminate. cbn [bind] in X.
      destruct (guard _); try discriminate. cbn [bind] in X. apply run_bw_ts in X. tauto. }
    destruct TS as [TS LS]. pose proof (sim_agrees N _ _ _ SM) as A1. pose proof (sim_agrees N _ _ _ SM2) as A2.
    destruct (nth_error (g_ts st) j) as [t|] eqn:Et.
    2:{ apply nth_error_None in Et. apply Forall2_length in A1. assert (j < length (s_ts ss)) by (apply nth_error_Some; congruence). lia. }
    destruct (agrees_nth N _ _ _ _ A1 Et) as (s & Es & (_ & _ & G1)). rewrite Ex in Es. injection Es as <-. rewrite Lx in G1. destruct G1 as (a & T1 & S1).
    assert (Et' := Et). rewrite <- TS in Et'. destruct (agrees_nth N _ _ _ _ A2 Et') as (s & Es & (_ & _ & G2)). cbn [s_backward s_ts] in Es. rewrite Ex in Es. injection Es as <-.
    rewrite Lx in G2. destruct G2 as (a' & T2 & S2). exists t, a. split; [auto|]. split; [auto|]. split; [auto|].
    assert (a' = a) by (unfold t_gradient in T1, T2; rewrite LS in T2; congruence). subst a'. auto.
Qed.
Print Assumptions C33_backward_with_partial.
(** the same for backward(), whose seed is all ones *)
Theorem C33_backward_partial : forall T (N : num T) inv, is_field N inv -> forall p st i st' y j x k,
  admissible N p (s0 N) -> run N p g0 = Ok st -> let ss := srun N p (s0 N) in
  exec N st (IBackward i) = Ok st' -> nth_error (s_ts ss) i = Some y -> nth_error (s_ts ss) j = Some x -> s_leaf x = Some k ->
  exists t a, nth_error (g_ts st) j = Some t /\ nth_error (g_ts st') j = Some t /\ t_gradient st t = Some a /\ t_gradient st' t = Some a /\
    shows (g_heap st) a (s_shape x) (s_G ss k) /\
    shows (g_heap st') a (s_shape x) (fun idx => nadd N (s_G ss k idx)
      (inner N (s_shape y) (fun _ => n1 N) (fun o => snd (s_val y (unit_pert N k idx) o)))).
Proof.
  intros T N inv F p st i st' y j x k A E ss X Ey Ex Lx. destruct (run_sim N inv F p st A E) as (Gh & SM). fold ss in SM.
  assert (ES : sstep N ss (IBackward i) = s_backward N ss y (fun _ => n1 N)) by (cbn [sstep]; unfold with1; now rewrite Ey).
  destruct (exec_ok N inv F st ss Gh SM (IBackward i) Logic.I) as [E2|(st2 & Gh2 & E2 & SM2)].
  - rewrite ES. exact (sim_small N _ _ _ SM).
  - congruence.
  - rewrite X in E2. apply Ok_inj in E2. subst st2. rewrite ES in SM2.
    assert (TS : g_ts st' = g_ts st /\ g_leaves st' = g_leaves st).
    { cbn [exec] in X. destruct (vget _ _); try discriminate. cbn [bind] in X. destruct (nd_full _ _ _) as [[h0 g0]| |]; try discriminate. cbn [bind] in X.
      apply run_bw_ts in X. tauto. }
    destruct TS as [TS LS]. pose proof (sim_agrees N _ _ _ SM) as A1. pose proof (sim_agrees N _ _ _ SM2) as A2.
    destruct (nth_error (g_ts st) j) as [t|] eqn:Et.
    2:{ apply nth_error_None in Et. apply Forall2_length in A1. assert (j < length (s_ts ss)) by (apply nth_error_Some; congruence). lia. }
    destruct (agrees_nth N _ _ _ _ A1 Et) as (s & Es & (_ & _ & G1)). rewrite Ex in Es. injection Es as <-. rewrite Lx in G1. destruct G1 as (a & T1 & S1).
    assert (Et' := Et). rewrite <- TS in Et'. destruct (agrees_nth N _ _ _ _ A2 Et') as (s & Es & (_ & _ & G2)). cbn [s_backward s_ts] in Es. rewrite Ex in Es. injection Es as <-.
    rewrite Lx in G2. destruct G2 as (a' & T2 & S2). exists t, a. split; [auto|]. split; [auto|]. split; [auto|].
    assert (a' = a) by (unfold t_gradient in T1, T2; rewrite LS in T2; congruence). subst a'. auto.
Qed.
Print Assumptions C33_backward_partial.

(** reading a result: the gradient of tensor j as a list *)
Definition grad_of {T} (N : num T) (p : list (instr T)) (j : nat) : res (list T) :=
  st <- run N p g0 ;; t <- vget (g_ts st) j ;; match t_gradient st t with Some a => elems (g_heap st) a | None => Panic end.
Definition value_of {T} (N : num T) (p : list (instr T)) (j : nat) : res (list T) :=
  st <- run N p g0 ;; t <- vget (g_ts st) j ;; elems (g_heap st) (t_arr t).
(** the same on the reference machine *)
Definition sgrad_of {T} (N : num T) (p : list (instr T)) (j : nat) : option (list T) :=
  let ss := srun N p (s0 N) in
  match nth_error (s_ts ss) j with
  | Some s => match s_leaf s with Some k => Some (map (s_G ss k) (indices (s_shape s))) | None => None end
  | None => None
  end.

Ltac admit_program := repeat (split; [exact Logic.I|split; [unfold small; cbn -[MAX_DIMS]; repeat constructor; cbn; unfold MAX_DIMS; lia|]]); exact Logic.I.

(** y = x*x + x*b with b broadcast, used twice: dy/dx = 2x + b, dy/db = sum of x *)
Definition exp1 : list (instr Z) := [INew [2; 2] [1; 2; 3; 4]%Z; ISetGrad 0 true; INew [2] [10; 20]%Z; ISetGrad 1 true;
  IBin BMul 0 0; IBin BMul 0 1; IBin BAdd 2 3; IBackward 4; IBackwardWith 4 (SNew [2; 2] [1; 0; 0; 0]%Z)].
Example C33_ex : admissible ZN exp1 (s0 ZN) /\
  grad_of ZN exp1 0 = Ok [24; 24; 16; 28]%Z /\ sgrad_of ZN exp1 0 = Some [24; 24; 16; 28]%Z /\
  grad_of ZN exp1 1 = Ok [5; 6]%Z /\ sgrad_of ZN exp1 1 = Some [5; 6]%Z.
Proof. split; [admit_program|]. repeat split; vm_compute; reflexivity. Qed.
(** matrix product, division and transpose over the rationals *)
Definition qc (n : Z) : Qc := Q2Qc (inject_Z n).
Definition exp2 : list (instr Qc) := [INew [2; 2] [qc 1; qc 2; qc 3; qc 4]; ISetGrad 0 true; ITranspose TRef 0 0 1; IMatmul 0 1;
  IScal BDiv 2 (qc 2); IBin BDiv 3 0; IBackward 4].
Example C33_ex2 : admissible QN exp2 (s0 QN) /\ exists l1 l2, grad_of QN exp2 0 = Ok l1 /\ sgrad_of QN exp2 0 = Some l2 /\
  map this l1 = [-1 # 4; 55 # 24; 5 # 9; 101 # 96]%Q /\ map this l2 = map this l1.
Proof.
  split; [admit_program|]. eexists _, _. split; [vm_compute; reflexivity|]. split; [vm_compute; reflexivity|].
  split; vm_compute; reflexivity.
Qed.
(** x.gradient() passed as the argument of backward_with is modified while it is being read:
    the second call adds 6 instead of 4 *)
Theorem C33_aliased_seed_refuted : exists p, grad_of ZN p 0 = Ok [2]%Z /\
  grad_of ZN (p ++ [IBackwardWith 1 (SGrad 0)]) 0 = Ok [8]%Z /\
  sgrad_of ZN (p ++ [IBackwardWith 1 (SGrad 0)]) 0 = Some [6]%Z.
Proof. exists [INew [1] [1]%Z; ISetGrad 0 true; IBin BAdd 0 0; IBackward 1]. repeat split; vm_compute; reflexivity. Qed.
Print Assumptions C33_aliased_seed_refuted.
(** a broadcast array as the argument of backward_with, on a reshaped tensor: read out of bounds *)
Theorem C33_broadcast_seed_refuted : exists p st, run ZN p g0 = Ok st /\ grad_of ZN p 0 = Ok (repeat 0%Z 6) /\
  exec ZN st (IBackwardWith 1 (SBcast [3] [10; 20; 30]%Z [2; 3])) = Oob.
Proof.
  eexists [INew [6] [1; 2; 3; 4; 5; 6]%Z; ISetGrad 0 true; IReshape TRef 0 [2; 3]], _. split; [vm_compute; reflexivity|]. split; vm_compute; reflexivity.
Qed.
Print Assumptions C33_broadcast_seed_refuted.

(** ** C34 gradients accumulate and can be reset *)
Definition is_backward {T} (i : instr T) : Prop :=
  match i with IBackward _ | IBackwardWith _ (SNew _ _) | IBackwardWith _ (SVal _) => True | _ => False end.

Section C34.
  Context {T : Type} (N : num T) (inv0 : T -> T).
  Hypothesis F : is_field N inv0.
  Add Ring T_ring7 : (field_ring N inv0 F).

  Lemma backward_ts st i st' : is_backward i -> exec N st i = Ok st' -> g_ts st' = g_ts st /\ g_leaves st' = g_leaves st.
  Proof.
    destruct i; cbn [is_backward]; try easy; cbn [exec]; intros _ X; destruct (vget _ _); try discriminate; cbn [bind] in X.
    - destruct (nd_full _ _ _) as [[h0 g0]| |]; try discriminate. cbn [bind] in X. apply run_bw_ts in X. tauto.
    - destruct (seed_arr _ _) as [[h0 g0]| |]; try discriminate. cbn [bind] in X. destruct (guard _); try discriminate. cbn [bind] in X. apply run_bw_ts in X. tauto.
  Qed.
  (** the reference machine: what a backward call adds does not depend on the gradients *)
  Lemma backward_adds (i : instr T) : is_backward i -> forall ss, exists f, forall G', let s' := sstep N (mkSS (s_ts ss) (s_leaves ss) G') i in
    s_ts s' = s_ts ss /\ s_leaves s' = s_leaves ss /\ forall k idx, s_G s' k idx = nadd N (G' k idx) (f k idx).
  Proof.
    intros B ss. destruct i; cbn [is_backward] in B; try easy; cbn [sstep]; unfold with1; cbn [s_ts].
    - destruct (nth_error (s_ts ss) i) as [y|].
      + exists (vjp N y (fun _ => n1 N)). intros G'. cbn. auto.
      + exists (fun _ _ => n0 N). intros G'. cbn. split; [auto|]. split; [auto|]. intros. ring.
    - destruct (nth_error (s_ts ss) i) as [y|].
      + exists (vjp N y (seed_val N ss s)). intros G'. cbn [s_backward s_ts s_leaves s_G]. split; [auto|]. split; [auto|]. intros k idx. f_equal.
        destruct s; try easy; reflexivity.
      + exists (fun _ _ => n0 N). intros G'. cbn. split; [auto|]. split; [auto|]. intros. ring.
  Qed.
  Lemma backward_swap (i j : instr T) ss : is_backward i -> is_backward j ->
    s_ts (sstep N (sstep N ss i) j) = s_ts ss /\ s_ts (sstep N (sstep N ss j) i) = s_ts ss /\
    forall k idx, s_G (sstep N (sstep N ss i) j) k idx = s_G (sstep N (sstep N ss j) i) k idx.
  Proof.
    intros Bi Bj. destruct (backward_adds i Bi ss) as (f & Hf). destruct (backward_adds j Bj ss) as (g & Hg). cbv zeta in Hf, Hg.
    assert (ETA : mkSS (s_ts ss) (s_leaves ss) (s_G ss) = ss) by (destruct ss; reflexivity).
    destruct (Hf (s_G ss)) as (F1 & F2 & F3). rewrite ETA in F1, F2, F3. destruct (Hg (s_G ss)) as (G1 & G2 & G3). rewrite ETA in G1, G2, G3.
    assert (E1 : sstep N ss i = mkSS (s_ts ss) (s_leaves ss) (s_G (sstep N ss i))) by (destruct (sstep N ss i); cbn in *; congruence).
    assert (E2 : sstep N ss j = mkSS (s_ts ss) (s_leaves ss) (s_G (sstep N ss j))) by (destruct (sstep N ss j); cbn in *; congruence).
    destruct (Hg (s_G (sstep N ss i))) as (A1 & A2 & A3). rewrite <- E1 in A1, A2, A3.
    destruct (Hf (s_G (sstep N ss j))) as (B1 & B2 & B3). rewrite <- E2 in B1, B2, B3.
    split; [auto|]. split; [auto|]. intros k idx. rewrite A3, B3, F3, G3. ring.
  Qed.
  Lemma backward_scope (i : instr T) ss : is_backward i -> in_scope ss i. Proof. destruct i; cbn; try easy. Qed.
  Lemma backward_small (i : instr T) ss : is_backward i -> small ss -> small (sstep N ss i).
  Proof. intros B S. destruct (backward_adds i B ss) as (f & H). destruct (H (s_G ss)) as (E & _ & _). replace (mkSS (s_ts ss) (s_leaves ss) (s_G ss)) with ss in E by (destruct ss; reflexivity). unfold small. now rewrite E. Qed.
End C34.

(** two backward calls give the same gradients in either order.  Missing: seeds that are a
    gradient (refuted below) or broadcast. *)
Theorem C34_order_partial : forall T (N : num T) inv, is_field N inv -> forall p st b1 b2 st1 st2,
  admissible N p (s0 N) -> run N p g0 = Ok st -> is_backward b1 -> is_backward b2 ->
  run N [b1; b2] st = Ok st1 -> run N [b2; b1] st = Ok st2 ->
  g_ts st1 = g_ts st2 /\ forall t, In t (g_ts st1) -> t_gradient st1 t = t_gradient st2 t /\
    forall a, t_gradient st1 t = Some a -> forall idx, in_range idx (a_shape a) ->
      exists v, get (g_heap st1) a idx = Ok v /\ get (g_heap st2) a idx = Ok v.
Proof.
  intros T N inv F p st b1 b2 st1 st2 A E B1 B2 R1 R2. destruct (run_sim N inv F p st A E) as (Gh & SM). set (ss := srun N p (s0 N)) in *.
  pose proof (sim_small N _ _ _ SM) as SS. cbn [run] in R1, R2.
  destruct (exec N st b1) as [u1| |] eqn:X1; try discriminate. cbn [bind] in R1. destruct (exec N u1 b2) as [v1| |] eqn:Y1; try discriminate. cbn [bind] in R1. apply Ok_inj in R1. subst v1.
  destruct (exec N st b2) as [u2| |] eqn:X2; try discriminate. cbn [bind] in R2. destruct (exec N u2 b1) as [v2| |] eqn:Y2; try discriminate. cbn [bind] in R2. apply Ok_inj in R2. subst v2.
  pose proof (backward_small N inv F b1 ss B1 SS) as S1. pose proof (backward_small N inv F b2 ss B2 SS) as S2.
  destruct (exec_ok N inv F st ss Gh SM b1 (backward_scope _ _ B1) S1) as [Q|(w & Gh1 & Q & SM1)]; [congruence|]. rewrite X1 in Q. apply Ok_inj in Q. subst w.
  destruct (exec_ok N inv F st ss Gh SM b2 (backward_scope _ _ B2) S2) as [Q|(w & Gh2 & Q & SM2)]; [congruence|]. rewrite X2 in Q. apply Ok_inj in Q. subst w.
  destruct (exec_ok N inv F u1 _ Gh1 SM1 b2 (backward_scope _ _ B2) (backward_small N inv F b2 _ B2 S1)) as [Q|(w & Gh1' & Q & SM1')]; [congruence|]. rewrite Y1 in Q. apply Ok_inj in Q. subst w.
  destruct (exec_ok N inv F u2 _ Gh2 SM2 b1 (backward_scope _ _ B1) (backward_small N inv F b1 _ B1 S2)) as [Q|(w & Gh2' & Q & SM2')]; [congruence|]. rewrite Y2 in Q. apply Ok_inj in Q. subst w.
  destruct (backward_ts N _ _ _ B1 X1) as [T1 L1]. destruct (backward_ts N _ _ _ B2 Y1) as [T1' L1'].
  destruct (backward_ts N _ _ _ B2 X2) as [T2 L2]. destruct (backward_ts N _ _ _ B1 Y2) as [T2' L2'].
  split; [congruence|]. intros t I. assert (TG : t_gradient st1 t = t_gradient st2 t) by (unfold t_gradient; rewrite L1', L1, L2', L2; reflexivity).
  split; [auto|]. intros a Ta idx R. apply In_nth_error in I as (n & En). assert (En2 : nth_error (g_ts st2) n = Some t) by congruence.
  destruct (agrees_nth N _ _ _ _ (sim_agrees N _ _ _ SM1') En) as (s1 & Es1 & (_ & _ & G1)).
  destruct (agrees_nth N _ _ _ _ (sim_agrees N _ _ _ SM2') En2) as (s2 & Es2 & (_ & _ & G2)).
  destruct (backward_swap N inv F b1 b2 ss B1 B2) as (W1 & W2 & W3). rewrite W1 in Es1. rewrite W2 in Es2. rewrite Es1 in Es2. injection Es2 as <-.
  destruct (s_leaf s1) as [k|]; [|congruence]. destruct G1 as (a1 & Q1 & H1 & V1). destruct G2 as (a2 & Q2 & H2 & V2).
  assert (a1 = a) by congruence. assert (a2 = a) by congruence. subst a1 a2. rewrite H1 in R. eexists. split; [apply V1; auto|]. rewrite W3. now apply V2.
Qed.
Print Assumptions C34_order_partial.
Example C34_ex : let p := firstn 7 exp1 in admissible ZN p (s0 ZN) /\
  grad_of ZN (p ++ [IBackward 4; IBackwardWith 2 (SVal 0)]) 0 = grad_of ZN (p ++ [IBackwardWith 2 (SVal 0); IBackward 4]) 0 /\
  grad_of ZN (p ++ [IBackward 4; IBackwardWith 2 (SVal 0)]) 0 = Ok [14; 32; 34; 60]%Z.
Proof. split; [admit_program|]. split; vm_compute; reflexivity. Qed.

(** with x.gradient() as the argument of one call the order matters, even where no gradient is
    modified while it is read: z does not depend on x *)
Theorem C34_gradient_seed_refuted : exists p b1 b2, admissible ZN p (s0 ZN) /\
  grad_of ZN (p ++ [b1; b2]) 1 = Ok [3]%Z /\ grad_of ZN (p ++ [b2; b1]) 1 = Ok [0]%Z.
Proof.
  exists [INew [1] [1]%Z; ISetGrad 0 true; INew [1] [1]%Z; ISetGrad 1 true; IScal BMul 0 3%Z; INeg 1; INeg 3], (IBackward 2), (IBackwardWith 4 (SGrad 0)).
  split; [admit_program|]. split; vm_compute; reflexivity.
Qed.
Print Assumptions C34_gradient_seed_refuted.

(** zero_gradient sets the gradient of its leaf to zero and changes no other.  (Which tensors
    show the gradient of which leaf: C37.) *)
Theorem C34_zero : forall T (N : num T) inv, is_field N inv -> forall p st i st' x k,
  admissible N p (s0 N) -> run N p g0 = Ok st -> let ss := srun N p (s0 N) in
  nth_error (s_ts ss) i = Some x -> s_leaf x = Some k ->
  exec N st (IZeroGrad i) = Ok st' -> g_ts st' = g_ts st /\
  forall j t y k', nth_error (g_ts st) j = Some t -> nth_error (s_ts ss) j = Some y -> s_leaf y = Some k' ->
    exists a, t_gradient st t = Some a /\ t_gradient st' t = Some a /\
      shows (g_heap st) a (s_shape y) (s_G ss k') /\
      shows (g_heap st') a (s_shape y) (if k' =? k then fun _ => n0 N else s_G ss k').
Proof.
  intros T N inv F p st i st' x k A E ss Ex Lx X. destruct (run_sim N inv F p st A E) as (Gh & SM). fold ss in SM.
  assert (ES : sstep N ss (IZeroGrad i) = mkSS (s_ts ss) (s_leaves ss) (fun k' idx => if k' =? k then n0 N else s_G ss k' idx)) by (cbn [sstep]; unfold with1; now rewrite Ex, Lx).
  destruct (exec_ok N inv F st ss Gh SM (IZeroGrad i) Logic.I) as [E2|(st2 & Gh2 & E2 & SM2)].
  { rewrite ES. exact (sim_small N _ _ _ SM). }
  { congruence. }
  rewrite X in E2. apply Ok_inj in E2. subst st2. rewrite ES in SM2.
  assert (TS : g_ts st' = g_ts st /\ g_leaves st' = g_leaves st).
  { cbn [exec] in X. destruct (vget _ _) as [t| |]; try discriminate. cbn [bind] in X. destruct (t_fn t).
    - apply Ok_inj in X. now subst. - destruct (vget _ _); try discriminate. cbn [bind] in X. destruct (nd_fill _ _ _); try discriminate. apply Ok_inj in X. now subst.
    - apply Ok_inj in X. now subst. }
  destruct TS as [TS LS]. split; [auto|]. intros j t y k' Et Ey Ly.
  destruct (agrees_nth N _ _ _ _ (sim_agrees N _ _ _ SM) Et) as (s1 & Es1 & (_ & _ & G1)).
  assert (Et' := Et). rewrite <- TS in Et'.
  destruct (agrees_nth N _ _ _ _ (sim_agrees N _ _ _ SM2) Et') as (s2 & Es2 & (_ & _ & G2)). cbn [s_ts s_G] in Es2, G2.
  rewrite Ey in Es1, Es2. injection Es1 as <-. injection Es2 as <-. rewrite Ly in G1, G2. destruct G1 as (a & Q1 & H1). destruct G2 as (a' & Q2 & H2).
  assert (a' = a) by (unfold t_gradient in Q1, Q2; rewrite LS in Q2; congruence). subst a'. exists a. split; [auto|]. split; [auto|]. split; [auto|].
  destruct (k' =? k); exact H2.
Qed.
Print Assumptions C34_zero.
Example C34_zero_ex : grad_of ZN (exp1 ++ [IZeroGrad 0]) 0 = Ok [0; 0; 0; 0]%Z /\ grad_of ZN (exp1 ++ [IZeroGrad 0]) 1 = Ok [5; 6]%Z.
Proof. split; vm_compute; reflexivity. Qed.

(** in every state of every program a gradient has the shape of its tensor and is a view that
    does not own its buffer *)
Theorem C34_shape : forall T (N : num T) p st t a, run N p g0 = Ok st -> In t (g_ts st) -> t_gradient st t = Some a ->
  a_shape a = a_shape (t_arr t) /\ f_owned (a_fl a) = false.
Proof.
  intros T N p st t a E I G. pose proof (run_wfs N p st E) as W. unfold wfs in W. rewrite Forall_forall in W. destruct (W t I) as [_ W2].
  unfold t_gradient in G. destruct (t_fn t) as [|k|m]; try discriminate. destruct (W2 k eq_refl) as (b & Eb & Sb). rewrite Eb in G. injection G as <-. split; [exact Sb|reflexivity].
Qed.
Print Assumptions C34_shape.
Example C34_shape_ex : exists st t a, run ZN exp1 g0 = Ok st /\ In t (g_ts st) /\ t_gradient st t = Some a /\ a_shape a = [2; 2].
Proof. eexists _, _, _. split; [vm_compute; reflexivity|]. split; [left; reflexivity|]. split; reflexivity. Qed.

(** ** C35 only tensors that require a gradient are tracked *)
(** requires_grad of the result of every operation of every program: [flag_step] *)
Theorem C35_flags : forall T (N : num T) p st, run N p g0 = Ok st -> map t_rg (g_ts st) = fold_left flag_step p [].
Proof.
  intros T N p st E. apply (run_inv2 N (fun st fs => map t_rg (g_ts st) = fs) flag_step) with (st := g0); [|reflexivity|exact E].
  intros s fs i s' H X. eapply exec_flags; eauto.
Qed.
Print Assumptions C35_flags.
Example C35_flags_ex : exists st, run ZN exp1 g0 = Ok st /\ map t_rg (g_ts st) = [true; true; true; true; true].
Proof. eexists. split; vm_compute; reflexivity. Qed.
Example C35_flags_ex2 : exists st, run ZN [INew [1] [3]%Z; INew [1] [4]%Z; ISetGrad 1 true; IBin BMul 0 0; IBin BMul 0 1; INeg 3; IView TRef 2] g0 = Ok st /\
  map t_rg (g_ts st) = [false; true; false; true; true; false].
Proof. eexists. split; vm_compute; reflexivity. Qed.

(** a tensor that does not require a gradient never reports one *)
Theorem C35_no_gradient : forall T (N : num T) p st t, run N p g0 = Ok st -> In t (g_ts st) -> t_rg t = false -> t_gradient st t = None.
Proof.
  intros T N p st t E I R. pose proof (run_wfs N p st E) as W. unfold wfs in W. rewrite Forall_forall in W. destruct (W t I) as [W1 _].
  unfold t_gradient. now rewrite (W1 R).
Qed.
Print Assumptions C35_no_gradient.
Example C35_no_gradient_ex : exists st t, run ZN [INew [1] [3]%Z; INew [1] [4]%Z; ISetGrad 1 true; IBin BMul 0 1; IBackward 2] g0 = Ok st /\
  In t (g_ts st) /\ t_rg t = false /\ t_gradient st t = None.
Proof. eexists _, _. split; [vm_compute; reflexivity|]. split; [left; reflexivity|]. split; reflexivity. Qed.

(** backward on such a tensor succeeds and changes nothing *)
Theorem C35_backward_untracked : forall T (N : num T) inv, is_field N inv -> forall p st i t,
  admissible N p (s0 N) -> run N p g0 = Ok st -> nth_error (g_ts st) i = Some t -> t_rg t = false ->
  exists st', exec N st (IBackward i) = Ok st' /\ g_ts st' = g_ts st /\ g_leaves st' = g_leaves st /\ g_nodes st' = g_nodes st /\
    extends (g_heap st) (g_heap st').
Proof.
  intros T N inv F p st i t A E Et R. destruct (run_sim N inv F p st A E) as (Gh & SM).
  pose proof (run_wfs N p st E) as W. unfold wfs in W. rewrite Forall_forall in W. destruct (W t (nth_error_In _ _ Et)) as [W1 _].
  destruct (Forall2_get _ _ _ i (m_ts _ _ _ _ SM)) as [Q|(x & s & Q & Ex & Es & K)]; [unfold vget in Q; now rewrite Et in Q|].
  rewrite Et in Ex. injection Ex as <-. cbn [exec]. rewrite Q. cbn [bind]. destruct (k_good _ _ _ _ _ _ _ K) as [G _]. rewrite (good_shape _ _ _ _ G).
  destruct (nd_full_made (g_heap st) (n1 N) (s_shape s) (good_prod _ _ _ _ G)) as (h1 & g & Eg & M & _). rewrite Eg. cbn [bind].
  unfold run_bw. cbn [bw]. rewrite (W1 R). cbn [bind]. eexists. split; [reflexivity|]. cbn. repeat (split; [reflexivity|]). apply M.
Qed.
Print Assumptions C35_backward_untracked.
Example C35_backward_ex : exists st st', run ZN [INew [2] [3; 4]%Z; INeg 0] g0 = Ok st /\ exec ZN st (IBackward 1) = Ok st' /\ g_leaves st' = [].
Proof. eexists _, _. split; [vm_compute; reflexivity|]. split; [vm_compute; reflexivity|]. reflexivity. Qed.

(** ** C36 backward does not panic *)
(** If every one-element tensor of the program has the shape [], and the program does not
    both transpose and reshape, backward() succeeds on every tensor: no failed reshape, no
    double borrow.  Missing: the three refuted cases below. *)
Theorem C36_backward_partial : forall T (N : num T) inv, is_field N inv -> forall p st i,
  admissible N p (s0 N) -> run N p g0 = Ok st -> i < length (g_ts st) ->
  (forall t, In t (s_ts (srun N p (s0 N))) -> prod (s_shape t) = 1 -> s_shape t = []) ->
  (forall j, In j p -> moves_axes j = false) \/ (forall j, In j p -> changes_shape j = false) ->
  exists st', exec N st (IBackward i) = Ok st'.
Proof.
  intros T N inv F p st i A E L US D. destruct (run_sim N inv F p st A E) as (Gh & SM).
  destruct (Forall2_get _ _ _ i (m_ts _ _ _ _ SM)) as [Q|(x & s & Q & Ex & Es & K)].
  { unfold vget in Q. destruct (nth_error (g_ts st) i) eqn:W; [discriminate|]. apply nth_error_None in W. lia. }
  cbn [exec]. rewrite Q. cbn [bind]. destruct (k_good _ _ _ _ _ _ _ K) as [G _]. rewrite (good_shape _ _ _ _ G).
  destruct (nd_full_made (g_heap st) (n1 N) (s_shape s) (good_prod _ _ _ _ G)) as (h1 & g & Eg & M & _). rewrite Eg. cbn [bind].
  destruct (run_bw_ok N inv F st _ Gh SM x s h1 g (fun _ => n1 N) true K (proj1 M)) as [[_ C]|(st' & E2 & _)].
  - eapply made_sgood; [apply (m_lives _ _ _ _ SM)|exact M].
  - intros _. apply M.
  - exfalso. assert (U : forall sh, In sh (s_leaves (srun N p (s0 N))) \/ In sh (map fst Gh) -> unit_scalar sh).
    { intros sh I. apply (m_shapes _ _ _ _ SM) in I. apply in_map_iff in I as (t & <- & I). exact (US t I). }
    assert (KND : exists noresh : bool,
      (noresh = true -> forall m nd, nth_error (g_nodes st) m = Some nd -> is_resh nd = false) /\
      (noresh = false -> forall m nd, nth_error (g_nodes st) m = Some nd -> is_trans nd = false)).
    { destruct D as [D|D]; [exists false|exists true]; (split; [intros W; try discriminate W|intros W; try discriminate W]).
      - assert (H : Forall (fun nd => is_trans nd = false) (g_nodes st)).
        { apply (run_kinds N is_trans p) with (st := g0); [left; split; [reflexivity|]; apply forallb_forall; intros j I; now rewrite D|constructor|exact E]. }
        rewrite Forall_forall in H. intros m nd En. apply H. eapply nth_error_In; eauto.
      - assert (H : Forall (fun nd => is_resh nd = false) (g_nodes st)).
        { apply (run_kinds N is_resh p) with (st := g0); [right; split; [reflexivity|]; apply forallb_forall; intros j I; now rewrite D|constructor|exact E]. }
        rewrite Forall_forall in H. intros m nd En. apply H. eapply nth_error_In; eauto. }
    destruct KND as (nr & K1 & K2).
    rewrite (calm_all N _ _ _ _ _ (m_nodes _ _ _ _ SM) U nr K1 K2 _ _ _ _ true (k_fn _ _ _ _ _ _ _ K)) in C by auto. discriminate.
  - eauto.
Qed.
Print Assumptions C36_backward_partial.
Example C36_ex : let p := firstn 7 exp1 in admissible ZN p (s0 ZN) /\ exists st, run ZN p g0 = Ok st /\ 4 < length (g_ts st) /\
  (forall t, In t (s_ts (srun ZN p (s0 ZN))) -> prod (s_shape t) = 1 -> s_shape t = []) /\ (forall j, In j p -> moves_axes j = false).
Proof.
  split; [admit_program|]. eexists. split; [vm_compute; reflexivity|]. split; [cbn; lia|]. split.
  - intros t I. cbn in I. repeat (destruct I as [<-|I]; [cbn; discriminate|]). destruct I.
  - intros j I. cbn in I. repeat (destruct I as [<-|I]; [reflexivity|]). destruct I.
Qed.
(** backward panics on a well-formed graph: an operand of shape [1] that was broadcast *)
Theorem C36_unit_operand_refuted : exists p st, run ZN p g0 = Ok st /\ 2 < length (g_ts st) /\ exec ZN st (IBackward 2) = Panic.
Proof. eexists [INew [1] [1]%Z; ISetGrad 0 true; INew [3] [1; 10; 100]%Z; IBin BAdd 0 1], _. split; [vm_compute; reflexivity|]. split; [cbn; lia|vm_compute; reflexivity]. Qed.
Print Assumptions C36_unit_operand_refuted.
(** x.reshape([2,3]).T().backward() *)
Theorem C36_reshape_transpose_refuted : exists p st, run ZN p g0 = Ok st /\ 2 < length (g_ts st) /\ exec ZN st (IBackward 2) = Panic.
Proof. eexists [INew [6] [1; 2; 3; 4; 5; 6]%Z; ISetGrad 0 true; IReshape TRef 0 [2; 3]; ITranspose TRef 1 0 1], _. split; [vm_compute; reflexivity|]. split; [cbn; lia|vm_compute; reflexivity]. Qed.
Print Assumptions C36_reshape_transpose_refuted.
(** x.squeeze().backward() for x of shape [1] *)
Theorem C36_squeeze_refuted : exists p st, run ZN p g0 = Ok st /\ 1 < length (g_ts st) /\ exec ZN st (IBackward 1) = Panic.
Proof. eexists [INew [1] [7]%Z; ISetGrad 0 true; ISqueeze TRef 0], _. split; [vm_compute; reflexivity|]. split; [cbn; lia|vm_compute; reflexivity]. Qed.
Print Assumptions C36_squeeze_refuted.

(** ** C37 each tensor has its own gradient *)
(** the results of these operations show no gradient at all *)
Definition own_node {T} (s : gstate (T := T)) (i : instr T) : Prop :=
  match i with
  | INeg _ | IBin _ _ _ | IScal BMul _ _ | IScal BDiv _ _ | IDot _ _ | IMatmul _ _ | IBmm _ _ | ISqueeze _ _ | IUnsqueeze _ _ _
  | ITranspose _ _ _ _ | INew _ _ => True
  | IReshape _ k sh => forall t, nth_error (g_ts s) k = Some t -> a_shape (t_arr t) <> sh
  | _ => False
  end.
Lemma push_op_last {T} (st : gstate (T := T)) h a rg nd : exists t, g_ts (push_op st h a rg nd) = g_ts st ++ [t] /\ t_gradient (push_op st h a rg nd) t = None.
Proof. unfold push_op. destruct rg; eexists; (split; [reflexivity|]); reflexivity. Qed.
Theorem C37_computed_partial : forall T (N : num T) st i st', own_node st i -> exec N st i = Ok st' ->
  exists t, g_ts st' = g_ts st ++ [t] /\ t_gradient st' t = None.
Proof.
  intros T N st i st' O X. destruct i; cbn [own_node] in O; try easy; cbn [exec] in X; cbv zeta in X;
    repeat match type of X with
    | bind ?r _ = Ok _ => let E := fresh "E" in destruct r eqn:E; cbn [bind] in X; try discriminate X
    | (let '(_, _) := ?p in _) = Ok _ => destruct p
    | (if list_eqb ?a ?b then _ else _) = Ok _ => destruct (list_eqb a b) eqn:LE
    | (if ?b then _ else _) = Ok _ => destruct b; try discriminate X
    end; try (apply Ok_inj in X; subst; apply push_op_last).
  - apply Ok_inj in X. subst. eexists. split; reflexivity.
  - destruct o; try easy; apply Ok_inj in X; subst; apply push_op_last.
  - exfalso. apply list_eqb_spec in LE. unfold vget in E. destruct (nth_error (g_ts st) i) eqn:Q; [|discriminate]. apply Ok_inj in E. subst. eapply O; eauto.
Qed.
Print Assumptions C37_computed_partial.
Example C37_ex : exists st st', run ZN (firstn 4 exp1) g0 = Ok st /\ own_node st (IBin BMul 0 1) /\ exec ZN st (IBin BMul 0 1) = Ok st'.
Proof. eexists _, _. split; [vm_compute; reflexivity|]. split; [exact Logic.I|]. vm_compute. reflexivity. Qed.
(** x + 5 shows x's gradient, and resetting it resets x's *)
Theorem C37_identity_refuted : exists p, grad_of ZN p 0 = Ok [1; 1]%Z /\ grad_of ZN p 1 = Ok [1; 1]%Z /\
  value_of ZN p 1 = Ok [6; 7]%Z /\ grad_of ZN (p ++ [IZeroGrad 1]) 0 = Ok [0; 0]%Z.
Proof. exists [INew [2] [1; 2]%Z; ISetGrad 0 true; IScal BAdd 0 5%Z; IBackward 1]. repeat split; vm_compute; reflexivity. Qed.
Print Assumptions C37_identity_refuted.

(** ** C47 a view operation called by value does not depend on whether the data is shared *)
Definition same_array {T} (r1 r2 : res (heap T * arr)) : Prop :=
  match r1, r2 with
  | Ok (h1, a1), Ok (h2, a2) => a_shape a1 = a_shape a2 /\ forall idx, in_range idx (a_shape a1) -> exists v, get h1 a1 idx = Ok v /\ get h2 a2 idx = Ok v
  | Panic, Panic => True
  | _, _ => False
  end.
Section C47.
  Context {T : Type}.
  Implicit Types h : heap T.
  Lemma op_clone (op : mode -> arr -> res arr) h a v sh sh' f C Q : good h a sh v -> length sh <= MAX_DIMS -> @op_spec T op sh sh' f C Q ->
    (op ByValue a = Panic <-> op ByValue (fresh_arr (length h) (prod sh) sh) = Panic) ->
    same_array (via_array TMove op h a) (via_array TClone op h a).
  Proof.
    intros G MD O PI. cbn [via_array]. destruct (clone_made h _ _ _ G MD) as (h1 & E1 & M). rewrite E1. cbn [bind].
    destruct (O h a v ByValue G) as [E|(_ & r & E & _ & Gr & _)]; rewrite E; cbn [bind].
    - apply PI in E. rewrite E. exact Logic.I.
    - destruct (O h1 _ _ ByValue (proj1 (proj2 (proj2 M)))) as [E2|(_ & r2 & E2 & _ & Gr2 & _)].
      + apply PI in E2. congruence.
      + rewrite E2. cbn [bind same_array]. rewrite (good_shape _ _ _ _ Gr), (good_shape _ _ _ _ Gr2). split; [auto|]. intros idx R. eexists.
        split; [now apply (good_get _ _ _ _ _ Gr)|now apply (good_get _ _ _ _ _ Gr2)].
  Qed.
  Lemma op_stride_clone (op : mode -> arr -> res arr) h a v sh sh' f C Q : good h a sh v -> length sh <= MAX_DIMS -> @op_spec T op sh sh' f C Q -> copy_spec op -> rmaj a ->
    same_array (via_strides TMove op h a) (via_strides TClone op h a).
  Proof.
    intros G MD O CP RA. cbn [via_strides]. destruct (clone_made h _ _ _ G MD) as (h1 & E1 & M).
    destruct (O h a v ByValue G) as [E|(_ & r & E & _ & Gr & _)]; rewrite E; cbn [bind]; [exact Logic.I|]. rewrite E1. cbn [bind].
    assert (RB : rmaj (fresh_arr (length h) (prod sh) sh)) by apply M.
    pose proof (CP a (fresh_arr (length h) (prod sh) sh) r (eq_sym (good_shape _ _ _ _ G)) RA RB eq_refl E) as E2.
    destruct (O h1 _ _ ByValue (proj1 (proj2 (proj2 M)))) as [E3|(_ & r' & E3 & _ & Gr2 & _)]; [congruence|].
    rewrite E2 in E3. apply Ok_inj in E3. rewrite E3. cbn [same_array]. rewrite (good_shape _ _ _ _ Gr), (good_shape _ _ _ _ Gr2). split; [auto|]. intros idx R. eexists.
    split; [now apply (good_get _ _ _ _ _ Gr)|now apply (good_get _ _ _ _ _ Gr2)].
  Qed.
  Lemma transpose_panic h a1 a2 sh va vb k1 k2 m : good h a1 sh va -> good h a2 sh vb -> nd_transpose m a1 k1 k2 = Panic -> nd_transpose m a2 k1 k2 = Panic.
  Proof.
    intros G1 G2 P. destruct (transpose_op sh k1 k2 h a2 vb m G2) as [E|((A1 & A2 & _) & _)]; [auto|].
    rewrite <- (good_shape _ _ _ _ G1) in A1, A2. destruct (nd_transpose_ok m a1 k1 k2 _ _ (good_wf _ _ _ _ G1) A1 A2) as (r & E & _). congruence.
  Qed.
End C47.

(** the two ways of taking the array out of a tensor by value: it is moved when nothing else
    holds it, copied when it is shared *)
Inductive strided_op : (mode -> arr -> res arr) -> Prop :=
| SO_reshape sh : strided_op (fun m a => nd_reshape m a sh)
| SO_squeeze : strided_op (fun m a => Ok (nd_squeeze m a))
| SO_unsqueeze axis : strided_op (fun m a => nd_unsqueeze m a axis).
Theorem C47_view_transpose : forall T (h : heap T) blk n a v k1 k2, chain blk n false a -> holds h a v -> length (a_shape a) <= MAX_DIMS ->
  same_array (via_array TMove (fun m a => Ok (nd_view m a)) h a) (via_array TClone (fun m a => Ok (nd_view m a)) h a) /\
  same_array (via_array TMove (fun m a => nd_transpose m a k1 k2) h a) (via_array TClone (fun m a => nd_transpose m a k1 k2) h a).
Proof.
  intros T h blk n a v k1 k2 C H MD. pose proof (stored_good h _ _ _ _ C H) as G. split.
  - apply (op_clone _ h a v _ _ _ _ _ G MD (view_op _)). split; discriminate.
  - apply (op_clone _ h a v _ _ _ _ _ G MD (transpose_op _ k1 k2)). destruct (clone_made h _ _ _ G MD) as (h1 & _ & M).
    assert (G' : good h1 a (a_shape a) v) by (eapply good_extends; [exact G|apply M]). split; apply (transpose_panic h1) with (sh := a_shape a) (va := v) (vb := v); auto; apply M.
Qed.
Print Assumptions C47_view_transpose.
(** Missing: arrays that are not row-major (refuted below). *)
Theorem C47_reshape_partial : forall T (h : heap T) blk n a v op, strided_op op -> chain blk n false a -> holds h a v -> length (a_shape a) <= MAX_DIMS ->
  a_stride a = rm_stride (a_shape a) -> same_array (via_strides TMove op h a) (via_strides TClone op h a).
Proof.
  intros T h blk n a v op O C H MD RA. pose proof (stored_good h _ _ _ _ C H) as G. destruct O as [sh| |axis].
  - exact (op_stride_clone _ h a v _ _ _ _ _ G MD (reshape_op _ sh) (reshape_cp sh) RA).
  - exact (op_stride_clone _ h a v _ _ _ _ _ G MD (squeeze_op _) squeeze_cp RA).
  - exact (op_stride_clone _ h a v _ _ _ _ _ G MD (unsqueeze_op _ axis) (unsqueeze_cp axis) RA).
Qed.
Print Assumptions C47_reshape_partial.
Example C47_ex : exists h1 r1 h2 r2, via_strides TMove (fun m a => nd_reshape m a [3; 2]) exg exga = Ok (h1, r1) /\
  via_strides TClone (fun m a => nd_reshape m a [3; 2]) exg exga = Ok (h2, r2) /\ a_blk r1 = 0 /\ a_blk r2 = 1 /\ elems h1 r1 = elems h2 r2.
Proof. eexists _, _, _, _. split; [vm_compute; reflexivity|]. split; [vm_compute; reflexivity|]. split; [reflexivity|]. split; [reflexivity|]. vm_compute. reflexivity. Qed.
(** unsqueeze(0), by value, of a transposed 2x3 tensor whose data a graph node also holds *)
Theorem C47_shared_transposed_refuted : exists h a, chain 0 6 false a /\ live h 0 6 /\
  (exists h1 r1, via_strides TMove (fun m a => nd_unsqueeze m a 0) h a = Ok (h1, r1) /\ elems h1 r1 = Ok [1; 4; 2; 5; 3; 6]%Z) /\
  (exists h2 r2, via_strides TClone (fun m a => nd_unsqueeze m a 0) h a = Ok (h2, r2) /\ elems h2 r2 = Ok [1; 5; 4; 3; 2; 6]%Z).
Proof.
  eexists [Some [1; 2; 3; 4; 5; 6]%Z], _. split; [eapply (Ch_transpose 0 6 false exga ByRef 0 1); [apply exga_chain|reflexivity]|].
  split; [eexists; split; reflexivity|]. split; (eexists _, _; split; [vm_compute; reflexivity|vm_compute; reflexivity]).
Qed.
Print Assumptions C47_shared_transposed_refuted.
(** the same through a program *)
Theorem C47_program_refuted : exists p, value_of ZN (p ++ [IUnsqueeze TMove 1 0]) 3 = Ok [1; 4; 2; 5; 3; 6]%Z /\
  value_of ZN (p ++ [IUnsqueeze TClone 1 0]) 3 = Ok [1; 5; 4; 3; 2; 6]%Z.
Proof. exists [INew [2; 3] [1; 2; 3; 4; 5; 6]%Z; ISetGrad 0 true; ITranspose TRef 0 0 1; IBin BMul 1 1]. split; vm_compute; reflexivity. Qed.
Print Assumptions C47_program_refuted.
