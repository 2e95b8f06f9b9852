(** PropsFlow.v: exactly which tensor programs panic (C82), and so which calls of backward (C36). *)
From Coq Require Import List Arith Lia Bool ZArith.
From Verif Require Import Base Spec Layout Views Kernels Access Reduce Einsum SpecGrad Autograd GradFacts4 GradFacts5 PropsGrad PropsGrad2
  Param Blackbox BlackboxGrad PropsParam2 SpecFlow FlowFacts FlowFacts2.
Import ListNotations.
Open Scope res_scope.

(** the layout machine does not look at elements *)
Lemma lstep_map {T U} (phi : T -> U) ls i : lstep ls (map_instr phi i) = lstep ls i.
Proof. destruct i as [sh l| | | | | | | | | | | | | |i [sh l| | |]|]; cbn [map_instr map_seed lstep]; unfold fills; now rewrite ?map_length. Qed.
Lemma lrun_map {T U} (phi : T -> U) p : forall ls, lrun (map (map_instr phi) p) ls = lrun p ls.
Proof. induction p as [|i p IH]; intros ls; [reflexivity|]. cbn [map lrun]. rewrite lstep_map. destruct (lstep ls i); [apply IH|reflexivity]. Qed.

(** ** C82: the layout machine of SpecFlow says which programs panic.
    It knows only which tensors require a gradient, their shapes and strides, and the journeys
    of their gradients: no heap, no nodes, no elements.  For any numbers, an admissible program
    panics exactly when the machine stops; and if it does not, its tensors have the flags, the
    shapes and the strides of the machine. *)
Definition laid (t : tensor) (l : ltensor) : Prop :=
  t_rg t = l_rg l /\ a_shape (t_arr t) = l_sh l /\ a_stride (t_arr t) = l_st l.
Theorem C82_programs : forall (T : Type) (N : num T) p, admissible N p (s0 N) ->
  match lrun p [] with
  | None => run N p g0 = Panic
  | Some ls => exists st, run N p g0 = Ok st /\ Forall2 laid (g_ts st) ls
  end.
Proof.
  intros T N p A. pose proof (blank_run T N p) as B.
  pose proof (run_lays ZN _ ZN_field (blank p) g0 (s0 ZN) [] [] (sim0 ZN) (Forall2_nil _) (blank_admissible T N p A)) as H.
  unfold blank in H at 2. rewrite lrun_map in H.
  destruct H as [[E ->]|(st' & ls & E & -> & L)]; rewrite E in B; destruct (run N p g0) as [st| |]; try tauto.
  exists st. split; [reflexivity|]. destruct B as [-> _]. unfold Lay in L. induction L as [|t l ts ls' H _ IH]; constructor; [|exact IH].
  destruct H as (H1 & H2 & H3 & _). now split.
Qed.
Print Assumptions C82_programs.
Theorem C82_panics : forall (T : Type) (N : num T) p, admissible N p (s0 N) -> (run N p g0 = Panic <-> lrun p [] = None).
Proof.
  intros T N p A. pose proof (C82_programs T N p A) as H. destruct (lrun p []) as [ls|]; [|tauto].
  destruct H as (st & E & _). rewrite E. split; discriminate.
Qed.
Print Assumptions C82_panics.

(** ** C36: exactly which calls of backward panic *)
Theorem C36_exact_partial : forall (T : Type) (N : num T) p st i y, admissible N p (s0 N) -> run N p g0 = Ok st -> nth_error (g_ts st) i = Some y ->
  exists ls l, lrun p [] = Some ls /\ nth_error ls i = Some l /\ laid y l /\
    (exec N st (IBackward i) = Panic <-> stuck (l_flow l) (l_sh l) (row_major (l_sh l)) = true) /\
    (stuck (l_flow l) (l_sh l) (row_major (l_sh l)) = false -> exists st', exec N st (IBackward i) = Ok st').
Proof.
  intros T N p st i y A E Ey. pose proof (C82_programs T N p A) as H. destruct (lrun p []) as [ls|] eqn:EL; [|congruence].
  destruct H as (st' & E' & L). rewrite E in E'. injection E' as <-.
  assert (GL : exists l, nth_error ls i = Some l /\ laid y l).
  { clear - L Ey. revert i Ey. induction L as [|t l ts ls H _ IH]; intros [|i] Ey; try discriminate Ey; cbn [nth_error] in *; [injection Ey as <-; eauto|auto]. }
  destruct GL as (l & El & LY). exists ls, l. split; [reflexivity|]. split; [exact El|]. split; [exact LY|].
  assert (A' : admissible N (p ++ [IBackward i]) (s0 N)).
  { assert (G : forall q s, small s -> admissible N q s -> admissible N (q ++ [IBackward i]) s).
    { induction q as [|j q IH]; intros s SM AD; [|destruct AD as (A1 & A2 & A3); cbn [app admissible]; auto].
      split; [exact I|]. split; [|exact I]. cbn [sstep]. unfold with1. now destruct (nth_error (s_ts s) i). }
    apply G; [constructor|exact A]. }
  pose proof (C82_programs T N _ A') as H. rewrite (run_snoc T N p _ st E) in H.
  assert (EL' : lrun (p ++ [IBackward i]) [] = if stuck (l_flow l) (l_sh l) (row_major (l_sh l)) then None else Some ls).
  { assert (G : forall (q : list (instr T)) s, lrun (q ++ [IBackward i]) s = match lrun q s with Some s' => lstep s' (IBackward (T := T) i) | None => None end).
    { induction q as [|j q IH]; intros s; cbn [app lrun]; [now destruct (lstep s _)|]. destruct (lstep s j); [apply IH|reflexivity]. }
    rewrite G, EL. cbn [lstep]. rewrite El. now destruct (stuck _ _ _). }
  rewrite EL' in H. destruct (stuck _ _ _).
  - split; [tauto|discriminate].
  - destruct H as (st' & X & _). rewrite X. split; [split; discriminate|eauto].
Qed.
Print Assumptions C36_exact_partial.

(** numbers without laws.  A transposed tensor is multiplied, reshaped and transposed back: its
    backward is fine (the new array is evenly spaced).  A reshaped tensor that is transposed has
    a backward that panics: the gradient of the reshape is not evenly spaced. *)
Definition p82 : list (instr nat) :=
  [INew [2; 3] [1; 2; 3; 4; 5; 6]; ISetGrad 0 true; ITranspose TRef 0 0 1; IBin BMul 1 1; IReshape TMove 2 [6]; INew [1] [3]; IBin BSub 3 4; IBackward 5;
   IReshape TRef 0 [3; 2]; ITranspose TClone 6 (-1) 0].
Example C82_example :
  admissible odd_num (p82 ++ [IBackward 7]) (s0 odd_num) /\ (exists st, run odd_num p82 g0 = Ok st) /\ run odd_num (p82 ++ [IBackward 7]) g0 = Panic /\
  (exists ls, lrun p82 [] = Some ls /\
    map (fun l => (l_rg l, l_sh l, l_st l)) ls =
      [(true, [2; 3], [3; 1]); (true, [3; 2], [1; 3]); (true, [3; 2], [2; 1]); (true, [6], [1]); (false, [1], [1]); (true, [6], [1]); (true, [3; 2], [2; 1]); (true, [2; 3], [1; 2])] /\
    map (fun l => stuck (l_flow l) (l_sh l) (row_major (l_sh l))) ls = [false; false; false; false; false; false; false; true]).
Proof.
  split; [admit_program|]. split; [eexists; vm_compute; reflexivity|]. split; [vm_compute; reflexivity|].
  eexists. split; [vm_compute; reflexivity|]. vm_compute. split; reflexivity.
Qed.
