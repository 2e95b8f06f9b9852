(** PropsGradOrder.v: any number of backward calls, in any order (C34). *)
From Coq Require Import List Arith Lia Bool ZArith Permutation.
From Verif Require Import Base Spec Layout SpecFacts LayoutFacts Views ViewsFacts Kernels Access HeapFacts Chain
  SpecGrad Autograd GradMath GradFacts GradFacts2 GradFacts3 GradFacts4 GradFacts5 PropsGrad PropsGrad2.
Import ListNotations.
Open Scope nat_scope.
Open Scope res_scope.

Section Order.
  Context {T : Type} (N : num T) (inv0 : T -> T).
  Hypothesis F : is_field N inv0.
  Add Ring T_ring_order : (field_ring N inv0 F).

  (** same tensors and same gradients, point by point *)
  Definition same (s1 s2 : sstate (T := T)) : Prop :=
    s_ts s1 = s_ts s2 /\ s_leaves s1 = s_leaves s2 /\ forall k idx, s_G s1 k idx = s_G s2 k idx.
  Lemma same_trans s1 s2 s3 : same s1 s2 -> same s2 s3 -> same s1 s3.
  Proof. intros (A & B & C) (A' & B' & C'). split; [congruence|]. split; [congruence|]. intros. now rewrite C. Qed.
  Lemma same_step b s1 s2 : is_backward b -> same s1 s2 -> same (sstep N s1 b) (sstep N s2 b).
  Proof.
    intros B (A1 & A2 & A3). destruct (backward_adds N inv0 F b B s1) as (f & H). cbv zeta in H.
    destruct s1 as [ts lv G1], s2 as [ts' lv' G2]. cbn [s_ts s_leaves s_G] in *. subst ts' lv'.
    destruct (H G1) as (B1 & B2 & B3). destruct (H G2) as (C1 & C2 & C3).
    split; [congruence|]. split; [congruence|]. intros k idx. now rewrite B3, C3, A3.
  Qed.
  Lemma same_run bs : forall s1 s2, Forall is_backward bs -> same s1 s2 -> same (srun N bs s1) (srun N bs s2).
  Proof.
    induction bs as [|b bs IH]; intros s1 s2 B S; [exact S|]. inversion B; subst. cbn [srun fold_left].
    apply (IH (sstep N s1 b)); auto using same_step.
  Qed.
  Lemma same_refl s : same s s.
  Proof. repeat split. Qed.
  Lemma same_swap x y s : is_backward x -> is_backward y -> same (sstep N (sstep N s y) x) (sstep N (sstep N s x) y).
  Proof.
    intros X Y. destruct (backward_swap N inv0 F y x s Y X) as (W1 & W2 & W3). split; [congruence|]. split; [|exact W3].
    assert (LV : forall b u, is_backward b -> s_leaves (sstep N u b) = s_leaves u).
    { intros b u Bb. destruct (backward_adds N inv0 F b Bb u) as (f & H). destruct (H (s_G u)) as (_ & E & _). now destruct u. }
    now rewrite !LV.
  Qed.
  Lemma perm_same bs bs' : Permutation bs bs' -> Forall is_backward bs -> forall s, same (srun N bs s) (srun N bs' s).
  Proof.
    induction 1 as [|x l l' P IH|x y l|l l' l'' P1 IH1 P2 IH2]; intros B s.
    - apply same_refl.
    - inversion B; subst. cbn [srun fold_left]. now apply IH.
    - inversion B as [|? ? BY B']; subst. inversion B' as [|? ? BX B'']; subst. cbn [srun fold_left].
      apply (same_run l); [assumption|]. now apply same_swap.
    - apply (same_trans _ (srun N l' s)); [now apply IH1|]. apply IH2. eapply Permutation_Forall; eauto.
  Qed.

  Lemma backwards_admissible bs : forall s, Forall is_backward bs -> small s -> admissible N bs s.
  Proof.
    induction bs as [|b bs IH]; intros s B S; [exact I|]. inversion B; subst.
    pose proof (backward_small N inv0 F b s H1 S) as S'. split; [now apply backward_scope|]. split; [exact S'|]. now apply IH.
  Qed.
  Lemma backwards_ts bs : forall st st', Forall is_backward bs -> run N bs st = Ok st' -> g_ts st' = g_ts st /\ g_leaves st' = g_leaves st.
  Proof.
    induction bs as [|b bs IH]; intros st st' B R; cbn [run] in R; [apply Ok_inj in R; subst; auto|]. inversion B; subst.
    destruct (exec N st b) as [u| |] eqn:X; try discriminate. cbn [bind] in R.
    destruct (backward_ts N _ _ _ H1 X) as [T1 L1]. destruct (IH _ _ H2 R) as [T2 L2]. split; congruence.
  Qed.
End Order.

(** ** C34: after any admissible program, any list of backward calls and any rearrangement of it
    give the same gradients *)
Theorem C34_any_order_partial : forall T (N : num T) inv, is_field N inv -> forall p st bs bs' st1 st2,
  admissible N p (s0 N) -> run N p g0 = Ok st -> Forall is_backward bs -> Permutation bs bs' ->
  run N bs st = Ok st1 -> run N bs' st = Ok st2 ->
  g_ts st1 = g_ts st2 /\ forall t, In t (g_ts st1) -> t_gradient st1 t = t_gradient st2 t /\
    forall a, t_gradient st1 t = Some a -> forall idx, in_range idx (a_shape a) ->
      exists v, get (g_heap st1) a idx = Ok v /\ get (g_heap st2) a idx = Ok v.
Proof.
  intros T N inv F p st bs bs' st1 st2 A E B P R1 R2. destruct (run_sim N inv F p st A E) as (Gh & SM). set (ss := srun N p (s0 N)) in *.
  pose proof (sim_small N _ _ _ SM) as SS. assert (B' : Forall is_backward bs') by (eapply Permutation_Forall; eauto).
  destruct (run_ok N inv F bs st ss Gh SM (backwards_admissible N inv F bs ss B SS)) as [Q|(w & Gh1 & Q & SM1)]; [congruence|]. rewrite R1 in Q. apply Ok_inj in Q. subst w.
  destruct (run_ok N inv F bs' st ss Gh SM (backwards_admissible N inv F bs' ss B' SS)) as [Q|(w & Gh2 & Q & SM2)]; [congruence|]. rewrite R2 in Q. apply Ok_inj in Q. subst w.
  destruct (backwards_ts N bs st st1 B R1) as [T1 L1]. destruct (backwards_ts N bs' st st2 B' R2) as [T2 L2].
  split; [congruence|]. intros t I. assert (TG : t_gradient st1 t = t_gradient st2 t) by (unfold t_gradient; rewrite L1, L2; reflexivity).
  split; [exact TG|]. intros a Ta idx R. apply In_nth_error in I as (n & En). assert (En2 : nth_error (g_ts st2) n = Some t) by congruence.
  destruct (agrees_nth N _ _ _ _ (sim_agrees N _ _ _ SM1) En) as (s1 & Es1 & (_ & _ & G1)).
  destruct (agrees_nth N _ _ _ _ (sim_agrees N _ _ _ SM2) En2) as (s2 & Es2 & (_ & _ & G2)).
  destruct (perm_same N inv F bs bs' P B ss) as (W1 & _ & W3). rewrite W1, Es2 in Es1. injection Es1 as <-.
  destruct (s_leaf s2) as [k|]; [|congruence]. destruct G1 as (a1 & Q1 & H1 & V1). destruct G2 as (a2 & Q2 & H2 & V2).
  assert (a1 = a) by congruence. assert (a2 = a) by congruence. subst a1 a2. rewrite H1 in R.
  eexists. split; [apply V1; auto|]. rewrite W3. now apply V2.
Qed.
Print Assumptions C34_any_order_partial.

(** three calls on the program of C34_ex, rotated *)
Example C34_any_order_ex : let p := firstn 7 exp1 in let bs := [IBackward 4; IBackwardWith 2 (SVal 0); IBackward 2] in
  admissible ZN p (s0 ZN) /\ Forall is_backward bs /\
  grad_of ZN (p ++ bs) 0 = grad_of ZN (p ++ [IBackwardWith 2 (SVal 0); IBackward 2; IBackward 4]) 0 /\
  exists g, grad_of ZN (p ++ bs) 0 = Ok g /\ grad_of ZN (p ++ [IBackward 4; IBackwardWith 2 (SVal 0)]) 0 <> Ok g.
Proof.
  split; [admit_program|]. split; [repeat constructor|]. split; [vm_compute; reflexivity|].
  eexists. split; [vm_compute; reflexivity|]. vm_compute. discriminate.
Qed.
