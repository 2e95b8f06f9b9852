(** BlackboxKern.v: the engine with any operators on arrays (BuildsGrad.v) runs in the same way over
    any two element types whose values and operators are related.  No function of the library
    is modelled here. *)
From Coq Require Import List Arith Lia Bool ZArith.
From Verif Require Import Base Layout Views Kernels Access Reduce Einsum SpecGrad Autograd Param Blackbox BlackboxGrad BuildsGrad.
Import ListNotations.
Open Scope res_scope.

Section Kern.
  Context {T U : Type}.
  Variable R : T -> U -> Prop.
  Variables (N : num T) (N' : num U) (D : Prop).
  Hypothesis NR : num_rel R N N' D.
  Variables (K : kern T) (K' : kern U).

  (** the operators take related memories to related memories, and return the same array *)
  Record kern_rel : Prop := mkKR {
    kr_bin : forall o h h' a b, (o = BDiv -> D) -> hr R h h' -> rres (ar R) (k_bin K o h a b) (k_bin K' o h' a b);
    kr_scal : forall o h h' a c c', (o = BDiv -> D) -> hr R h h' -> R c c' -> rres (ar R) (k_scal K o h a c) (k_scal K' o h' a c');
    kr_neg : forall h h' a, hr R h h' -> rres (ar R) (k_neg K h a) (k_neg K' h' a);
    kr_dot : forall h h' a b, hr R h h' -> rres (ar R) (k_dot K h a b) (k_dot K' h' a b);
    kr_matmul : forall h h' a b, hr R h h' -> rres (ar R) (k_matmul K h a b) (k_matmul K' h' a b);
    kr_bmm : forall h h' a b, hr R h h' -> rres (ar R) (k_bmm K h a b) (k_bmm K' h' a b);
    kr_add : forall h h' a b, hr R h h' -> rres (hr R) (k_add K h a b) (k_add K' h' a b) }.
  Hypothesis KR : kern_rel.

  Section Backward.
  Variable leaves : list arr.
  Variables (nodes : list (gnode T)) (nodes' : list (gnode U)).
  Hypothesis ND : Forall2 (gr R D) nodes nodes'.
  Lemma kg_bw fuel : forall busy h h' x g, hr R h h' -> rres (hr R) (kbw N K leaves nodes fuel busy h x g) (kbw N' K' leaves nodes' fuel busy h' x g).
  Proof.
    induction fuel as [|fuel IH]; intros busy h h' x g H; cbn [kbw]; [exact I|]. destruct x as [|k|m]; [exact H| |].
    - destruct (nth_error leaves k) as [a|]; [|exact I]. destruct (list_eqb _ _); [|exact I]. now apply (kr_add KR).
    - destruct (existsb _ _); [exact I|]. pose proof (F2_nth _ _ _ ND m) as E. destruct (nth_error nodes m) as [n|], (nth_error nodes' m) as [n'|]; cbn [orel] in E; try tauto; try exact I.
      assert (Q : rc R (fun h r g => kbw N K leaves nodes fuel (m :: busy) h r g) (fun h r g => kbw N' K' leaves nodes' fuel (m :: busy) h r g)) by (intros ? ? ? ? HH; now apply IH).
      assert (ID : forall a, ev R (fun h => Ok (h, a)) (fun h => Ok (h, a))) by (intros a k k' HK; now split).
      destruct E as [x y sx sy|x y sx sy|x y l r|x sh c c' C|x y l r HD|x sh c c' C|x sh|x y l r|x y l r|x y l r|x y l r|x sh|x a1 a2].
      + eapply rbind; [apply (bg_next_shape R N N' D NR); auto|]. intros h1 h1' H1. apply (bg_next_shape R N N' D NR); auto.
      + eapply rbind; [apply (bg_next_shape R N N' D NR); auto|]. intros h1 h1' H1. apply (bg_next_shape R N N' D NR); auto. intros k k' HK. now apply (kr_neg KR).
      + eapply rbind; [apply (bg_next_shape R N N' D NR); auto; intros k k' HK; now apply (kr_bin KR)|]. intros h1 h1' H1. apply (bg_next_shape R N N' D NR); auto. intros k k' HK. now apply (kr_bin KR).
      + apply (bg_next_shape R N N' D NR); auto. intros k k' HK. now apply (kr_scal KR).
      + destruct (is_none x).
        * apply (bg_next_shape R N N' D NR); auto. intros k k' HK. apply (bg_pair R); [now apply (kr_neg KR)|]. intros k1 k1' nl K1. apply (bg_pair R); [now apply (kr_bin KR)|]. intros k2 k2' p K2.
          apply (bg_pair R); [now apply (kr_bin KR)|]. intros k3 k3' q K3. now apply (kr_bin KR).
        * apply (bg_pair R); [apply (bb_nd_scalar R); [assumption|apply NR]|]. intros k1 k1' on K1. apply (bg_pair R); [now apply (kr_bin KR)|]. intros k2 k2' rcp K2. apply (bg_pair R); [now apply (kr_bin KR)|]. intros k3 k3' lg K3.
          eapply rbind; [apply (bg_next_shape R N N' D NR); auto|]. intros h4 h4' H4. apply (bg_next_shape R N N' D NR); auto. intros k k' HK.
          apply (bg_pair R); [now apply (kr_bin KR)|]. intros j j' p J. apply (bg_pair R); [now apply (kr_neg KR)|]. intros j1 j1' nl J1. now apply (kr_bin KR).
      + apply (bg_pair R); [now apply (kr_scal KR)|]. intros k1 k1' g1 K1. apply (bg_next_shape R N N' D NR); auto.
      + apply (bg_next_shape R N N' D NR); auto. intros k k' HK. now apply (kr_neg KR).
      + eapply rbind; [apply (bg_next R); auto; intros k k' HK; now apply (kr_bin KR)|]. intros h1 h1' H1. apply (bg_next R); auto. intros k k' HK. now apply (kr_bin KR).
      + eapply rbind; [apply (bg_next R); auto; intros k k' HK; apply rsame; intros; now apply (kr_bin KR)|]. intros h1 h1' H1. apply (bg_next R); auto. intros k k' HK. apply rsame; intros; now apply (kr_matmul KR).
      + eapply rbind; [apply (bg_next R); auto; intros k k' HK; apply rsame; intros; now apply (kr_matmul KR)|]. intros h1 h1' H1. apply (bg_next R); auto. intros k k' HK. apply rsame; intros; now apply (kr_matmul KR).
      + eapply rbind; [apply (bg_next R); auto; intros k k' HK; apply rsame; intros; now apply (kr_bmm KR)|]. intros h1 h1' H1. apply (bg_next R); auto. intros k k' HK. apply rsame; intros; now apply (kr_bmm KR).
      + apply (bg_next R); auto. intros k k' HK. apply rsame; intros. now split.
      + apply (bg_next R); auto. intros k k' HK. apply rsame; intros. now split.
  Qed.
  End Backward.

  Lemma kg_run_bw s s' h h' y g : gsr R D s s' -> hr R h h' -> rres (gsr R D) (krun_bw N K s h y g) (krun_bw N' K' s' h' y g).
  Proof.
    intros (H1 & H2 & H3 & H4) H. unfold krun_bw. rewrite H2, (F2_len _ _ _ H3). eapply rbind; [apply (kg_bw); eassumption|]. intros k k' HK. (split; [|split; [|split]]); cbn; auto.
  Qed.
  Lemma kg_exec s s' i i' : gsr R D s s' -> ir R D i i' -> rres (gsr R D) (kexec N K s i) (kexec N' K' s' i').
  Proof.
    intros S E. pose proof S as (H1 & H2 & H3 & H4). destruct E; cbn [kexec]; rewrite ?H4.
    - apply bg_pair with (R := R); [now apply bg_new|]. intros h h' a HH. (split; [|split; [|split]]); cbn; auto; congruence.
    - apply rsame; intros x _. destruct (t_rg x), b; try exact S.
      + apply rsame; intros ts _. (split; [|split; [|split]]); cbn; auto.
      + apply bg_pair with (R := R); [apply bb_nd_full; [exact H1|apply NR]|]. intros h h' g HH. rewrite H2. apply rsame; intros ts _. (split; [|split; [|split]]); cbn; auto.
    - apply rsame; intros x _. apply bg_pair with (R := R); [apply (kr_neg KR); auto|]. intros h h' a HH. apply bg_push; auto. intros _. constructor.
    - apply rsame; intros x _. apply rsame; intros y _. apply bg_pair with (R := R); [apply (kr_bin KR); auto|]. intros h h' a HH. apply bg_push; auto. intros _. destruct o; constructor; auto.
    - apply rsame; intros x _. apply bg_pair with (R := R); [apply (kr_scal KR); assumption|]. intros h h' a A. destruct o; try (now apply bg_push_same); apply bg_push; auto; intros _; constructor; auto.
      apply (nr_bop _ _ _ _ NR BDiv); [auto|apply NR|assumption].
    - apply rsame; intros x _. apply rsame; intros y _. apply bg_pair with (R := R); [apply (kr_dot KR); auto|]. intros h h' a HH. apply bg_push; auto. intros _. constructor.
    - apply rsame; intros x _. apply rsame; intros y _. destruct (_ && _).
      + apply bg_pair with (R := R); [apply (kr_dot KR); auto|]. intros h h' a HH. apply bg_push; auto. intros _. constructor.
      + apply bg_pair with (R := R); [apply (kr_matmul KR); auto|]. intros h h' a HH. destruct (_ || _); [|apply bg_push; auto; intros _; constructor].
        destruct (_ && _); [apply bg_push; auto; intros _; constructor|]. destruct (_ && _); [apply bg_push; auto; intros _; constructor|exact I].
    - apply rsame; intros x _. apply rsame; intros y _. apply bg_pair with (R := R); [apply (kr_bmm KR); auto|]. intros h h' a HH. apply bg_push; auto. intros _. constructor.
    - apply rsame; intros x _. apply bg_pair with (R := R); [now apply bg_via_array|]. intros h h' a HH. now apply bg_push_same.
    - apply rsame; intros x _. destruct (list_eqb _ _).
      + apply bg_pair with (R := R); [now apply bg_via_array|]. intros h h' a HH. now apply bg_push_same.
      + apply bg_pair with (R := R); [now apply bg_via_strides|]. intros h h' a HH. apply bg_push; auto. intros _. constructor.
    - apply rsame; intros x _. apply bg_pair with (R := R); [now apply bg_via_strides|]. intros h h' a HH. apply bg_push; auto. intros _. constructor.
    - apply rsame; intros x _. apply bg_pair with (R := R); [now apply bg_via_strides|]. intros h h' b HH. apply bg_push; auto. intros _. constructor.
    - apply rsame; intros x _. apply bg_pair with (R := R); [now apply bg_via_array|]. intros h h' a HH. apply bg_push; auto. intros _. constructor.
    - apply rsame; intros y _. apply bg_pair with (R := R); [apply bb_nd_full; [exact H1|apply NR]|]. intros h h' g HH. now apply kg_run_bw.
    - apply rsame; intros y _. apply bg_pair with (R := R); [eapply bg_seed; eassumption|]. intros h h' g HK. apply rsame; intros _ _. now apply kg_run_bw.
    - apply rsame; intros x _. destruct (t_fn x); try exact S. rewrite H2. apply rsame; intros a _. eapply rbind; [apply (bb_nd_fill R); [exact H1|apply NR]|].
      intros h h' H. (split; [|split; [|split]]); cbn; auto.
  Qed.
  Theorem krun_rel p p' : Forall2 (ir R D) p p' -> forall s s', gsr R D s s' -> rres (gsr R D) (krun N K p s) (krun N' K' p' s').
  Proof.
    induction 1 as [|i i' p p' E F IH]; intros s s' S; cbn [krun]; [exact S|].
    eapply rbind; [now apply kg_exec|]. intros t t' E2. now apply IH.
  Qed.
End Kern.
