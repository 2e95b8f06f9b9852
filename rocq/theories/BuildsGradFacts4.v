(** BuildsGradFacts4.v: tensor programs in every build. *)
From Coq Require Import List Arith Lia Bool ZArith Permutation.
From Verif Require Import Base Spec Layout SpecFacts LayoutFacts Views ViewsFacts ViewsFacts2 ViewsFacts3 ViewsFacts4
  Kernels Access HeapFacts KernelFacts OpFacts AccessFacts Chain ChainFacts Reduce ReduceFacts Einsum EinsumFacts2 EinsumParse
  Simd SimdOps SimdSop Vendor VendorFacts Vdsp VdspFacts PropsProg
  PropsViews PropsOps PropsReduce PropsEinsum SpecGrad Autograd GradMath GradFacts GradFacts2 GradFacts3 GradFacts4 GradFacts5 Builds BuildsFacts BuildsGrad BuildsGradFacts BuildsGradFacts2
  BuildsGradFacts3.
Import ListNotations.
Open Scope res_scope.

Section Programs.
  Context {T : Type} (N : num T) (inv0 : T -> T).
  Hypothesis F : is_field N inv0.
  Variable B : @build T.
  Hypothesis BOK : build_ok (nop N) B.
  Hypothesis TM : tame B.
  Implicit Types h : heap T.
  Local Notation K := (built N B).

  (** what holds beside [Sim] *)
  Definition tidy (st : @gstate T) : Prop := Forall (fun t => compact (t_arr t)) (g_ts st) /\ Forall (node_fit B) (g_nodes st).

  (** *** views *)
  Definition op_compact (op : mode -> arr -> res arr) : Prop :=
    forall h a sh v m r, good (T := T) h a sh v -> op m a = Ok r -> compact a -> compact r.
  Lemma cast_compact a : compact a -> compact (lifetime_cast a).
  Proof. now apply compact_same. Qed.
  Lemma via_array_compact op m h a sh v h1 r : op_compact op -> good h a sh v -> length sh <= MAX_DIMS -> compact a -> via_array m op h a = Ok (h1, r) -> compact r.
  Proof.
    intros O G MD C E. unfold via_array in E. destruct m.
    - destruct (op ByRef a) as [x| |] eqn:Q; try discriminate. cbn [bind] in E. injection E as <- <-. apply cast_compact. eapply O; eauto.
    - destruct (op ByValue a) as [x| |] eqn:Q; try discriminate. cbn [bind] in E. injection E as <- <-. eapply O; eauto.
    - destruct (clone_made h a sh v G MD) as (h2 & E1 & M). rewrite E1 in E. cbn [bind] in E.
      destruct (op ByValue _) as [x| |] eqn:Q; try discriminate. cbn [bind] in E. injection E as <- <-. eapply O; [apply M|eauto|].
      apply compact_rmaj; [|apply M]. cbn [fresh_arr a_shape]. now apply good_pos in G.
  Qed.
  Lemma via_strides_compact op m h a sh v h1 r : op_compact op -> good h a sh v -> length sh <= MAX_DIMS -> compact a -> via_strides m op h a = Ok (h1, r) -> compact r.
  Proof.
    intros O G MD C E. destruct m; [exact (via_array_compact op TRef h a sh v h1 r O G MD C E)|exact (via_array_compact op TMove h a sh v h1 r O G MD C E)|].
    cbn [via_strides] in E. destruct (op ByValue a) as [x| |] eqn:Q; try discriminate. cbn [bind] in E.
    destruct (nd_clone h a) as [[h2 a2]| |]; try discriminate. cbn [bind] in E. injection E as <- <-.
    apply (compact_same x); [reflexivity|reflexivity|]. eapply O; eauto.
  Qed.
  Lemma view_cp : op_compact (fun m a => Ok (nd_view m a)).
  Proof. intros h a sh v m r _ E C. injection E as <-. now apply compact_view. Qed.
  Lemma reshape_cpt sh' : op_compact (fun m a => nd_reshape m a sh').
  Proof. intros h a sh v m r G E C. eapply compact_reshape; eauto. Qed.
  Lemma squeeze_cpt : op_compact (fun m a => Ok (nd_squeeze m a)).
  Proof. intros h a sh v m r G E C. injection E as <-. eapply compact_squeeze; eauto. Qed.
  Lemma unsqueeze_cpt axis : op_compact (fun m a => nd_unsqueeze m a axis).
  Proof. intros h a sh v m r G E C. eapply compact_unsqueeze; eauto. Qed.
  Lemma transpose_cpt a1 a2 : op_compact (fun m a => nd_transpose m a a1 a2).
  Proof. intros h a sh v m r G E C. eapply compact_transpose; eauto. Qed.

  Lemma vset_tidy (P : tensor -> Prop) : forall l i x ts, Forall P l -> P x -> vset l i x = Ok ts -> Forall P ts.
  Proof.
    intros l i x ts H Px E. unfold vset in E. destruct (upd l i x) as [l'|] eqn:Q; [injection E as <-|discriminate].
    revert i l' Q. induction H as [|y l Hy H IH]; intros [|i] l' Q; try discriminate; cbn [upd] in Q; [injection Q as <-; now constructor|].
    destruct (upd l i x) as [l2|] eqn:Q2; [|discriminate]. injection Q as <-. constructor; eauto.
  Qed.

  Section Step.
    Variables (st : @gstate T) (ss : @sstate T) (Gh : list (list nat * (@pert T -> list nat -> T))).
    Hypothesis SM : Sim N st ss Gh.
    Hypothesis TD : tidy st.
    Local Notation lv := (g_leaves st). Local Notation Lsh := (s_leaves ss). Local Notation hp := (g_heap st).
    Local Notation tok := (tensor_ok N lv Lsh Gh hp).

    Lemma get2 i : vget (g_ts st) i = Panic \/ exists x s, vget (g_ts st) i = Ok x /\ nth_error (s_ts ss) i = Some s /\ tok x s /\ compact (t_arr x).
    Proof.
      destruct (get1 N st ss Gh SM i) as [E|(x & s & E1 & E2 & E3 & Kx)]; [now left|]. right. exists x, s. split; [auto|]. split; [auto|]. split; [auto|].
      destruct TD as [H _]. rewrite Forall_forall in H. apply H. eapply nth_error_In; eauto.
    Qed.
    Lemma tok_good x s : tok x s -> good hp (t_arr x) (s_shape s) (sv N s).
    Proof. intros Kx. exact (proj1 (k_good _ _ _ _ _ _ _ Kx)). Qed.
    Lemma tok_sh x s : tok x s -> a_shape (t_arr x) = s_shape s.
    Proof. intros Kx. exact (good_shape _ _ _ _ (tok_good x s Kx)). Qed.
    Lemma tok_md x s : tok x s -> length (s_shape s) <= MAX_DIMS.
    Proof. intros Kx. exact (k_md _ _ _ _ _ _ _ Kx). Qed.
    Lemma tok_fit x s : tok x s -> compact (t_arr x) -> (blas B <> None -> wide (s_shape s)) -> fit B (t_arr x).
    Proof. intros Kx C W Q. split; [auto|]. rewrite (tok_sh _ _ Kx). auto. Qed.

    (** *** each instruction does the same *)
    Lemma krun_bw_eq y s h1 g ga : tok y s -> extends hp h1 -> sgood lv h1 g (s_shape s) ga -> compact g ->
      krun_bw N K st h1 y g = run_bw N st h1 y g.
    Proof.
      intros Ky X G C. unfold krun_bw, run_bw. pose proof (keeps_extends lv _ _ X) as KX.
      destruct (kbw_eq N inv0 F B BOK TM lv Lsh (g_nodes st) Gh) with (fuel := S (length (g_nodes st))) (busy := @nil nat) (h := h1) (r := t_fn y) (sh := s_shape s) (D := sd s) (g := g) (ga := ga) (Gs := s_G ss) as [E _].
      - intros m nd E. destruct TD as [_ H]. rewrite Forall_forall in H. apply H. eapply nth_error_In; eauto.
      - apply (m_len _ _ _ _ SM).
      - pose proof (tok_op N st ss Gh SM _ _ Ky) as (_ & H & _). lia.
      - intros b [].
      - apply Ky. - apply Ky. - exact G. - exact C.
      - eapply nodes_keeps; [apply (m_nodes _ _ _ _ SM)|auto].
      - eapply lives_extends; [apply (m_lives _ _ _ _ SM)|auto].
      - now rewrite E.
    Qed.

    Ltac two i x s Kx Cx := destruct (get2 i) as [->|(x & s & -> & ? & Kx & Cx)]; cbn [bind]; [reflexivity|].

    Theorem kexec_eq i : in_scope ss i -> bfine N B ss i -> kexec N K st i = exec N st i.
    Proof.
      intros SC BF. destruct i as [sh data|i b|i|o i j|o i c|i j|i j|i j|m i|m i sh'|m i|m i axis|m i a1 a2|i|i sd0|i]; cbn [kexec exec].
      - reflexivity.
      - reflexivity.
      - two i x s Kx Cx. now rewrite (kb_neg N B BOK _ _ _ _ (tok_good _ _ Kx)).
      - two i x sx Kx Cx. two j y sy Ky Cy. now rewrite (kb_bin N B BOK _ _ _ _ _ _ _ _ (tok_good _ _ Kx) (tok_good _ _ Ky)).
      - two i x s Kx Cx. now rewrite (kb_scal N B BOK _ _ _ _ _ _ (tok_good _ _ Kx)).
      - two i x sx Kx Cx. two j y sy Ky Cy. cbn [bfine] in BF.
        rewrite (kb_dot N inv0 F B BOK _ _ _ _ _ _ _ (tok_good _ _ Kx) (tok_good _ _ Ky) (tok_md _ _ Kx)); [reflexivity| |].
        + apply (tok_fit _ _ Kx Cx). intros Q. now apply (BF Q sx sy). + apply (tok_fit _ _ Ky Cy). intros Q. now apply (BF Q sx sy).
      - two i x sx Kx Cx. two j y sy Ky Cy. cbn [bfine] in BF.
        assert (Fx : fit B (t_arr x)) by (apply (tok_fit _ _ Kx Cx); intros Q; now apply (BF Q sx sy)).
        assert (Fy : fit B (t_arr y)) by (apply (tok_fit _ _ Ky Cy); intros Q; now apply (BF Q sx sy)).
        rewrite (kb_dot N inv0 F B BOK _ _ _ _ _ _ _ (tok_good _ _ Kx) (tok_good _ _ Ky) (tok_md _ _ Kx) Fx Fy).
        now rewrite (kb_matmul N inv0 F B BOK TM _ _ _ _ _ _ _ (tok_good _ _ Kx) (tok_good _ _ Ky) (tok_md _ _ Kx) (tok_md _ _ Ky) Fx Fy).
      - two i x sx Kx Cx. two j y sy Ky Cy. cbn [bfine] in BF.
        rewrite (kb_bmm N inv0 F B BOK TM _ _ _ _ _ _ _ (tok_good _ _ Kx) (tok_good _ _ Ky) (tok_md _ _ Kx) (tok_md _ _ Ky)); [reflexivity| | |].
        + apply (tok_fit _ _ Kx Cx). intros Q. now apply (BF Q sx sy). + apply (tok_fit _ _ Ky Cy). intros Q. now apply (BF Q sx sy).
        + intros Q. now apply (BF Q sx sy).
      - reflexivity.
      - reflexivity.
      - reflexivity.
      - reflexivity.
      - reflexivity.
      - two i y s Ky Cy. rewrite (tok_sh _ _ Ky).
        destruct (nd_full_made hp (n1 N) (s_shape s) (good_prod _ _ _ _ (tok_good _ _ Ky))) as (h1 & g & E1 & M & _).
        rewrite E1. cbn [bind]. pose proof (made_sgood _ _ _ _ _ _ _ _ (m_lives _ _ _ _ SM) M) as Gg.
        apply (krun_bw_eq y s h1 g _ Ky (proj1 M) Gg). eapply sgood_rmaj; [exact Gg|apply M].
      - two i y s Ky Cy. rewrite (tok_sh _ _ Ky). destruct sd0 as [sh data|sh data to|j|j]; cbn in SC; [|contradiction| |contradiction]; cbn [seed_arr].
        + destruct (new_array_made hp sh data (n0 N)) as [(h1 & g & E1 & M)|E1]; rewrite E1; cbn [bind]; [|reflexivity].
          assert (SG : a_shape g = sh) by (apply (good_shape _ _ _ _ (proj1 (proj2 (proj2 M))))). rewrite SG.
          destruct (list_eqb sh (s_shape s)) eqn:Q; cbn [guard bind]; [|reflexivity]. apply list_eqb_spec in Q.
          pose proof (made_sgood _ _ _ _ _ _ _ _ (m_lives _ _ _ _ SM) M) as Gg. assert (CG : compact g) by (eapply sgood_rmaj; [exact Gg|apply M]). rewrite Q in Gg.
          exact (krun_bw_eq y s h1 g _ Ky (proj1 M) Gg CG).
        + two j z sz Kz Cz. rewrite (tok_sh _ _ Kz).
          destruct (list_eqb (s_shape sz) (s_shape s)) eqn:Q; cbn [guard bind]; [|reflexivity]. apply list_eqb_spec in Q.
          pose proof (k_good _ _ _ _ _ _ _ Kz) as Gz. rewrite Q in Gz. exact (krun_bw_eq y s hp (t_arr z) _ Ky (ext_refl hp) Gz Cz).
      - reflexivity.
    Qed.

    (** *** and leaves tidy states tidy *)
    Lemma push_op_tidy h a rg nd : compact a -> node_fit B nd -> tidy (push_op st h a rg nd).
    Proof.
      intros C NF. destruct TD as [H1 H2]. unfold push_op. destruct rg; split; cbn [g_ts g_nodes]; auto; apply Forall_app; split; auto.
    Qed.
    Lemma push_same_tidy h a x : compact a -> tidy (push_same st h a x).
    Proof. intros C. destruct TD as [H1 H2]. unfold push_same. split; cbn [g_ts g_nodes]; auto; apply Forall_app; split; auto. Qed.
    (** results in new buffers are row-major *)
    Lemma new_compact st' ss' s t ts Gh' : Sim N st' ss' Gh' -> s_ts ss' = s_ts ss ++ [s] -> s_rm s = true -> g_ts st' = ts ++ [t] -> compact (t_arr t).
    Proof.
      intros SM' ES RM ET. pose proof (m_ts _ _ _ _ SM') as H. rewrite ES, ET in H. apply Forall2_app_inv_r in H as (l1 & l2 & _ & H & Q).
      inversion H as [|t' ? l' ? TK H']; subst. inversion H'; subst. apply app_inj_tail in Q as [_ <-].
      apply compact_rmaj; [|now apply (k_rm _ _ _ _ _ _ _ TK)]. destruct (k_good _ _ _ _ _ _ _ TK) as [G _]. rewrite (good_shape _ _ _ _ G). now apply good_pos in G.
    Qed.
    Lemma push_op_ts h a rg nd : g_ts (push_op st h a rg nd) = g_ts st ++ [mkT a rg (if rg then RNode (length (g_nodes st)) else RNone)].
    Proof. unfold push_op. now destruct rg. Qed.
    Lemma run_bw_tidy h y g st' : run_bw N st h y g = Ok st' -> tidy st'.
    Proof. unfold run_bw. intros E. apply bind_Ok_inv in E as (h' & _ & E). injection E as <-. exact TD. Qed.

    Ltac get i x s Kx Cx X := let X' := fresh in let E := fresh "ES" in destruct (get2 i) as [X'|(x & s & X' & E & Kx & Cx)]; rewrite X' in X; clear X'; [discriminate|]; cbn [bind] in X.
    Ltac one X h a Ea := let r := fresh in apply bind_Ok_inv in X as (r & Ea & X); destruct r as [h a].

    Theorem exec_tidy i st' : in_scope ss i -> small (sstep N ss i) -> bfine N B ss i -> exec N st i = Ok st' -> tidy st'.
    Proof.
      intros SC SMALL BF X. destruct (exec_ok N inv0 F st ss Gh SM i SC SMALL) as [E|(st2 & Gh' & E & SM')]; [congruence|].
      rewrite X in E. apply Ok_inj in E. subst st2. clear SMALL.
      destruct i as [sh data|i b|i|o i j|o i c|i j|i j|i j|m i|m i sh'|m i|m i axis|m i a1 a2|i|i sd0|i]; cbn [exec] in X.
      - one X h a Ea. apply Ok_inj in X; subst st'. destruct TD as [H1 H2]. split; cbn [g_ts g_nodes]; auto. apply Forall_app; split; auto. constructor; [|constructor].
        eapply (new_compact _ _ _ (mkT a false RNone)); [exact SM'|reflexivity|reflexivity|reflexivity].
      - get i x s Kx Cx X. destruct TD as [H1 H2]. destruct (t_rg x), b; try (apply Ok_inj in X; subst st'; now split).
        + apply bind_Ok_inv in X as (ts & Et & X). apply Ok_inj in X; subst st'. split; cbn [g_ts g_nodes]; auto. eapply (vset_tidy (fun t => compact (t_arr t))); [exact H1| |exact Et]. exact Cx.
        + one X h g Eg. apply bind_Ok_inv in X as (ts & Et & X). apply Ok_inj in X; subst st'. split; cbn [g_ts g_nodes]; auto. eapply (vset_tidy (fun t => compact (t_arr t))); [exact H1| |exact Et]. exact Cx.
      - get i x s Kx Cx X. one X h a Ea. apply Ok_inj in X; subst st'. apply push_op_tidy; [|now intros _]. cbn [sstep] in SM'. unfold with1 in SM'. rewrite ES in SM'.
        exact (new_compact _ _ _ (mkT a _ _) _ _ SM' eq_refl eq_refl (push_op_ts _ _ _ _)).
      - get i x sx Kx Cx X. get j y sy Ky Cy X. one X h a Ea. apply Ok_inj in X; subst st'. apply push_op_tidy; [|intros _; now destruct o].
        cbn [sstep] in SM'. unfold with2, with1 in SM'. rewrite ES, ES0 in SM'. exact (new_compact _ _ _ (mkT a _ _) _ _ SM' eq_refl eq_refl (push_op_ts _ _ _ _)).
      - get i x s Kx Cx X. one X h a Ea. cbn [sstep] in SM'. unfold with1 in SM'. rewrite ES in SM'.
        destruct o; apply Ok_inj in X; subst st'.
        + apply push_same_tidy. exact (new_compact _ _ _ (mkT a _ _) _ _ SM' eq_refl eq_refl eq_refl).
        + apply push_same_tidy. exact (new_compact _ _ _ (mkT a _ _) _ _ SM' eq_refl eq_refl eq_refl).
        + apply push_op_tidy; [|now intros _]. exact (new_compact _ _ _ (mkT a _ _) _ _ SM' eq_refl eq_refl (push_op_ts _ _ _ _)).
        + apply push_op_tidy; [|now intros _]. exact (new_compact _ _ _ (mkT a _ _) _ _ SM' eq_refl eq_refl (push_op_ts _ _ _ _)).
      - get i x sx Kx Cx X. get j y sy Ky Cy X. one X h a Ea. apply Ok_inj in X; subst st'. apply push_op_tidy; [|now intros _].
        cbn [sstep] in SM'. unfold with2, with1 in SM'. rewrite ES, ES0 in SM'. exact (new_compact _ _ _ (mkT a _ _) _ _ SM' eq_refl eq_refl (push_op_ts _ _ _ _)).
      - get i x sx Kx Cx X. get j y sy Ky Cy X. cbn [bfine] in BF. cbn [sstep] in SM'. unfold with2, with1 in SM'. rewrite ES, ES0 in SM'.
        assert (Fx : fit B (t_arr x)) by (apply (tok_fit _ _ Kx Cx); intros Q; now apply (BF Q sx sy)).
        assert (Fy : fit B (t_arr y)) by (apply (tok_fit _ _ Ky Cy); intros Q; now apply (BF Q sx sy)).
        assert (W : blas B <> None -> wide (fst (m_product N (s_shape sx) (fun _ => n0 N) (s_shape sy) (fun _ => n0 N)))) by (intros Q; now apply (BF Q sx sy)).
        destruct ((length (a_shape (t_arr x)) =? 1) && (length (a_shape (t_arr y)) =? 1)).
        { one X h a Ea. apply Ok_inj in X; subst st'. apply push_op_tidy; [|now intros _]. exact (new_compact _ _ _ (mkT a _ _) _ _ SM' eq_refl eq_refl (push_op_ts _ _ _ _)). }
        one X h a Ea. destruct (t_rg x || t_rg y).
        + destruct ((length (a_shape (t_arr x)) =? 2) && (length (a_shape (t_arr y)) =? 1)) eqn:Q1; [|destruct ((length (a_shape (t_arr x)) =? 2) && (length (a_shape (t_arr y)) =? 2)) eqn:Q2; [|discriminate]];
            apply Ok_inj in X; subst st'; (apply push_op_tidy; [exact (new_compact _ _ _ (mkT a _ _) _ _ SM' eq_refl eq_refl (push_op_ts _ _ _ _))|]); intros Z; specialize (W Z); cbn [node_fit]; (split; [exact Fx|]); (split; [exact Fy|]);
            rewrite ?(tok_sh _ _ Kx), ?(tok_sh _ _ Ky) in *.
          * apply andb_prop in Q1 as [A1 A2]. apply Nat.eqb_eq in A1, A2. destruct (s_shape sx) as [|n [|k [|? ?]]]; try discriminate. destruct (s_shape sy) as [|p [|? ?]]; try discriminate. exact W.
          * apply andb_prop in Q2 as [A1 A2]. apply Nat.eqb_eq in A1, A2. destruct (s_shape sx) as [|n [|k [|? ?]]]; try discriminate. destruct (s_shape sy) as [|p [|q [|? ?]]]; try discriminate. exact W.
        + apply Ok_inj in X; subst st'. destruct TD as [H1 H2]. split; [|exact H2]. cbn [push_op g_ts]. apply Forall_app; split; auto. constructor; [|constructor].
          exact (new_compact _ _ _ (mkT a _ _) _ _ SM' eq_refl eq_refl (push_op_ts _ _ _ (NMatMul (t_fn x) (t_fn y) (t_arr x) (t_arr y)))).
      - get i x sx Kx Cx X. get j y sy Ky Cy X. cbn [bfine] in BF. cbn [sstep] in SM'. unfold with2, with1 in SM'. rewrite ES, ES0 in SM'. one X h a Ea. apply Ok_inj in X; subst st'.
        pose proof (new_compact _ _ _ (mkT a _ _) _ _ SM' eq_refl eq_refl (push_op_ts _ _ _ _)) as CA. cbn [t_arr] in CA. apply push_op_tidy; [exact CA|]. intros Z. destruct (BF Z sx sy ES ES0) as (Wx & Wy & W & CF).
        cbn [node_fit]. split; [now apply (tok_fit _ _ Kx Cx)|]. split; [now apply (tok_fit _ _ Ky Cy)|]. rewrite (tok_sh _ _ Kx), (tok_sh _ _ Ky).
        assert (SH : exists q n k q' k' p, s_shape sx = [q; n; k] /\ s_shape sy = [q'; k'; p]).
        { assert (P : match s_shape sx, s_shape sy with [q; _; _], [q'; _; _] => q <> q' | _, _ => True end -> False).
          { intros HP. destruct (C26_mismatch_panics T (n0 N) (n1 N) (lift2 (nadd N)) (lift2 (nmul N)) (lift3 (nadd N) (nmul N)) hp (t_arr x) (t_arr y)) as (_ & _ & H).
            rewrite (tok_sh _ _ Kx), (tok_sh _ _ Ky) in H. specialize (H HP). unfold a_bmm in Ea. rewrite H in Ea. discriminate. }
          destruct (s_shape sx) as [|q [|n [|k [|? ?]]]]; try (now destruct P). destruct (s_shape sy) as [|q' [|k' [|p [|? ?]]]]; try (now destruct P).
          exists q, n, k, q', k', p. auto. }
        destruct SH as (q & n & k & q' & k' & p & Zx & Zy). rewrite Zx, Zy in W |- *. exact W.
      - get i x s Kx Cx X. one X h a Ea. apply Ok_inj in X; subst st'. apply push_same_tidy. exact (via_array_compact _ _ _ _ _ _ _ _ view_cp (tok_good _ _ Kx) (tok_md _ _ Kx) Cx Ea).
      - get i x s Kx Cx X. destruct (list_eqb sh' (a_shape (t_arr x))); one X h a Ea; apply Ok_inj in X; subst st'.
        + apply push_same_tidy. exact (via_array_compact _ _ _ _ _ _ _ _ view_cp (tok_good _ _ Kx) (tok_md _ _ Kx) Cx Ea).
        + apply push_op_tidy; [|now intros _]. exact (via_strides_compact _ _ _ _ _ _ _ _ (reshape_cpt sh') (tok_good _ _ Kx) (tok_md _ _ Kx) Cx Ea).
      - get i x s Kx Cx X. one X h a Ea. apply Ok_inj in X; subst st'. apply push_op_tidy; [|now intros _]. exact (via_strides_compact _ _ _ _ _ _ _ _ squeeze_cpt (tok_good _ _ Kx) (tok_md _ _ Kx) Cx Ea).
      - get i x s Kx Cx X. one X h a Ea. apply Ok_inj in X; subst st'. apply push_op_tidy; [|now intros _]. exact (via_strides_compact _ _ _ _ _ _ _ _ (unsqueeze_cpt axis) (tok_good _ _ Kx) (tok_md _ _ Kx) Cx Ea).
      - get i x s Kx Cx X. one X h a Ea. apply Ok_inj in X; subst st'. apply push_op_tidy; [|now intros _]. exact (via_array_compact _ _ _ _ _ _ _ _ (transpose_cpt a1 a2) (tok_good _ _ Kx) (tok_md _ _ Kx) Cx Ea).
      - get i x s Kx Cx X. one X h a Ea. exact (run_bw_tidy _ _ _ _ X).
      - get i x s Kx Cx X. one X h a Ea. apply bind_Ok_inv in X as (u & _ & X). exact (run_bw_tidy _ _ _ _ X).
      - get i x s Kx Cx X. destruct (t_fn x); try (apply Ok_inj in X; subst st'; exact TD). apply bind_Ok_inv in X as (a & _ & X). apply bind_Ok_inv in X as (h & _ & X). apply Ok_inj in X; subst st'. exact TD.
    Qed.
  End Step.

  (** *** whole programs *)
  Lemma krun_eq p : forall st ss Gh, Sim N st ss Gh -> tidy st -> admissible N p ss -> all_bfine N B p ss -> krun N K p st = Autograd.run N p st.
  Proof.
    induction p as [|i p IH]; intros st ss Gh SM TD A BF; [reflexivity|]. destruct A as (SC & SMALL & A), BF as [BF1 BF2].
    cbn [krun Autograd.run]. rewrite (kexec_eq st ss Gh SM TD i SC BF1).
    destruct (exec_ok N inv0 F st ss Gh SM i SC SMALL) as [-> |(st' & Gh' & E & SM')]; [cbn [bind]; reflexivity|]. pose proof (exec_tidy st ss Gh SM TD i st' SC SMALL BF1 E) as TD'.
    rewrite E. cbn [bind]. exact (IH st' (sstep N ss i) Gh' SM' TD' A BF2).
  Qed.
  Lemma tidy0 : tidy g0.
  Proof. split; constructor. Qed.
End Programs.
