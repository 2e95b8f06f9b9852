(** BuildsGradFacts2.v: operands and gradients inside the engine have layouts that BLAS
    accepts, and so the engine of every build does what the portable engine does. *)
From Coq Require Import List Arith Lia Bool ZArith Permutation.
From Verif Require Import Base Spec Layout SpecFacts LayoutFacts Views ViewsFacts ViewsFacts2 ViewsFacts3 ViewsFacts4
  Kernels Access HeapFacts KernelFacts OpFacts AccessFacts Chain ChainFacts Reduce ReduceFacts Einsum EinsumFacts2 EinsumParse
  Simd SimdOps SimdSop Vendor VendorFacts Vdsp VdspFacts PropsProg
  PropsViews PropsOps PropsReduce PropsEinsum SpecGrad Autograd GradMath GradFacts GradFacts2 GradFacts3 GradFacts4 GradFacts5 Builds BuildsFacts BuildsGrad BuildsGradFacts.
Import ListNotations.
Open Scope res_scope.

(** ** layouts without gaps *)
(** the last element lies within the first prod(shape) cells *)
Definition compact (a : arr) : Prop := dot (map pred (a_shape a)) (a_stride a) < prod (a_shape a).

Lemma last_in_range sh : pos sh -> in_range (map pred sh) sh.
Proof. induction 1; cbn [map]; constructor; [lia|auto]. Qed.
Lemma dot_le st : forall i j, Forall2 le i j -> dot i st <= dot j st.
Proof. induction st as [|s st IH]; intros i j H; inversion H; subst; cbn [dot]; auto. specialize (IH _ _ H1). nia. Qed.
Lemma below_last i sh : in_range i sh -> Forall2 le i (map pred sh).
Proof. induction 1; cbn [map]; constructor; [lia|auto]. Qed.
Lemma dot_zeros n st : dot (repeat 0 n) st = 0.
Proof. revert st. induction n as [|n IH]; intros [|s st]; cbn [repeat dot]; auto. rewrite IH. lia. Qed.
Lemma compact_rmaj a : pos (a_shape a) -> rmaj a -> compact a.
Proof. intros P R. unfold compact. rewrite R, <- rank_dot. now apply rank_lt, last_in_range. Qed.
Lemma compact_views r a f : views r a f -> pos (a_shape r) -> prod (a_shape r) = prod (a_shape a) -> compact a -> compact r.
Proof.
  intros (_ & _ & V) P E C. unfold compact in *. rewrite E. destruct (V _ (last_in_range _ P)) as [R1 E1]. destruct (V _ (in_zero _ P)) as [_ E0].
  rewrite dot_zeros in E0. pose proof (dot_le (a_stride a) _ _ (below_last _ _ R1)). lia.
Qed.
Lemma compact_same a r : a_shape r = a_shape a -> a_stride r = a_stride a -> compact a -> compact r.
Proof. unfold compact. now intros -> ->. Qed.

Lemma dot_stride sh : forall st k s, nth_error st k = Some s -> length st = length sh -> Forall (le 2) sh -> s <= dot (map pred sh) st.
Proof.
  induction sh as [|d sh IH]; intros [|s0 st] k s E L H; cbn in L; try lia; [destruct k; discriminate|].
  pose proof (Forall_inv H) as H1. apply Forall_inv_tail in H. cbn [map dot]. destruct k as [|k]; cbn in E.
  - injection E as ->. destruct d as [|[|d]]; [lia|lia|]. cbn [pred Nat.mul]. lia.
  - injection L as L. etransitivity; [exact (IH st k s E L H)|apply Nat.le_add_l].
Qed.
Lemma dim_le_prod sh : forall d, pos sh -> In d sh -> d <= prod sh.
Proof.
  induction sh as [|x sh IH]; intros d P I; [easy|]. inversion P; subst. rewrite prod_cons. apply pos_prod in H2 as Q. destruct I as [->|I]; [nia|]. specialize (IH d H2 I). nia.
Qed.

Section Fit.
  Context {T : Type}.
  Variable B : @build T.
  Implicit Types h : heap T.
  Definition fit (a : arr) : Prop := blas B <> None -> compact a /\ wide (a_shape a).

  Lemma small_le n m : n <= m -> VendorFacts.small m -> VendorFacts.small n.
  Proof. unfold VendorFacts.small. lia. Qed.
  Lemma fit_sized h a sh v : good h a sh v -> fit a -> sized B a.
  Proof.
    intros G FT. pose proof (good_shape _ _ _ _ G) as S. split; apply Forall_forall; intros x I Q; destruct (FT Q) as (C & W2 & WS); (eapply small_le; [|exact WS]).
    - apply dim_le_prod; [|exact I]. rewrite S. now apply good_pos in G.
    - apply In_nth_error in I as (k & I). pose proof (dot_stride _ _ _ _ I (good_wf _ _ _ _ G) W2). unfold compact in C. lia.
  Qed.
  Lemma good_distinct h a sh v : good h a sh v -> distinct a.
  Proof. intros ((b & n & I) & _). apply (i_nb _ _ _ _ I eq_refl). Qed.
  Lemma good_nonzero h a sh v : good h a sh v -> nz (a_stride a).
  Proof. intros ((b & n & I) & _). apply (i_nb _ _ _ _ I eq_refl). Qed.
  Lemma fit_leading h a sh v : good h a sh v -> Forall (le 2) sh -> leading a.
  Proof.
    intros G W2. pose proof (good_distinct _ _ _ _ G) as D. pose proof (good_nonzero _ _ _ _ G) as Z. pose proof (good_wf _ _ _ _ G) as L. pose proof (good_pos _ _ _ _ G) as P.
    rewrite <- (good_shape _ _ _ _ G) in *. unfold leading. unfold wf in L. unfold distinct in D. revert D Z L P W2. generalize (a_shape a) (a_stride a). clear. intros sh st D Z L P W2.
    destruct (rev sh) as [|c [|r tl]] eqn:ES; [now destruct (rev st)| |].
    - destruct (rev st) as [|s [|? ?]] eqn:ET; auto. assert (st = [s]) as -> by (rewrite <- (rev_involutive st), ET; reflexivity). inversion Z; subst. lia.
    - destruct (rev st) as [|s0 [|s tls]] eqn:ET; auto; [now destruct s0 as [|[|?]]|]. destruct s0 as [|[|s0]]; auto.
      assert (E1 : sh = rev tl ++ [r; c]) by (rewrite <- (rev_involutive sh), ES; cbn [rev]; now rewrite <- app_assoc).
      assert (E2 : st = rev tls ++ [s; 1]) by (rewrite <- (rev_involutive st), ET; cbn [rev]; now rewrite <- app_assoc).
      assert (LT : length tls = length tl) by (rewrite <- (rev_length st), <- (rev_length sh), ES, ET in L; cbn in L; lia).
      destruct (Nat.le_gt_cases c s) as [|LS]; [assumption|exfalso]. rewrite E1 in *. rewrite E2 in *.
      apply Forall_app in P as [P1 P2]. apply Forall_app in W2 as [_ W2]. inversion W2; subst.
      assert (DA : forall n l2 m2, length (rev tls) = n -> dot (repeat 0 n ++ l2) (rev tls ++ m2) = dot l2 m2).
      { clear. intros n l2 m2. revert n. generalize (rev tls). induction l as [|x l IH]; intros [|n] E; cbn in E; try lia; [reflexivity|]. cbn [repeat app dot]. apply IH. lia. }
      assert (IR : forall l2, in_range l2 [r; c] -> in_range (repeat 0 (length (rev tl)) ++ l2) (rev tl ++ [r; c])).
      { intros l2 H. apply Forall2_app; [now apply in_zero|exact H]. }
      specialize (D (repeat 0 (length (rev tl)) ++ [1; 0]) (repeat 0 (length (rev tl)) ++ [0; s])).
      assert (X : [1; 0] = [0; s]); [|discriminate]. apply (app_inv_head (repeat 0 (length (rev tl)))). apply D.
      + apply IR. repeat constructor; lia. + apply IR. repeat constructor; lia.
      + rewrite !DA by (rewrite !rev_length; lia). cbn [dot]. lia.
  Qed.
End Fit.

(** ** the operators of a build on good operands *)
Section Kern.
  Context {T : Type} (N : num T) (inv0 : T -> T).
  Hypothesis F : is_field N inv0.
  Variable B : @build T.
  Hypothesis BOK : build_ok (nop N) B.
  Hypothesis TM : tame B.
  Implicit Types h : heap T.
  Local Notation K := (built N B).
  Let CSR : is_csr (n0 N) (n1 N) (nop N AAdd) (nop N AMul) := fld_csr _ _ F.

  Lemma kb_bin o h a b sa sb va vb : good h a sa va -> good h b sb vb -> k_bin K o h a b = a_bin N o h a b.
  Proof.
    intros Ga Gb. cbn [k_bin built]. rewrite (bk_binary_eq (n0 N) (nop N) B BOK); [|eapply good_valid; eauto|eapply good_valid; eauto| |].
    - destruct o; reflexivity.
    - rewrite (good_shape _ _ _ _ Ga). now apply good_prod in Ga.
    - rewrite (good_shape _ _ _ _ Gb). now apply good_prod in Gb.
  Qed.
  Lemma kb_scal o h a c sa va : good h a sa va -> k_scal K o h a c = a_scal N o h a c.
  Proof.
    intros Ga. cbn [k_scal built]. rewrite (bk_scalar_op_eq (n0 N) (nop N) B BOK); [destruct o; reflexivity|eapply good_valid; eauto|].
    rewrite (good_shape _ _ _ _ Ga). now apply good_prod in Ga.
  Qed.
  Lemma kb_neg h a sa va : good h a sa va -> k_neg K h a = a_neg N h a.
  Proof.
    intros Ga. cbn [k_neg built]. rewrite (bk_neg_eq (n0 N) (nop N) (nneg N) B BOK); [reflexivity|eapply good_valid; eauto|].
    rewrite (good_shape _ _ _ _ Ga). now apply good_prod in Ga.
  Qed.
  Lemma kb_dot h a b sa sb va vb : good h a sa va -> good h b sb vb -> length sa <= MAX_DIMS -> fit B a -> fit B b -> k_dot K h a b = a_dot N h a b.
  Proof.
    intros Ga Gb MD Fa Fb. cbn [k_dot built]. rewrite (bk_nd_dot_eq (n0 N) (n1 N) (nop N) B BOK CSR); [reflexivity| |eapply fit_sized; eauto|eapply fit_sized; eauto].
    split; rewrite (good_shape _ _ _ _ Ga); [exact MD|now apply good_prod in Ga].
  Qed.
  Lemma kb_matmul h a b sa sb va vb : good h a sa va -> good h b sb vb -> length sa <= MAX_DIMS -> length sb <= MAX_DIMS -> fit B a -> fit B b ->
    k_matmul K h a b = a_matmul N h a b.
  Proof.
    intros Ga Gb MA MB Fa Fb. cbn [k_matmul built]. apply (alike_eq h); [|now apply skn_bk_matmul|apply skn_matmul].
    apply (bk_matmul_alike (n0 N) (n1 N) (nop N) B BOK CSR); eauto using good_valid, fit_sized.
    - split; rewrite (good_shape _ _ _ _ Ga); [exact MA|now apply good_prod in Ga].
    - split; rewrite (good_shape _ _ _ _ Gb); [exact MB|now apply good_prod in Gb].
    - intros Q. right. destruct (Fa Q) as (_ & Wa & _), (Fb Q) as (_ & Wb & _). rewrite (good_shape _ _ _ _ Ga) in Wa. rewrite (good_shape _ _ _ _ Gb) in Wb.
      split; eapply fit_leading; eauto.
  Qed.
  Lemma kb_bmm h a b sa sb va vb : good h a sa va -> good h b sb vb -> length sa <= MAX_DIMS -> length sb <= MAX_DIMS -> fit B a -> fit B b ->
    (blas B <> None -> match sa, sb with [q; _; k], [q'; k'; _] => q = q' -> k = k' | _, _ => True end) -> k_bmm K h a b = a_bmm N h a b.
  Proof.
    intros Ga Gb MA MB Fa Fb C. cbn [k_bmm built]. apply (alike_eq h); [|now apply skn_bk_bmm|apply skn_bmm].
    apply (bk_bmm_alike (n0 N) (n1 N) (nop N) B BOK CSR); eauto using good_valid, fit_sized.
    - split; rewrite (good_shape _ _ _ _ Ga); [exact MA|now apply good_prod in Ga].
    - split; rewrite (good_shape _ _ _ _ Gb); [exact MB|now apply good_prod in Gb].
    - intros Q. destruct (Fa Q) as (_ & Wa & _), (Fb Q) as (_ & Wb & _). rewrite (good_shape _ _ _ _ Ga) in *. rewrite (good_shape _ _ _ _ Gb) in *.
      split; [eapply fit_leading; eauto|]. split; [eapply fit_leading; eauto|]. exact (C Q).
  Qed.
  Lemma kb_add leaves Lsh k sh h g ga Gs a : nth_error leaves k = Some a -> nth_error Lsh k = Some sh -> sgood leaves h g sh ga -> lives leaves Lsh h Gs ->
    k_add K h a g = nd_assign (lift2 (nadd N)) h a g.
  Proof.
    intros Ea Es [G NB] (LL & ND & H). destruct (H k a Ea) as (sh' & Es' & Fa & MD & Ga). rewrite Es in Es'. injection Es' as <-.
    assert (Sa : a_shape a = sh) by apply Ga. cbn [k_add built]. rewrite (bk_assign_eq (nop N) B BOK); [reflexivity| | | | | | | |].
    - eapply good_valid; eauto. - eapply good_valid; eauto. - eapply good_flags; eauto. - eapply good_nb; eauto.
    - rewrite Fa. reflexivity. - rewrite Sa. now apply good_prod in Ga. - rewrite Sa, (good_shape _ _ _ _ G). apply broadcastable_refl.
    - intros i j _ _ Q. exfalso. apply NB. rewrite Q. apply in_map. eapply nth_error_In; eauto.
  Qed.
End Kern.

(** ** layouts of views *)
Lemma swap_perm i j sh : i < length sh -> j < length sh -> Permutation (swap_at i j sh) sh.
Proof.
  intros I J. rewrite <- (map_nth_seq sh) at 2. unfold swap_at. rewrite <- (map_map (swap_pos i j) (fun k => nth k sh 0)).
  apply Permutation_map, swap_seq_perm; auto.
Qed.
Section CompactViews.
  Context {T : Type}.
  Implicit Types h : heap T.
  Lemma compact_view m a : compact a -> compact (nd_view m a).
  Proof. apply compact_same; unfold nd_view; [apply reshaped_view_shape|apply reshaped_view_stride]. Qed.
  Lemma compact_reshape h a sh v m sh' r : good h a sh v -> nd_reshape m a sh' = Ok r -> compact a -> compact r.
  Proof.
    intros G E C. destruct (nd_reshape_shape _ _ _ _ E) as [SH P]. unfold nd_reshape in E. destruct (list_eqb sh' (a_shape a)) eqn:Q; [injection E as <-; now apply compact_view|].
    assert (E' := E). apply bind_Ok_inv in E' as ([] & G1 & E'). apply bind_Ok_inv in E' as ([] & G2 & E'). apply bind_Ok_inv in E' as (d & G3 & E').
    assert (U : f_unif (a_fl a) = true) by (destruct (f_unif (a_fl a)); [reflexivity|discriminate]).
    assert (NE : a_shape a <> []) by (intros Z; rewrite Z in G3; discriminate).
    destruct (nd_reshape_ok m a sh' (good_wf _ _ _ _ G) (good_flags _ _ _ _ G) (good_nb _ _ _ _ G) U P (or_introl NE)) as (r' & Er & _ & V & _).
    unfold nd_reshape in Er. rewrite Q, E in Er. injection Er as <-. eapply compact_views; eauto; [|congruence].
    rewrite SH. apply pos_prod. rewrite <- P, (good_shape _ _ _ _ G). now apply good_prod in G.
  Qed.
  Lemma compact_transpose h a sh v m a1 a2 r : good h a sh v -> nd_transpose m a a1 a2 = Ok r -> compact a -> compact r.
  Proof.
    intros G E C. destruct (transpose_good h a sh v m a1 a2 G) as [E'|(r' & E' & _ & H)]; [congruence|]. rewrite E in E'. injection E' as <-. cbv zeta in H. destruct H as (L1 & L2 & A1 & A2 & Gr).
    rewrite <- (good_shape _ _ _ _ G) in A1, A2. destruct (nd_transpose_ok m a a1 a2 _ _ (good_wf _ _ _ _ G) A1 A2) as (r' & E' & SH & V & _). rewrite E in E'. injection E' as <-.
    eapply compact_views; eauto.
    - rewrite (good_shape _ _ _ _ Gr). now apply good_pos in Gr.
    - rewrite SH. apply prod_perm, swap_perm; rewrite (good_shape _ _ _ _ G); lia.
  Qed.
  Lemma compact_squeeze h a sh v m : good h a sh v -> compact a -> compact (nd_squeeze m a).
  Proof.
    intros G C. destruct (nd_squeeze_ok m a (good_wf _ _ _ _ G)) as (SH & V & _). pose proof (squeeze_good h a sh v m G) as Gr. eapply compact_views; eauto.
    - rewrite (good_shape _ _ _ _ Gr). now apply good_pos in Gr.
    - rewrite SH. apply prod_filter.
  Qed.
  Lemma compact_unsqueeze h a sh v m axis r : good h a sh v -> nd_unsqueeze m a axis = Ok r -> compact a -> compact r.
  Proof.
    intros G E C. destruct (unsqueeze_good h a sh v m axis G) as [E'|(r' & E' & _ & H)]; [congruence|]. rewrite E in E'. injection E' as <-. cbv zeta in H. destruct H as (L1 & A1 & Gr & _).
    rewrite <- (good_shape _ _ _ _ G) in A1. destruct (nd_unsqueeze_ok m a axis _ (good_wf _ _ _ _ G) A1) as (r' & E' & SH & V & _). rewrite E in E'. injection E' as <-.
    eapply compact_views; eauto.
    - rewrite (good_shape _ _ _ _ Gr). now apply good_pos in Gr.
    - rewrite SH. unfold insert_at. rewrite prod_app, prod_cons, Nat.mul_1_l, <- prod_app, firstn_skipn. reflexivity.
  Qed.
End CompactViews.
