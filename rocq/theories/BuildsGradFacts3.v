(** BuildsGradFacts3.v: backward in every build. *)
From Coq Require Import List Arith Lia Bool ZArith Permutation.
From Verif Require Import Base Spec Layout SpecFacts LayoutFacts Views ViewsFacts ViewsFacts2 ViewsFacts3 ViewsFacts4
  Kernels Access HeapFacts KernelFacts OpFacts AccessFacts Chain ChainFacts Reduce ReduceFacts Einsum EinsumFacts2 EinsumParse
  Simd SimdOps SimdSop Vendor VendorFacts Vdsp VdspFacts PropsProg
  PropsViews PropsOps PropsReduce PropsEinsum SpecGrad Autograd GradMath GradFacts GradFacts2 GradFacts3 GradFacts4 GradFacts5 Builds BuildsFacts BuildsGrad BuildsGradFacts BuildsGradFacts2.
Import ListNotations.
Open Scope res_scope.

Lemma wide_perm s s' : Permutation s s' -> wide s -> wide s'.
Proof. intros P [W S]. split; [rewrite Forall_forall in *; intros x I; apply W; eapply Permutation_in; [apply Permutation_sym; exact P|exact I]|]. now rewrite <- (prod_perm _ _ P). Qed.
Lemma wide_T n k : wide [n; k] -> wide [k; n].
Proof. apply wide_perm. constructor. Qed.
Lemma wide_T12 q n k : wide [q; n; k] -> wide [q; k; n].
Proof. apply wide_perm. constructor. constructor. Qed.

Section Back.
  Context {T : Type} (N : num T) (inv0 : T -> T).
  Hypothesis F : is_field N inv0.
  Variable B : @build T.
  Hypothesis BOK : build_ok (nop N) B.
  Hypothesis TM : tame B.
  Variable leaves : list arr.
  Variable Lsh : list (list nat).
  Variable nodes : list (gnode T).
  Variable Gh : list (list nat * (@pert T -> list nat -> T)).
  Implicit Types h : heap T.
  Local Notation sgood := (sgood leaves).
  Local Notation keeps := (keeps leaves).
  Local Notation lives := (lives leaves Lsh).
  Local Notation rspec := (rspec N Lsh Gh).
  Local Notation op1 := (op1 N Lsh Gh).
  Local Notation nodes_ok := (nodes_ok N leaves Lsh nodes Gh).
  Local Notation K := (built N B).

  (** what BLAS needs of the products inside backward: the operands that the node has kept,
      and a gradient of the shape of its result *)
  Definition node_fit (nd : gnode T) : Prop := blas B <> None ->
    match nd with
    | NMatVec _ _ l r => fit B l /\ fit B r /\ wide [nth 0 (a_shape l) 0]
    | NMatMul _ _ l r => fit B l /\ fit B r /\ wide [nth 0 (a_shape l) 0; nth 1 (a_shape r) 0]
    | NBmm _ _ l r => fit B l /\ fit B r /\ wide [nth 0 (a_shape l) 0; nth 1 (a_shape l) 0; nth 2 (a_shape r) 0]
    | _ => True
    end.
  Hypothesis NF : forall m nd, nth_error nodes m = Some nd -> node_fit nd.

  (** two runs with the same result, which keeps the invariant *)
  Definition twin (p r : res (heap T)) h : Prop :=
    p = r /\ (r = Panic \/ exists h' Gs', r = Ok h' /\ keeps h h' /\ lives h' Gs').
  Lemma twin_bind p r kp kr h : twin p r h -> (forall h1 Gs1, keeps h h1 -> lives h1 Gs1 -> twin (kp h1) (kr h1) h1) ->
    twin (h1 <- p ;; kp h1) (h1 <- r ;; kr h1) h.
  Proof.
    intros [-> [-> |(h1 & Gs1 & -> & K1 & L1)]] H; [split; [reflexivity|now left]|]. cbn [bind].
    destruct (H h1 Gs1 K1 L1) as [E [R|(h2 & Gs2 & R & K2 & L2)]]; split; auto. right. exists h2, Gs2. split; [auto|]. split; [eapply keeps_trans; eauto|auto].
  Qed.
  Lemma twin_extends p r h h1 : extends h h1 -> twin p r h1 -> twin p r h.
  Proof.
    intros E [Q [R|(h' & Gs' & R & K1 & L)]]; split; auto. right. exists h', Gs'. split; [auto|]. split; [|auto].
    exact (keeps_trans _ _ _ _ (keeps_extends _ _ _ E) K1).
  Qed.
  Lemma twin_same h Gs : lives h Gs -> twin (Ok h) (Ok h) h.
  Proof. intros L. split; [auto|]. right. exists h, Gs. split; [auto|]. split; [apply keeps_refl|auto]. Qed.

  Definition rec_k (m : nat) (krec rec : heap T -> nref -> arr -> res (heap T)) : Prop :=
    forall h r sh D g ga Gs, depth r <= m -> rspec r sh D -> length sh <= MAX_DIMS -> sgood h g sh ga -> compact g ->
      nodes_ok h -> lives h Gs -> twin (krec h r g) (rec h r g) h.

  Lemma sgood_rmaj h g s ga : sgood h g s ga -> rmaj g -> compact g.
  Proof. intros [G _] R. apply compact_rmaj; [|exact R]. rewrite (good_shape _ _ _ _ G). now apply good_pos in G. Qed.

  Lemma next_k m krec rec h x sx Dx (keval eval : heap T -> res (heap T * arr)) h1 g ga Gs :
    rec_k m krec rec -> op1 m x sx Dx -> nodes_ok h -> lives h Gs ->
    keval h = eval h -> eval h = Ok (h1, g) -> extends h h1 -> sgood h1 g sx ga -> compact g ->
    twin (call_next krec h keval x) (call_next rec h eval x) h.
  Proof.
    intros R (S & DP & MD) NO L EK E X G C. unfold call_next. destruct (is_none x) eqn:Q; [eapply twin_same; eauto|].
    rewrite EK, E. cbn [bind]. apply (twin_extends _ _ _ h1); [auto|]. eapply R; eauto.
    - eapply nodes_keeps; [eauto|now apply keeps_extends]. - eapply lives_extends; eauto.
  Qed.
  Lemma shape_k m krec rec h x s Dx t (keval eval : heap T -> res (heap T * arr)) h1 g ga Gs :
    rec_k m krec rec -> op1 m x s Dx -> nodes_ok h -> lives h Gs -> broadcastable s t -> length t <= MAX_DIMS ->
    keval h = eval h -> eval h = Ok (h1, g) -> extends h h1 -> sgood h1 g t ga -> compact g ->
    twin (call_next_shape N krec h keval s x) (call_next_shape N rec h eval s x) h.
  Proof.
    intros R (S & DP & MD) NO L Bc MT EK E X G C. unfold call_next_shape. destruct (is_none x) eqn:Q; [eapply twin_same; eauto|].
    rewrite EK, E. cbn [bind]. apply (twin_extends _ _ _ h1); [auto|].
    assert (NO1 : nodes_ok h1) by (eapply nodes_keeps; [eauto|now apply keeps_extends]).
    assert (L1 : lives h1 Gs) by (eapply lives_extends; eauto).
    rewrite (good_shape _ _ _ _ (proj1 G)). destruct (list_eqb s t) eqn:Q2.
    - apply list_eqb_spec in Q2. subst t. eapply R; eauto.
    - assert (NE : s <> t) by (intros E'; apply list_eqb_spec in E'; congruence).
      destruct (reduce_gradient_ok N inv0 F h1 g s t ga (proj1 G) MT Bc) as [(E2 & _)|(_ & h2 & r & E2 & X2 & W & G2)].
      + rewrite E2. split; [reflexivity|now left].
      + destruct W as [[W _]|[W1 W2]]; [congruence|]. rewrite E2. cbn [bind]. apply (twin_extends _ _ _ h2); [auto|].
        assert (SG : sgood h2 r s (fibre_sum N t (bidx s) ga)) by (split; [exact G2|]; rewrite W1; eapply lives_new; eauto).
        eapply R; eauto.
        * eapply sgood_rmaj; eauto. * eapply nodes_keeps; [eauto|now apply keeps_extends]. * eapply lives_extends; eauto.
  Qed.

  Lemma dims2 (n k : nat) : length [n; k] <= MAX_DIMS. Proof. cbn; unfold MAX_DIMS; lia. Qed.
  Lemma dims1 (n : nat) : length [n] <= MAX_DIMS. Proof. cbn; unfold MAX_DIMS; lia. Qed.
  Lemma dims3 (q n k : nat) : length [q; n; k] <= MAX_DIMS. Proof. cbn; unfold MAX_DIMS; lia. Qed.

  Lemma fit_T h a n k v r : good h a [n; k] v -> nd_T ByRef a = Ok r -> fit B a -> a_shape r = [k; n] -> fit B r.
  Proof.
    intros G E FA SR Q. destruct (FA Q) as [C W]. rewrite (good_shape _ _ _ _ G) in W. split; [eapply compact_transpose; eauto|]. rewrite SR. now apply wide_T.
  Qed.
  Lemma fit_T12 h a q n k v r : good h a [q; n; k] v -> nd_transpose ByRef a 1 2 = Ok r -> fit B a -> a_shape r = [q; k; n] -> fit B r.
  Proof.
    intros G E FA SR Q. destruct (FA Q) as [C W]. rewrite (good_shape _ _ _ _ G) in W. split; [eapply compact_transpose; eauto|]. rewrite SR. now apply wide_T12.
  Qed.

  Hypothesis LN : length Gh = length nodes.
  Local Notation nb Wt G := (eq_ind_r (fun b => ~ In b (map a_blk leaves)) (proj2 G) Wt).

  Lemma kbw_eq fuel : forall busy h r sh D g ga Gs,
    depth r < fuel -> (forall b, In b busy -> depth r <= b) -> rspec r sh D -> length sh <= MAX_DIMS ->
    sgood h g sh ga -> compact g -> nodes_ok h -> lives h Gs ->
    twin (kbw N K leaves nodes fuel busy h r g) (bw N leaves nodes fuel busy h r g) h.
  Proof.
    induction fuel as [|fuel IH]; intros busy h r sh D g ga Gs DP BU RS MD G CG NO L; [lia|].
    destruct r as [|k|m].
    - cbn [bw kbw]. eapply twin_same; eauto.
    - destruct RS as [Es RS]. assert (LL : length leaves = length Lsh) by apply L.
      destruct (nth_error leaves k) as [a|] eqn:Ea; [|apply nth_error_None in Ea; assert (k < length Lsh) by (apply nth_error_Some; congruence); lia].
      destruct (leaf_ok N leaves Lsh k sh h g ga Gs a Ea Es G L) as (Q & h' & E & K1 & L').
      cbn [bw kbw]. rewrite Ea, Q, (kb_add N B BOK leaves Lsh k sh h g ga Gs a Ea Es G L), E. split; [reflexivity|]. right. exists h'. eexists. split; [reflexivity|]. split; [auto|exact L'].
    - destruct RS as (D' & EG & RS). cbn [depth] in *.
      destruct (nth_error nodes m) as [nd|] eqn:En; [|apply nth_error_None in En; assert (m < length Gh) by (apply nth_error_Some; congruence); lia].
      destruct (NO m nd En) as (sh' & D'' & EG' & _ & OK). rewrite EG in EG'. injection EG' as <- <-. pose proof (NF m nd En) as FN. unfold node_fit in FN.
      assert (NB : existsb (Nat.eqb m) busy = false).
      { destruct (existsb (Nat.eqb m) busy) eqn:Q; [|auto]. apply existsb_exists in Q as (b & I & Q). apply Nat.eqb_eq in Q. subst b. apply BU in I. lia. }
      set (rec := fun h r g => bw N leaves nodes fuel (m :: busy) h r g).
      set (krec := fun h r g => kbw N K leaves nodes fuel (m :: busy) h r g).
      assert (R : rec_k m krec rec).
      { intros h1 r1 sh1 D1 g1 ga1 Gs1 DP1 RS1 MD1 G1 C1 NO1 L1. unfold rec, krec. eapply IH; eauto; [lia|]. intros b [<-|I]; [auto|]. apply BU in I. lia. }
      cbn [bw kbw]. rewrite NB, En. fold rec krec.
      destruct nd as [x y sx sy|x y sx sy|x y l r|x s c|x y l r|x s c|x s|x y l r|x y l r|x y l r|x y l r|x s|x a1 a2].
      + destruct OK as (Dx & Dy & Ox & Oy & J & _). apply twin_bind.
        * eapply shape_k; eauto using ext_refl, join_shape_broadcastable_l.
        * intros h1 Gs1 K1 L1. eapply shape_k; eauto using ext_refl, join_shape_broadcastable_r, nodes_keeps, sgood_keeps.
      + destruct OK as (Dx & Dy & Ox & Oy & J & _). apply twin_bind.
        * eapply shape_k; eauto using ext_refl, join_shape_broadcastable_l.
        * intros h1 Gs1 K1 L1. assert (G1 := sgood_keeps _ _ _ _ _ _ G K1). destruct (neg_s N leaves Lsh h1 g sh ga Gs1 G1 MD L1) as (h2 & r & E2 & X2 & G2 & R2 & L2).
          eapply (shape_k m krec rec h1 y sy Dy sh _ _ h2 r); eauto using join_shape_broadcastable_r, nodes_keeps, sgood_rmaj. exact (kb_neg N B BOK _ _ _ _ (proj1 G1)).
      + destruct OK as (sx & sy & vx & vy & Dx & Dy & Ox & Oy & J & Gl & Gr & _).
        rewrite (good_shape _ _ _ _ (proj1 Gl)), (good_shape _ _ _ _ (proj1 Gr)).
        pose proof (join_shape_broadcastable_l _ _ _ J) as Bx. pose proof (join_shape_broadcastable_r _ _ _ J) as By. apply twin_bind.
        * destruct (bin_s N leaves Lsh BMul h r g sy sh sh vy ga Gs Gr G (join_self_r _ _ By) MD L) as (h2 & a & E2 & X2 & G2 & R2 & L2).
          eapply (shape_k m krec rec h x sx Dx sh _ _ h2 a); eauto using sgood_rmaj. exact (kb_bin N B BOK _ _ _ _ _ _ _ _ (proj1 Gr) (proj1 G)).
        * intros h1 Gs1 K1 L1. assert (G1 := sgood_keeps _ _ _ _ _ _ G K1). assert (Gl1 := sgood_keeps _ _ _ _ _ _ Gl K1).
          destruct (bin_s N leaves Lsh BMul h1 l g sx sh sh vx ga Gs1 Gl1 G1 (join_self_r _ _ Bx) MD L1) as (h2 & a & E2 & X2 & G2 & R2 & L2).
          eapply (shape_k m krec rec h1 y sy Dy sh _ _ h2 a); eauto using nodes_keeps, sgood_rmaj. exact (kb_bin N B BOK _ _ _ _ _ _ _ _ (proj1 Gl1) (proj1 G1)).
      + destruct OK as (Dx & Ox & -> & _). destruct (scal_s N leaves Lsh BMul h g c sh ga Gs G MD L) as (h2 & a & E2 & X2 & G2 & R2 & L2).
        eapply (shape_k m krec rec h x sh Dx sh _ _ h2 a); eauto using broadcastable_refl, sgood_rmaj. exact (kb_scal N B BOK _ _ _ _ _ _ (proj1 G)).
      + destruct OK as (sx & sy & vx & vy & Dx & Dy & Ox & Oy & J & Gl & Gr & _).
        rewrite (good_shape _ _ _ _ (proj1 Gl)), (good_shape _ _ _ _ (proj1 Gr)).
        pose proof (join_shape_broadcastable_l _ _ _ J) as Bx. pose proof (join_shape_broadcastable_r _ _ _ J) as By.
        assert (MX : length sx <= MAX_DIMS) by apply Ox. assert (MY : length sy <= MAX_DIMS) by apply Oy.
        destruct (is_none x) eqn:Q.
        * destruct (neg_s N leaves Lsh h l sx vx Gs Gl MX L) as (h1 & nl & E1 & X1 & G1 & _ & L1).
          assert (Gg1 := sgood_extends _ _ _ _ _ _ G X1).
          destruct (bin_s N leaves Lsh BMul h1 g nl sh sx sh ga _ Gs Gg1 G1 (join_self_l _ _ Bx) MD L1) as (h2 & p & E2 & X2 & G2 & _ & L2).
          assert (X12 := extends_trans _ _ _ X1 X2). assert (Gr2 := sgood_extends _ _ _ _ _ _ Gr X12).
          destruct (bin_s N leaves Lsh BMul h2 r r sy sy sy vy vy Gs Gr2 Gr2 (join_self_r _ _ (broadcastable_refl _)) MY L2) as (h3 & q & E3 & X3 & G3 & _ & L3).
          assert (G23 := sgood_extends _ _ _ _ _ _ G2 X3).
          destruct (bin_s N leaves Lsh BDiv h3 p q sh sy sh _ _ Gs G23 G3 (join_self_l _ _ By) MD L3) as (h4 & w & E4 & X4 & G4 & R4 & L4).
          eapply (shape_k m krec rec h y sy Dy sh _ _ h4 w); eauto using sgood_rmaj.
          -- cbv beta. rewrite (kb_neg N B BOK _ _ _ _ (proj1 Gl)), E1. cbn [bind]. rewrite (kb_bin N B BOK _ _ _ _ _ _ _ _ (proj1 Gg1) (proj1 G1)), E2. cbn [bind].
             rewrite (kb_bin N B BOK _ _ _ _ _ _ _ _ (proj1 Gr2) (proj1 Gr2)), E3. cbn [bind]. exact (kb_bin N B BOK _ _ _ _ _ _ _ _ (proj1 G23) (proj1 G3)).
          -- cbv beta. rewrite E1. cbn [bind]. rewrite E2. cbn [bind]. rewrite E3. cbn [bind]. exact E4.
          -- eapply extends_trans; [exact X12|]. eapply extends_trans; eauto.
        * destruct (nd_full_made h (n1 N) [] (le_n 1)) as (h1 & one & E1 & M1 & _). unfold nd_scalar. rewrite E1. cbn [bind].
          pose proof (made_sgood _ _ _ _ _ _ _ _ L M1) as G1. assert (X1 : extends h h1) by apply M1.
          assert (L1 := lives_extends _ _ _ _ _ L X1). assert (Gr1 := sgood_extends _ _ _ _ _ _ Gr X1).
          destruct (bin_s N leaves Lsh BDiv h1 one r [] sy sy _ vy Gs G1 Gr1 (join_self_r _ _ (bcast_nil _)) MY L1) as (h2 & rcp & E2 & X2 & G2 & _ & L2).
          rewrite (kb_bin N B BOK _ _ _ _ _ _ _ _ (proj1 G1) (proj1 Gr1)), E2. cbn [bind]. assert (X12 := extends_trans _ _ _ X1 X2). assert (Gg2 := sgood_extends _ _ _ _ _ _ G X12).
          destruct (bin_s N leaves Lsh BMul h2 g rcp sh sy sh ga _ Gs Gg2 G2 (join_self_l _ _ By) MD L2) as (h3 & lg & E3 & X3 & G3 & R3 & L3).
          rewrite (kb_bin N B BOK _ _ _ _ _ _ _ _ (proj1 Gg2) (proj1 G2)), E3. cbn [bind]. assert (X13 := extends_trans _ _ _ X12 X3). apply (twin_extends _ _ _ h3); [auto|].
          assert (NO3 : nodes_ok h3) by (eapply nodes_keeps; [eauto|now apply keeps_extends]).
          apply twin_bind.
          -- eapply shape_k; eauto using ext_refl, sgood_rmaj.
          -- intros h4 Gs4 K4 L4. assert (K04 := keeps_trans _ _ _ _ (keeps_extends leaves _ _ X13) K4).
             assert (Gl4 := sgood_keeps _ _ _ _ _ _ Gl K04). assert (Gr4 := sgood_keeps _ _ _ _ _ _ Gr K04). assert (G34 := sgood_keeps _ _ _ _ _ _ G3 K4).
             destruct (bin_s N leaves Lsh BDiv h4 lg r sh sy sh _ vy Gs4 G34 Gr4 (join_self_l _ _ By) MD L4) as (h5 & p & E5 & X5 & G5 & _ & L5).
             assert (Gl5 := sgood_extends _ _ _ _ _ _ Gl4 X5).
             destruct (neg_s N leaves Lsh h5 l sx vx Gs4 Gl5 MX L5) as (h6 & nl & E6 & X6 & G6 & _ & L6). assert (G56 := sgood_extends _ _ _ _ _ _ G5 X6).
             destruct (bin_s N leaves Lsh BMul h6 p nl sh sx sh _ _ Gs4 G56 G6 (join_self_l _ _ Bx) MD L6) as (h7 & w & E7 & X7 & G7 & R7 & L7).
             eapply (shape_k m krec rec h4 y sy Dy sh _ _ h7 w); eauto using nodes_keeps, sgood_rmaj.
             ++ cbv beta. rewrite (kb_bin N B BOK _ _ _ _ _ _ _ _ (proj1 G34) (proj1 Gr4)), E5. cbn [bind]. rewrite (kb_neg N B BOK _ _ _ _ (proj1 Gl5)), E6. cbn [bind].
                exact (kb_bin N B BOK _ _ _ _ _ _ _ _ (proj1 G56) (proj1 G6)).
             ++ cbv beta. rewrite E5. cbn [bind]. rewrite E6. cbn [bind]. exact E7.
             ++ eapply extends_trans; [exact X5|]. eapply extends_trans; eauto.
      + destruct OK as (Dx & Ox & -> & _). destruct (scal_s N leaves Lsh BMul h g c sh ga Gs G MD L) as (h2 & a & E2 & X2 & G2 & R2 & L2).
        rewrite (kb_scal N B BOK _ _ _ _ _ _ (proj1 G)), E2. cbn [bind]. apply (twin_extends _ _ _ h2); [auto|].
        eapply shape_k; eauto using broadcastable_refl, ext_refl, sgood_rmaj. eapply nodes_keeps; [eauto|now apply keeps_extends].
      + destruct OK as (Dx & Ox & -> & _). destruct (neg_s N leaves Lsh h g sh ga Gs G MD L) as (h2 & a & E2 & X2 & G2 & R2 & L2).
        eapply (shape_k m krec rec h x sh Dx sh _ _ h2 a); eauto using broadcastable_refl, sgood_rmaj. exact (kb_neg N B BOK _ _ _ _ (proj1 G)).
      + destruct OK as (n & vx & vy & Dx & Dy & Ox & Oy & Gl & Gr & -> & _).
        assert (M1 : length [n] <= MAX_DIMS) by apply Ox. pose proof (join_self_l _ _ (bcast_nil [n])) as J. apply twin_bind.
        * destruct (bin_s N leaves Lsh BMul h r g [n] [] [n] vy ga Gs Gr G J M1 L) as (h2 & a & E2 & X2 & G2 & R2 & L2).
          eapply (next_k m krec rec h x [n] Dx _ _ h2 a); eauto using sgood_rmaj. exact (kb_bin N B BOK _ _ _ _ _ _ _ _ (proj1 Gr) (proj1 G)).
        * intros h1 Gs1 K1 L1. assert (G1 := sgood_keeps _ _ _ _ _ _ G K1). assert (Gl1 := sgood_keeps _ _ _ _ _ _ Gl K1).
          destruct (bin_s N leaves Lsh BMul h1 l g [n] [] [n] vx ga Gs1 Gl1 G1 J M1 L1) as (h2 & a & E2 & X2 & G2 & R2 & L2).
          eapply (next_k m krec rec h1 y [n] Dy _ _ h2 a); eauto using nodes_keeps, sgood_rmaj. exact (kb_bin N B BOK _ _ _ _ _ _ _ _ (proj1 Gl1) (proj1 G1)).
      + destruct OK as (n & k & vx & vy & Dx & Dy & Ox & Oy & Gl & Gr & -> & _).
        assert (M2 : length [n; k] <= MAX_DIMS) by apply Ox. rewrite (good_shape _ _ _ _ (proj1 Gl)) in FN. cbn [nth] in FN. apply twin_bind.
        * destruct (unsq1_good h g n ga (proj1 G)) as (gu & Et & Wt & Gt).
          destruct (bin_s N leaves Lsh BMul h gu r [n; 1] [k] [n; k] _ vy Gs (conj Gt (nb Wt G)) Gr (join_col n k) M2 L) as (h2 & a & E2 & X2 & G2 & R2 & L2).
          eapply (next_k m krec rec h x [n; k] Dx _ _ h2 a); eauto using sgood_rmaj; cbv beta; rewrite Et; cbn [bind]; [|exact E2]. exact (kb_bin N B BOK _ _ _ _ _ _ _ _ Gt (proj1 Gr)).
        * intros h1 Gs1 K1 L1. assert (G1 := sgood_keeps _ _ _ _ _ _ G K1). assert (Gl1 := sgood_keeps _ _ _ _ _ _ Gl K1).
          destruct (T_good h1 l n k vx (proj1 Gl1)) as (lt & Et & Wt & Gt).
          destruct (matvec_s N inv0 F leaves Lsh h1 lt g k n _ ga Gs1 (conj Gt (nb Wt Gl1)) G1 L1) as (h2 & a & E2 & X2 & G2 & R2 & L2).
          eapply (next_k m krec rec h1 y [k] Dy _ _ h2 a); eauto using nodes_keeps, sgood_rmaj; cbv beta; rewrite Et; cbn [bind]; [|exact E2].
          apply (kb_matmul N inv0 F B BOK TM _ _ _ _ _ _ _ Gt (proj1 G1) (dims2 _ _) (dims1 _)).
          -- intros Z. destruct (FN Z) as (FL & _). exact (fit_T _ _ _ _ _ _ (proj1 Gl1) Et FL (good_shape _ _ _ _ Gt) Z).
          -- intros Z. split; [exact CG|]. rewrite (good_shape _ _ _ _ (proj1 G1)). apply (FN Z).
      + destruct OK as (n & k & p & vx & vy & Dx & Dy & Ox & Oy & Gl & Gr & -> & _).
        rewrite (good_shape _ _ _ _ (proj1 Gl)), (good_shape _ _ _ _ (proj1 Gr)) in FN. cbn [nth] in FN. apply twin_bind.
        * destruct (T_good h r k p vy (proj1 Gr)) as (rt & Et & Wt & Gt).
          destruct (matmul_s N inv0 F leaves Lsh h g rt n p k ga _ Gs G (conj Gt (nb Wt Gr)) L) as (h2 & a & E2 & X2 & G2 & R2 & L2).
          eapply (next_k m krec rec h x [n; k] Dx _ _ h2 a); eauto using sgood_rmaj; cbv beta; rewrite Et; cbn [bind]; [|exact E2].
          apply (kb_matmul N inv0 F B BOK TM _ _ _ _ _ _ _ (proj1 G) Gt (dims2 _ _) (dims2 _ _)).
          -- intros Z. split; [exact CG|]. rewrite (good_shape _ _ _ _ (proj1 G)). apply (FN Z).
          -- intros Z. destruct (FN Z) as (_ & FR & _). exact (fit_T _ _ _ _ _ _ (proj1 Gr) Et FR (good_shape _ _ _ _ Gt) Z).
        * intros h1 Gs1 K1 L1. assert (G1 := sgood_keeps _ _ _ _ _ _ G K1). assert (Gl1 := sgood_keeps _ _ _ _ _ _ Gl K1).
          destruct (T_good h1 l n k vx (proj1 Gl1)) as (lt & Et & Wt & Gt).
          destruct (matmul_s N inv0 F leaves Lsh h1 lt g k n p _ ga Gs1 (conj Gt (nb Wt Gl1)) G1 L1) as (h2 & a & E2 & X2 & G2 & R2 & L2).
          eapply (next_k m krec rec h1 y [k; p] Dy _ _ h2 a); eauto using nodes_keeps, sgood_rmaj; cbv beta; rewrite Et; cbn [bind]; [|exact E2].
          apply (kb_matmul N inv0 F B BOK TM _ _ _ _ _ _ _ Gt (proj1 G1) (dims2 _ _) (dims2 _ _)).
          -- intros Z. destruct (FN Z) as (FL & _). exact (fit_T _ _ _ _ _ _ (proj1 Gl1) Et FL (good_shape _ _ _ _ Gt) Z).
          -- intros Z. split; [exact CG|]. rewrite (good_shape _ _ _ _ (proj1 G1)). apply (FN Z).
      + destruct OK as (q & n & k & p & vx & vy & Dx & Dy & Ox & Oy & Gl & Gr & -> & _).
        rewrite (good_shape _ _ _ _ (proj1 Gl)), (good_shape _ _ _ _ (proj1 Gr)) in FN. cbn [nth] in FN. apply twin_bind.
        * destruct (T12_good h r q k p vy (proj1 Gr)) as (rt & Et & Wt & Gt).
          destruct (bmm_s N inv0 F leaves Lsh h g rt q n p k ga _ Gs G (conj Gt (nb Wt Gr)) L) as (h2 & a & E2 & X2 & G2 & R2 & L2).
          eapply (next_k m krec rec h x [q; n; k] Dx _ _ h2 a); eauto using sgood_rmaj; cbv beta; rewrite Et; cbn [bind]; [|exact E2].
          apply (kb_bmm N inv0 F B BOK TM _ _ _ _ _ _ _ (proj1 G) Gt (dims3 _ _ _) (dims3 _ _ _)); [| |reflexivity].
          -- intros Z. split; [exact CG|]. rewrite (good_shape _ _ _ _ (proj1 G)). apply (FN Z).
          -- intros Z. destruct (FN Z) as (_ & FR & _). exact (fit_T12 _ _ _ _ _ _ _ (proj1 Gr) Et FR (good_shape _ _ _ _ Gt) Z).
        * intros h1 Gs1 K1 L1. assert (G1 := sgood_keeps _ _ _ _ _ _ G K1). assert (Gl1 := sgood_keeps _ _ _ _ _ _ Gl K1).
          destruct (T12_good h1 l q n k vx (proj1 Gl1)) as (lt & Et & Wt & Gt).
          destruct (bmm_s N inv0 F leaves Lsh h1 lt g q k n p _ ga Gs1 (conj Gt (nb Wt Gl1)) G1 L1) as (h2 & a & E2 & X2 & G2 & R2 & L2).
          eapply (next_k m krec rec h1 y [q; k; p] Dy _ _ h2 a); eauto using nodes_keeps, sgood_rmaj; cbv beta; rewrite Et; cbn [bind]; [|exact E2].
          apply (kb_bmm N inv0 F B BOK TM _ _ _ _ _ _ _ Gt (proj1 G1) (dims3 _ _ _) (dims3 _ _ _)); [| |reflexivity].
          -- intros Z. destruct (FN Z) as (FL & _). exact (fit_T12 _ _ _ _ _ _ _ (proj1 Gl1) Et FL (good_shape _ _ _ _ Gt) Z).
          -- intros Z. split; [exact CG|]. rewrite (good_shape _ _ _ _ (proj1 G1)). apply (FN Z).
      + destruct OK as (Dx & Ox & P & _). destruct (reshape_good h g sh ga ByRef s (proj1 G)) as [E|(v & E & W & _ & Gv & _)].
        * unfold call_next. rewrite E. cbn [bind]. destruct (is_none x); [eapply twin_same; eauto|]. split; [reflexivity|now left].
        * eapply (next_k m krec rec h x s Dx _ _ h v); eauto using ext_refl.
          -- cbv beta. rewrite E. reflexivity. -- split; [exact Gv|]. rewrite W. apply G. -- exact (compact_reshape _ _ _ _ _ _ _ (proj1 G) E CG).
      + destruct OK as (s' & Dx & Ox & A1 & A2 & L1 & L2 & Sw & _). cbv zeta in *.
        assert (LS : length sh = length s') by (rewrite Sw; apply swap_at_length). rewrite <- LS in *.
        set (i := axis_of a1 (length sh)) in *. set (j := axis_of a2 (length sh)) in *.
        assert (SS : swap_at i j sh = s') by (rewrite Sw; apply swap_at_invol; lia).
        destruct (transpose_ok_good h g sh ga ByRef a1 a2 i j (proj1 G) A1 A2) as (v & E & W & Gv). rewrite SS in Gv.
        eapply (next_k m krec rec h x s' Dx _ _ h v); eauto using ext_refl.
        * cbv beta. rewrite E. reflexivity. * split; [exact Gv|]. rewrite W. apply G. * exact (compact_transpose _ _ _ _ _ _ _ _ (proj1 G) E CG).
  Qed.
End Back.
