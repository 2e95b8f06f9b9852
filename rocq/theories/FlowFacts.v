(** FlowFacts.v: a call of backward panics exactly when the journey of its gradient does. *)
From Coq Require Import List Arith Lia Bool ZArith Permutation.
From Verif Require Import Base Spec Layout SpecFacts LayoutFacts Views ViewsFacts ViewsFacts2 ViewsFacts3 ViewsFacts4
  Kernels Access HeapFacts KernelFacts OpFacts AccessFacts Chain ChainFacts Reduce ReduceFacts Einsum EinsumFacts2
  PropsViews PropsOps PropsReduce PropsEinsum SpecGrad Autograd GradMath GradFacts GradFacts2 GradFacts3 GradFacts4 SpecFlow.
Import ListNotations.
Open Scope res_scope.

(** ** layouts *)
Lemma row_major_rm sh : row_major sh = rm_stride sh.
Proof. induction sh as [|n sh IH]; [reflexivity|]. cbn [row_major rm_stride]. now rewrite IH. Qed.
Lemma evenly_spec sh : forall st, length sh = length st -> nz st ->
  evenly sh st = match has_uniform_stride sh st with Some _ => true | None => false end.
Proof.
  induction sh as [|n [|n' sh] IH]; intros [|s [|s' st]] L Z; cbn [length] in L; try discriminate; try reflexivity.
  inversion Z as [|? ? Zs Z']; subst. specialize (IH (s' :: st) ltac:(cbn; cbn in L; lia) Z').
  change (evenly (n :: n' :: sh) (s :: s' :: st)) with ((s =? n' * s') && evenly (n' :: sh) (s' :: st)).
  cbn [has_uniform_stride has_uniform_go]. cbn [has_uniform_stride] in IH. destruct (Nat.eqb_spec s 0); [contradiction|]. cbn [negb andb].
  destruct (s =? n' * s'); cbn [negb andb]; [exact IH|reflexivity].
Qed.
Lemma sums_away_kept s t : s <> [] -> sums_away s t = negb (some_kept s t).
Proof.
  intros NE. unfold sums_away, some_kept. destruct s as [|n s]; [congruence|]. generalize (combine (n :: s) (skipn (length t - length (n :: s)) t)) as l.
  induction l as [|p l IH]; [reflexivity|]. cbn [forallb existsb]. rewrite IH. now destruct (fst p =? 1), (1 <? snd p).
Qed.
Lemma last_nth {A} (l : list A) d : l <> [] -> nth_error l (length l - 1) = Some (last l d).
Proof.
  intros NE. destruct (exists_last NE) as (l' & x & ->). rewrite last_last, app_length. cbn [length].
  rewrite nth_error_app2 by lia. now replace (length l' + 1 - 1 - length l') with 0 by lia.
Qed.

Lemma reshape_exact {T} (h : heap T) a sh v m s : good h a sh v -> s <> sh ->
  (nd_reshape m a s = Panic /\ (prod s =? prod sh) && reshapable sh (a_stride a) = false) \/
  ((prod s =? prod sh) && reshapable sh (a_stride a) = true /\
   exists r, nd_reshape m a s = Ok r /\ a_shape r = s /\ a_stride r = reshaped (a_stride a) s).
Proof.
  intros G NE. pose proof (good_shape _ _ _ _ G) as SH. pose proof (good_wf _ _ _ _ G) as W. unfold wf in W.
  unfold nd_reshape. destruct (list_eqb s (a_shape a)) eqn:Q; [apply list_eqb_spec in Q; congruence|].
  assert (EV : evenly sh (a_stride a) = f_unif (a_fl a)).
  { destruct (good_flags _ _ _ _ G) as [-> _]. rewrite <- SH. rewrite evenly_spec; [|auto|now apply (good_nz _ _ _ _ G)].
    now destruct (has_uniform_stride _ _). }
  unfold reshapable. rewrite EV, SH in *. rewrite (Nat.eqb_sym (prod sh)). destruct (f_unif (a_fl a)); cbn [guard bind].
  2:{ left. split; [auto|]. destruct sh; apply andb_false_r. }
  destruct (prod s =? prod sh); cbn [guard bind andb]; [|now left].
  destruct sh as [|n sh]; [left; split; reflexivity|]. right. split; [reflexivity|].
  unfold csub. destruct (Nat.ltb_spec (length (n :: sh)) 1) as [B|B]; [cbn in B; lia|]. cbn [bind]. unfold vget.
  rewrite <- W, (last_nth _ 0) by (destruct (a_stride a); [discriminate W|discriminate]). cbn [bind].
  eexists. split; [reflexivity|]. rewrite reshaped_view_shape, reshaped_view_stride. split; [auto|].
  rewrite reshape_strides_spec. cbn [fst]. reflexivity.
Qed.

(** ** the graph of nodes unfolds to a tree *)
Section Unfold.
  Context {T : Type} (nodes : list (gnode T)).
  Definition arrow (w : way) (s : list nat) (x : nref) (e : flow) : flow := if is_none x then FNone else FTo w s e.
  Inductive unf : nref -> flow -> Prop :=
  | U_none : unf RNone FNone
  | U_leaf k : unf (RLeaf k) FLeaf
  | U_add m x y sx sy ex ey : nth_error nodes m = Some (NAdd x y sx sy) -> unf x ex -> unf y ey ->
      unf (RNode m) (FBoth (arrow WSame sx x ex) (arrow WSame sy y ey))
  | U_sub m x y sx sy ex ey : nth_error nodes m = Some (NSub x y sx sy) -> unf x ex -> unf y ey ->
      unf (RNode m) (FBoth (arrow WSame sx x ex) (arrow WNew sy y ey))
  | U_mul m x y l r ex ey : nth_error nodes m = Some (NMul x y l r) -> unf x ex -> unf y ey ->
      unf (RNode m) (FBoth (arrow WNew (a_shape l) x ex) (arrow WNew (a_shape r) y ey))
  | U_muls m x s c ex : nth_error nodes m = Some (NMulS x s c) -> unf x ex -> unf (RNode m) (arrow WNew s x ex)
  | U_div m x y l r ex ey : nth_error nodes m = Some (NDiv x y l r) -> unf x ex -> unf y ey ->
      unf (RNode m) (FBoth (arrow WNew (a_shape l) x ex) (arrow WNew (a_shape r) y ey))
  | U_divs m x s c ex : nth_error nodes m = Some (NDivS x s c) -> unf x ex -> unf (RNode m) (arrow WNew s x ex)
  | U_neg m x s ex : nth_error nodes m = Some (NNeg x s) -> unf x ex -> unf (RNode m) (arrow WNew s x ex)
  | U_dot m x y l r ex ey : nth_error nodes m = Some (NDot x y l r) -> unf x ex -> unf y ey ->
      unf (RNode m) (FBoth (arrow WWhole (a_shape l) x ex) (arrow WWhole (a_shape r) y ey))
  | U_matvec m x y l r ex ey : nth_error nodes m = Some (NMatVec x y l r) -> unf x ex -> unf y ey ->
      unf (RNode m) (FBoth (arrow WWhole (a_shape l) x ex) (arrow WWhole (a_shape r) y ey))
  | U_matmul m x y l r ex ey : nth_error nodes m = Some (NMatMul x y l r) -> unf x ex -> unf y ey ->
      unf (RNode m) (FBoth (arrow WWhole (a_shape l) x ex) (arrow WWhole (a_shape r) y ey))
  | U_bmm m x y l r ex ey : nth_error nodes m = Some (NBmm x y l r) -> unf x ex -> unf y ey ->
      unf (RNode m) (FBoth (arrow WWhole (a_shape l) x ex) (arrow WWhole (a_shape r) y ey))
  | U_reshape m x s ex : nth_error nodes m = Some (NReshape x s) -> unf x ex -> unf (RNode m) (arrow WReshape s x ex)
  | U_trans m x a1 a2 s ex : nth_error nodes m = Some (NTrans x a1 a2) -> unf x ex -> unf (RNode m) (arrow (WSwap a1 a2) s x ex).
End Unfold.
Lemma unf_app {T} (nodes l : list (gnode T)) r e : unf nodes r e -> unf (nodes ++ l) r e.
Proof.
  assert (K : forall m nd, nth_error nodes m = Some nd -> nth_error (nodes ++ l) m = Some nd).
  { intros m nd E. rewrite nth_error_app1; [auto|]. apply nth_error_Some. congruence. }
  induction 1; [apply U_none|apply U_leaf|eapply U_add|eapply U_sub|eapply U_mul|eapply U_muls|eapply U_div|eapply U_divs|eapply U_neg
    |eapply U_dot|eapply U_matvec|eapply U_matmul|eapply U_bmm|eapply U_reshape|eapply U_trans]; eauto.
Qed.

Section Engine.
  Context {T : Type} (N : num T) (inv0 : T -> T).
  Hypothesis F : is_field N inv0.
  Implicit Types h : heap T.
  Variable leaves : list arr.
  Variable Lsh : list (list nat).
  Variable nodes : list (gnode T).
  Variable Gh : list (list nat * (@pert T -> list nat -> T)).
  Notation keeps := (keeps leaves). Notation sgood := (sgood leaves). Notation lives := (lives leaves Lsh).
  Notation op1 := (op1 N Lsh Gh). Notation node_ok := (node_ok N leaves Lsh Gh). Notation nodes_ok := (nodes_ok N leaves Lsh nodes Gh).
  Notation rspec := (rspec N Lsh Gh).

  Definition xout (b : bool) (r : res (heap T)) h : Prop :=
    (r = Panic /\ b = true) \/ (b = false /\ exists h' Gs', r = Ok h' /\ keeps h h' /\ lives h' Gs').

  Lemma xout_bind b1 b2 r1 k h : xout b1 r1 h ->
    (forall h1 Gs1, keeps h h1 -> lives h1 Gs1 -> xout b2 (k h1) h1) ->
    xout (b1 || b2) (h1 <- r1 ;; k h1) h.
  Proof.
    intros [[-> ->]|(-> & h1 & Gs1 & -> & K1 & L1)] H; [left; auto|]. cbn [bind orb].
    destruct (H h1 Gs1 K1 L1) as [[-> ->]|(-> & h2 & Gs2 & -> & K2 & L2)]; [left; auto|].
    right. split; [auto|]. exists h2, Gs2. split; [auto|]. split; [eapply keeps_trans; eauto|auto].
  Qed.
  Lemma xout_extends b r h h1 : extends h h1 -> xout b r h1 -> xout b r h.
  Proof.
    intros E [H|(-> & h' & Gs' & ? & K & ?)]; [now left|]. right. split; [auto|]. exists h', Gs'. split; [auto|]. split; [|auto].
    exact (keeps_trans _ _ _ _ (keeps_extends _ _ _ E) K).
  Qed.
  Lemma xout_same h Gs : lives h Gs -> xout false (Ok h) h.
  Proof. intros L. right. split; [auto|]. exists h, Gs. split; [auto|]. split; [apply keeps_refl|auto]. Qed.

  Definition rec_x (m : nat) (rec : heap T -> nref -> arr -> res (heap T)) : Prop :=
    forall h r sh D g ga Gs e, depth r <= m -> rspec r sh D -> length sh <= MAX_DIMS -> sgood h g sh ga ->
      nodes_ok h -> lives h Gs -> unf nodes r e -> xout (stuck e sh (a_stride g)) (rec h r g) h.

  Lemma next_x m rec h x sx Dx (eval : heap T -> res (heap T * arr)) h1 g ga Gs e :
    rec_x m rec -> op1 m x sx Dx -> nodes_ok h -> lives h Gs ->
    eval h = Ok (h1, g) -> extends h h1 -> sgood h1 g sx ga -> unf nodes x e ->
    xout (if is_none x then false else stuck e sx (a_stride g)) (call_next rec h eval x) h.
  Proof.
    intros R (S & DP & MD) NO L E X G U. unfold call_next. destruct (is_none x) eqn:Q; [eapply xout_same; eauto|].
    rewrite E. cbn [bind]. apply (xout_extends _ _ _ h1); [auto|]. eapply R; eauto.
    - eapply nodes_keeps; [eauto|now apply keeps_extends]. - eapply lives_extends; eauto.
  Qed.
  (** the gradient array is new *)
  Lemma whole_x m rec h x sx Dx (eval : heap T -> res (heap T * arr)) h1 g ga Gs e sh st :
    rec_x m rec -> op1 m x sx Dx -> nodes_ok h -> lives h Gs ->
    eval h = Ok (h1, g) -> extends h h1 -> sgood h1 g sx ga -> rmaj g -> unf nodes x e ->
    xout (stuck (arrow WWhole sx x e) sh st) (call_next rec h eval x) h.
  Proof.
    intros R O NO L E X G RM U. pose proof (next_x m rec h x sx Dx eval h1 g ga Gs e R O NO L E X G U) as H.
    unfold arrow. destruct (is_none x); [exact H|]. cbn [stuck]. rewrite row_major_rm. unfold rmaj in RM.
    rewrite (good_shape _ _ _ _ (proj1 G)) in RM. now rewrite <- RM.
  Qed.

  Lemma shape_x m rec h x s Dx t (eval : heap T -> res (heap T * arr)) h1 g ga Gs e :
    rec_x m rec -> op1 m x s Dx -> nodes_ok h -> lives h Gs -> broadcastable s t -> length t <= MAX_DIMS ->
    eval h = Ok (h1, g) -> extends h h1 -> sgood h1 g t ga -> unf nodes x e ->
    xout (stuck (arrow WSame s x e) t (a_stride g)) (call_next_shape N rec h eval s x) h.
  Proof.
    intros R (S & DP & MD) NO L Bc MT E X G U. unfold call_next_shape, arrow. destruct (is_none x) eqn:Q; [eapply xout_same; eauto|].
    rewrite E. cbn [bind stuck]. apply (xout_extends _ _ _ h1); [auto|].
    assert (NO1 : nodes_ok h1) by (eapply nodes_keeps; [eauto|now apply keeps_extends]).
    assert (L1 : lives h1 Gs) by (eapply lives_extends; eauto).
    rewrite (good_shape _ _ _ _ (proj1 G)). destruct (list_eq_dec Nat.eq_dec s t) as [<-|NE].
    - rewrite (proj2 (list_eqb_spec s s) eq_refl). eapply R; eauto.
    - destruct (list_eqb s t) eqn:Q2; [apply list_eqb_spec in Q2; congruence|].
      destruct (reduce_gradient_ok N inv0 F h1 g s t ga (proj1 G) MT Bc) as [(E2 & _ & N1 & K)|(K & h2 & r & E2 & X2 & W & G2)].
      + left. rewrite E2, sums_away_kept, K by auto. split; reflexivity.
      + destruct W as [[W _]|[W1 W2]]; [congruence|]. rewrite E2. cbn [bind].
        assert (C : sums_away s t = false).
        { destruct K as [K|[K|K]]; [congruence|subst s; reflexivity|]. destruct s as [|n s]; [reflexivity|]. rewrite sums_away_kept by discriminate. now rewrite K. }
        rewrite C. cbn [orb]. apply (xout_extends _ _ _ h2); [auto|]. rewrite row_major_rm. unfold rmaj in W2.
        rewrite (good_shape _ _ _ _ G2) in W2. rewrite <- W2. eapply R; eauto.
        * split; [exact G2|]. rewrite W1. eapply lives_new; eauto.
        * eapply nodes_keeps; [eauto|now apply keeps_extends]. * eapply lives_extends; eauto.
  Qed.
  Lemma new_x m rec h x s Dx t (eval : heap T -> res (heap T * arr)) h1 g ga Gs e st :
    rec_x m rec -> op1 m x s Dx -> nodes_ok h -> lives h Gs -> broadcastable s t -> length t <= MAX_DIMS ->
    eval h = Ok (h1, g) -> extends h h1 -> sgood h1 g t ga -> rmaj g -> unf nodes x e ->
    xout (stuck (arrow WNew s x e) t st) (call_next_shape N rec h eval s x) h.
  Proof.
    intros R O NO L Bc MT E X G RM U. pose proof (shape_x m rec h x s Dx t eval h1 g ga Gs e R O NO L Bc MT E X G U) as H.
    unfold rmaj in RM. rewrite (good_shape _ _ _ _ (proj1 G)) in RM. rewrite RM, <- row_major_rm in H.
    unfold arrow in *. destruct (is_none x); [exact H|]. cbn [stuck] in *. exact H.
  Qed.

  Hypothesis LN : length Gh = length nodes.

  Lemma bw_x fuel : forall busy h r sh D g ga Gs e,
    depth r < fuel -> (forall b, In b busy -> depth r <= b) -> rspec r sh D -> length sh <= MAX_DIMS ->
    sgood h g sh ga -> nodes_ok h -> lives h Gs -> unf nodes r e ->
    xout (stuck e sh (a_stride g)) (bw N leaves nodes fuel busy h r g) h.
  Proof.
    induction fuel as [|fuel IH]; intros busy h r sh D g ga Gs e DP BU RS MD G NO L U; [lia|].
    destruct r as [|k|m].
    - inversion U; subst. cbn [bw stuck]. eapply xout_same; eauto.
    - inversion U; subst. destruct RS as [Es RS]. assert (LL : length leaves = length Lsh) by apply L.
      destruct (nth_error leaves k) as [a|] eqn:Ea; [|apply nth_error_None in Ea; assert (k < length Lsh) by (apply nth_error_Some; congruence); lia].
      destruct (leaf_ok N leaves Lsh k sh h g ga Gs a Ea Es G L) as (Q & h' & E & K & L').
      cbn [bw stuck]. rewrite Ea, Q, E. right. split; [auto|]. exists h'. eexists. split; [reflexivity|]. split; [auto|exact L'].
    - destruct RS as (D' & EG & RS). cbn [depth] in *.
      destruct (nth_error nodes m) as [nd|] eqn:En; [|apply nth_error_None in En; assert (m < length Gh) by (apply nth_error_Some; congruence); lia].
      destruct (NO m nd En) as (sh' & D'' & EG' & _ & OK). rewrite EG in EG'. injection EG' as <- <-.
      assert (NB : existsb (Nat.eqb m) busy = false).
      { destruct (existsb (Nat.eqb m) busy) eqn:Q; [|auto]. apply existsb_exists in Q as (b & I & Q). apply Nat.eqb_eq in Q. subst b. apply BU in I. lia. }
      set (rec := fun h r g => bw N leaves nodes fuel (m :: busy) h r g).
      assert (R : rec_x m rec).
      { intros h1 r1 sh1 D1 g1 ga1 Gs1 e1 DP1 RS1 MD1 G1 NO1 L1 U1. unfold rec. eapply IH; eauto; [lia|]. intros b [<-|I]; [auto|]. apply BU in I. lia. }
      cbn [bw]. rewrite NB, En. fold rec.
      inversion U as [| |m' x y sx sy ex ey E Ux Uy Em|m' x y sx sy ex ey E Ux Uy Em|m' x y l r ex ey E Ux Uy Em|m' x s c ex E Ux Em|m' x y l r ex ey E Ux Uy Em
        |m' x s c ex E Ux Em|m' x s ex E Ux Em|m' x y l r ex ey E Ux Uy Em|m' x y l r ex ey E Ux Uy Em|m' x y l r ex ey E Ux Uy Em|m' x y l r ex ey E Ux Uy Em
        |m' x s ex E Ux Em|m' x a1 a2 s ex E Ux Em]; subst m' e; rewrite En in E; injection E as ->.
      + destruct OK as (Dx & Dy & Ox & Oy & J & _). cbn [stuck]. apply xout_bind.
        * eapply shape_x; eauto using ext_refl, join_shape_broadcastable_l.
        * intros h1 Gs1 K1 L1. eapply shape_x; eauto using ext_refl, join_shape_broadcastable_r, nodes_keeps, sgood_keeps.
      + destruct OK as (Dx & Dy & Ox & Oy & J & _). cbn [stuck]. apply xout_bind.
        * eapply shape_x; eauto using ext_refl, join_shape_broadcastable_l.
        * intros h1 Gs1 K1 L1. assert (G1 := sgood_keeps _ _ _ _ _ _ G K1). destruct (neg_s N leaves Lsh h1 g sh ga Gs1 G1 MD L1) as (h2 & r & E2 & X2 & G2 & R2 & L2).
          eapply new_x; eauto using join_shape_broadcastable_r, nodes_keeps.
      + destruct OK as (sx & sy & vx & vy & Dx & Dy & Ox & Oy & J & Gl & Gr & _).
        rewrite (good_shape _ _ _ _ (proj1 Gl)), (good_shape _ _ _ _ (proj1 Gr)).
        pose proof (join_shape_broadcastable_l _ _ _ J) as Bx. pose proof (join_shape_broadcastable_r _ _ _ J) as By. cbn [stuck]. apply xout_bind.
        * destruct (bin_s N leaves Lsh BMul h r g sy sh sh vy ga Gs Gr G (join_self_r _ _ By) MD L) as (h2 & a & E2 & X2 & G2 & R2 & L2).
          eapply new_x; eauto.
        * intros h1 Gs1 K1 L1. assert (G1 := sgood_keeps _ _ _ _ _ _ G K1). assert (Gl1 := sgood_keeps _ _ _ _ _ _ Gl K1).
          destruct (bin_s N leaves Lsh BMul h1 l g sx sh sh vx ga Gs1 Gl1 G1 (join_self_r _ _ Bx) MD L1) as (h2 & a & E2 & X2 & G2 & R2 & L2).
          eapply new_x; eauto using nodes_keeps.
      + destruct OK as (Dx & Ox & -> & _). destruct (scal_s N leaves Lsh BMul h g c sh ga Gs G MD L) as (h2 & a & E2 & X2 & G2 & R2 & L2).
        eapply new_x; eauto using broadcastable_refl.
      + destruct OK as (sx & sy & vx & vy & Dx & Dy & Ox & Oy & J & Gl & Gr & _).
        rewrite (good_shape _ _ _ _ (proj1 Gl)), (good_shape _ _ _ _ (proj1 Gr)).
        pose proof (join_shape_broadcastable_l _ _ _ J) as Bx. pose proof (join_shape_broadcastable_r _ _ _ J) as By.
        assert (MX : length sx <= MAX_DIMS) by apply Ox. assert (MY : length sy <= MAX_DIMS) by apply Oy. cbn [stuck].
        destruct (is_none x) eqn:Q.
        * unfold arrow at 1. rewrite Q. cbn [stuck orb].
          destruct (neg_s N leaves Lsh h l sx vx Gs Gl MX L) as (h1 & nl & E1 & X1 & G1 & _ & L1).
          destruct (bin_s N leaves Lsh BMul h1 g nl sh sx sh ga _ Gs (sgood_extends _ _ _ _ _ _ G X1) G1 (join_self_l _ _ Bx) MD L1) as (h2 & p & E2 & X2 & G2 & _ & L2).
          assert (X12 := extends_trans _ _ _ X1 X2). assert (Gr2 := sgood_extends _ _ _ _ _ _ Gr X12).
          destruct (bin_s N leaves Lsh BMul h2 r r sy sy sy vy vy Gs Gr2 Gr2 (join_self_r _ _ (broadcastable_refl _)) MY L2) as (h3 & q & E3 & X3 & G3 & _ & L3).
          destruct (bin_s N leaves Lsh BDiv h3 p q sh sy sh _ _ Gs (sgood_extends _ _ _ _ _ _ G2 X3) G3 (join_self_l _ _ By) MD L3) as (h4 & w & E4 & X4 & G4 & R4 & L4).
          eapply (new_x m rec h y sy Dy sh _ h4 w); eauto.
          -- cbv beta. rewrite E1. cbn [bind]. rewrite E2. cbn [bind]. rewrite E3. cbn [bind]. exact E4.
          -- eapply extends_trans; [exact X12|]. eapply extends_trans; eauto.
        * destruct (nd_full_made h (n1 N) [] (le_n 1)) as (h1 & one & E1 & M1 & _). unfold nd_scalar. rewrite E1. cbn [bind].
          pose proof (made_sgood _ _ _ _ _ _ _ _ L M1) as G1. assert (X1 : extends h h1) by apply M1.
          assert (L1 := lives_extends _ _ _ _ _ L X1). assert (Gr1 := sgood_extends _ _ _ _ _ _ Gr X1).
          destruct (bin_s N leaves Lsh BDiv h1 one r [] sy sy _ vy Gs G1 Gr1 (join_self_r _ _ (bcast_nil _)) MY L1) as (h2 & rcp & E2 & X2 & G2 & _ & L2).
          rewrite E2. cbn [bind]. assert (X12 := extends_trans _ _ _ X1 X2).
          destruct (bin_s N leaves Lsh BMul h2 g rcp sh sy sh ga _ Gs (sgood_extends _ _ _ _ _ _ G X12) G2 (join_self_l _ _ By) MD L2) as (h3 & lg & E3 & X3 & G3 & R3 & L3).
          rewrite E3. cbn [bind]. assert (X13 := extends_trans _ _ _ X12 X3). apply (xout_extends _ _ _ h3); [auto|].
          assert (NO3 : nodes_ok h3) by (eapply nodes_keeps; [eauto|now apply keeps_extends]).
          apply xout_bind.
          -- eapply new_x; eauto using ext_refl.
          -- intros h4 Gs4 K4 L4. assert (K04 := keeps_trans _ _ _ _ (keeps_extends leaves _ _ X13) K4).
             assert (Gl4 := sgood_keeps _ _ _ _ _ _ Gl K04). assert (Gr4 := sgood_keeps _ _ _ _ _ _ Gr K04). assert (G34 := sgood_keeps _ _ _ _ _ _ G3 K4).
             destruct (bin_s N leaves Lsh BDiv h4 lg r sh sy sh _ vy Gs4 G34 Gr4 (join_self_l _ _ By) MD L4) as (h5 & p & E5 & X5 & G5 & _ & L5).
             destruct (neg_s N leaves Lsh h5 l sx vx Gs4 (sgood_extends _ _ _ _ _ _ Gl4 X5) MX L5) as (h6 & nl & E6 & X6 & G6 & _ & L6).
             destruct (bin_s N leaves Lsh BMul h6 p nl sh sx sh _ _ Gs4 (sgood_extends _ _ _ _ _ _ G5 X6) G6 (join_self_l _ _ Bx) MD L6) as (h7 & w & E7 & X7 & G7 & R7 & L7).
             eapply (new_x m rec h4 y sy Dy sh _ h7 w); eauto using nodes_keeps.
             ++ cbv beta. rewrite E5. cbn [bind]. rewrite E6. cbn [bind]. exact E7.
             ++ eapply extends_trans; [exact X5|]. eapply extends_trans; eauto.
      + destruct OK as (Dx & Ox & -> & _). destruct (scal_s N leaves Lsh BMul h g c sh ga Gs G MD L) as (h2 & a & E2 & X2 & G2 & R2 & L2).
        rewrite E2. cbn [bind]. apply (xout_extends _ _ _ h2); [auto|].
        eapply new_x; eauto using broadcastable_refl, ext_refl. eapply nodes_keeps; [eauto|now apply keeps_extends].
      + destruct OK as (Dx & Ox & -> & _). destruct (neg_s N leaves Lsh h g sh ga Gs G MD L) as (h2 & a & E2 & X2 & G2 & R2 & L2).
        eapply new_x; eauto using broadcastable_refl.
      + destruct OK as (n & vx & vy & Dx & Dy & Ox & Oy & Gl & Gr & -> & _).
        rewrite (good_shape _ _ _ _ (proj1 Gl)), (good_shape _ _ _ _ (proj1 Gr)).
        assert (M1 : length [n] <= MAX_DIMS) by apply Ox. pose proof (join_self_l _ _ (bcast_nil [n])) as J. cbn [stuck]. apply xout_bind.
        * destruct (bin_s N leaves Lsh BMul h r g [n] [] [n] vy ga Gs Gr G J M1 L) as (h2 & a & E2 & X2 & G2 & R2 & L2). eapply whole_x; eauto.
        * intros h1 Gs1 K1 L1. assert (G1 := sgood_keeps _ _ _ _ _ _ G K1). assert (Gl1 := sgood_keeps _ _ _ _ _ _ Gl K1).
          destruct (bin_s N leaves Lsh BMul h1 l g [n] [] [n] vx ga Gs1 Gl1 G1 J M1 L1) as (h2 & a & E2 & X2 & G2 & R2 & L2).
          eapply whole_x; eauto using nodes_keeps.
      + destruct OK as (n & k & vx & vy & Dx & Dy & Ox & Oy & Gl & Gr & -> & _).
        rewrite (good_shape _ _ _ _ (proj1 Gl)), (good_shape _ _ _ _ (proj1 Gr)).
        assert (M2 : length [n; k] <= MAX_DIMS) by apply Ox. cbn [stuck]. apply xout_bind.
        * destruct (unsq1_good h g n ga (proj1 G)) as (gu & Et & Wt & Gt).
          destruct (bin_s N leaves Lsh BMul h gu r [n; 1] [k] [n; k] _ vy Gs (conj Gt (eq_ind_r (fun b => ~ In b (map a_blk leaves)) (proj2 G) Wt)) Gr (join_col n k) M2 L) as (h2 & a & E2 & X2 & G2 & R2 & L2).
          eapply (whole_x m rec h x [n; k] Dx _ h2 a); eauto. cbv beta. rewrite Et. exact E2.
        * intros h1 Gs1 K1 L1. assert (G1 := sgood_keeps _ _ _ _ _ _ G K1). assert (Gl1 := sgood_keeps _ _ _ _ _ _ Gl K1).
          destruct (T_good h1 l n k vx (proj1 Gl1)) as (lt & Et & Wt & Gt).
          destruct (matvec_s N inv0 F leaves Lsh h1 lt g k n _ ga Gs1 (conj Gt (eq_ind_r (fun b => ~ In b (map a_blk leaves)) (proj2 Gl1) Wt)) G1 L1) as (h2 & a & E2 & X2 & G2 & R2 & L2).
          eapply (whole_x m rec h1 y [k] Dy _ h2 a); eauto using nodes_keeps. cbv beta. rewrite Et. exact E2.
      + destruct OK as (n & k & p & vx & vy & Dx & Dy & Ox & Oy & Gl & Gr & -> & _).
        rewrite (good_shape _ _ _ _ (proj1 Gl)), (good_shape _ _ _ _ (proj1 Gr)). cbn [stuck]. apply xout_bind.
        * destruct (T_good h r k p vy (proj1 Gr)) as (rt & Et & Wt & Gt).
          destruct (matmul_s N inv0 F leaves Lsh h g rt n p k ga _ Gs G (conj Gt (eq_ind_r (fun b => ~ In b (map a_blk leaves)) (proj2 Gr) Wt)) L) as (h2 & a & E2 & X2 & G2 & R2 & L2).
          eapply (whole_x m rec h x [n; k] Dx _ h2 a); eauto. cbv beta. rewrite Et. exact E2.
        * intros h1 Gs1 K1 L1. assert (G1 := sgood_keeps _ _ _ _ _ _ G K1). assert (Gl1 := sgood_keeps _ _ _ _ _ _ Gl K1).
          destruct (T_good h1 l n k vx (proj1 Gl1)) as (lt & Et & Wt & Gt).
          destruct (matmul_s N inv0 F leaves Lsh h1 lt g k n p _ ga Gs1 (conj Gt (eq_ind_r (fun b => ~ In b (map a_blk leaves)) (proj2 Gl1) Wt)) G1 L1) as (h2 & a & E2 & X2 & G2 & R2 & L2).
          eapply (whole_x m rec h1 y [k; p] Dy _ h2 a); eauto using nodes_keeps. cbv beta. rewrite Et. exact E2.
      + destruct OK as (q & n & k & p & vx & vy & Dx & Dy & Ox & Oy & Gl & Gr & -> & _).
        rewrite (good_shape _ _ _ _ (proj1 Gl)), (good_shape _ _ _ _ (proj1 Gr)). cbn [stuck]. apply xout_bind.
        * destruct (T12_good h r q k p vy (proj1 Gr)) as (rt & Et & Wt & Gt).
          destruct (bmm_s N inv0 F leaves Lsh h g rt q n p k ga _ Gs G (conj Gt (eq_ind_r (fun b => ~ In b (map a_blk leaves)) (proj2 Gr) Wt)) L) as (h2 & a & E2 & X2 & G2 & R2 & L2).
          eapply (whole_x m rec h x [q; n; k] Dx _ h2 a); eauto. cbv beta. rewrite Et. exact E2.
        * intros h1 Gs1 K1 L1. assert (G1 := sgood_keeps _ _ _ _ _ _ G K1). assert (Gl1 := sgood_keeps _ _ _ _ _ _ Gl K1).
          destruct (T12_good h1 l q n k vx (proj1 Gl1)) as (lt & Et & Wt & Gt).
          destruct (bmm_s N inv0 F leaves Lsh h1 lt g q k n p _ ga Gs1 (conj Gt (eq_ind_r (fun b => ~ In b (map a_blk leaves)) (proj2 Gl1) Wt)) G1 L1) as (h2 & a & E2 & X2 & G2 & R2 & L2).
          eapply (whole_x m rec h1 y [q; k; p] Dy _ h2 a); eauto using nodes_keeps. cbv beta. rewrite Et. exact E2.
      + destruct OK as (Dx & Ox & P & _). unfold arrow. destruct (is_none x) eqn:Q.
        { unfold call_next. rewrite Q. cbn [stuck]. eapply xout_same; eauto. }
        cbn [stuck]. destruct (list_eq_dec Nat.eq_dec s sh) as [->|NE].
        * assert (E : nd_reshape ByRef g sh = Ok (nd_view ByRef g)).
          { unfold nd_reshape. rewrite (good_shape _ _ _ _ (proj1 G)). now rewrite (proj2 (list_eqb_spec sh sh) eq_refl). }
          assert (H := next_x m rec h x sh Dx (fun h => v <- nd_reshape ByRef g sh ;; Ok (h, v)) h (nd_view ByRef g) ga Gs ex R Ox NO L). rewrite Q in H.
          replace (a_stride (nd_view ByRef g)) with (a_stride g) in H by (unfold nd_view; now rewrite reshaped_view_stride). apply H; auto using ext_refl.
          -- rewrite E. reflexivity. -- split; [apply view_good, G|]. rewrite view_blk. apply G.
        * destruct (reshape_exact h g sh ga ByRef s (proj1 G) NE) as [[E C]|(C & r & E & SH & ST)]; rewrite P, Nat.eqb_refl in C; cbn [andb] in C.
          -- rewrite C. left. unfold call_next. rewrite Q, E. split; reflexivity.
          -- rewrite C. cbn [negb orb].
             destruct (reshape_good h g sh ga ByRef s (proj1 G)) as [E'|(r' & E' & W & _ & Gv & _)]; [congruence|]. rewrite E in E'. injection E' as <-.
             assert (H := next_x m rec h x s Dx (fun h => v <- nd_reshape ByRef g s ;; Ok (h, v)) h r (fun i => ga (unrank (rank i s) sh)) Gs ex R Ox NO L). rewrite Q, ST in H.
             eapply H; auto using ext_refl; [rewrite E; reflexivity|split; [exact Gv|]; rewrite W; apply G].
      + destruct OK as (s' & Dx & Ox & A1 & A2 & L1 & L2 & Sw & _). cbv zeta in *. unfold arrow. destruct (is_none x) eqn:Q.
        { unfold call_next. rewrite Q. cbn [stuck]. eapply xout_same; eauto. }
        assert (LS : length sh = length s') by (rewrite Sw; apply swap_at_length). rewrite <- LS in *. cbn [stuck].
        set (i := axis_of a1 (length sh)) in *. set (j := axis_of a2 (length sh)) in *.
        assert (SS : swap_at i j sh = s') by (rewrite Sw; apply swap_at_invol; lia).
        assert (A1' := A1). assert (A2' := A2). rewrite <- (good_shape _ _ _ _ (proj1 G)) in A1', A2'.
        destruct (nd_transpose_ok ByRef g a1 a2 _ _ (good_wf _ _ _ _ (proj1 G)) A1' A2') as (v & E & _ & _ & _ & ST).
        destruct (transpose_ok_good h g sh ga ByRef a1 a2 i j (proj1 G) A1 A2) as (v' & E' & W & Gv). rewrite E in E'. injection E' as <-.
        rewrite SS in *. rewrite <- ST.
        assert (H := fun ga' => next_x m rec h x s' Dx (fun h => v <- nd_transpose ByRef g a1 a2 ;; Ok (h, v)) h v ga' Gs ex R Ox NO L). rewrite Q in H.
        eapply H; auto using ext_refl; [rewrite E; reflexivity|split; [exact Gv|]; rewrite W; apply G].
  Qed.
End Engine.
