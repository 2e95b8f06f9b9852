(** GradFacts3.v: one call of GradientFuncTrait::backward adds a vector-Jacobian product. *)
From Coq Require Import List Arith Lia Bool ZArith Permutation Ring.
From Verif Require Import Base Spec Layout SpecFacts LayoutFacts Views ViewsFacts ViewsFacts2 ViewsFacts3 ViewsFacts4
  Kernels Access HeapFacts KernelFacts OpFacts AccessFacts Chain ChainFacts Reduce ReduceFacts Einsum EinsumFacts2
  PropsViews PropsOps PropsReduce PropsEinsum SpecGrad Autograd GradMath GradFacts GradFacts2.
Import ListNotations.
Open Scope res_scope.

(** everything a node refers to was created before it *)
Definition depth (r : nref) : nat := match r with RNode m => S m | _ => 0 end.

(** ** When a backward call cannot panic *)
Section Calm.
  Context {T : Type} (nodes : list (gnode T)).
  (** passing a gradient of shape [from] on to an operand of shape [to]; [u]: it is row-major *)
  Definition calm_shape (rec : nref -> list nat -> bool -> bool) (x : nref) (from to : list nat) (u : bool) : bool :=
    is_none x || (if list_eqb to from then rec x to u else (list_eqb to [] || some_kept to from) && rec x to true).
  Definition calm_next (rec : nref -> list nat -> bool -> bool) (x : nref) (to : list nat) (u : bool) : bool :=
    is_none x || rec x to u.
  (** no gradient is summed down to a shape of ones, and no scalar or transposed gradient is
      reshaped, on the way from [r] to the leaves *)
  Fixpoint calm (fuel : nat) (r : nref) (sh : list nat) (u : bool) : bool :=
    match fuel with
    | O => true
    | S f =>
      match r with
      | RNode m =>
        match nth_error nodes m with
        | None => true
        | Some (NAdd x y sx sy) => calm_shape (calm f) x sh sx u && calm_shape (calm f) y sh sy u
        | Some (NSub x y sx sy) => calm_shape (calm f) x sh sx u && calm_shape (calm f) y sh sy true
        | Some (NMul x y l r) | Some (NDiv x y l r) => calm_shape (calm f) x sh (a_shape l) true && calm_shape (calm f) y sh (a_shape r) true
        | Some (NMulS x s _) | Some (NDivS x s _) | Some (NNeg x s) => calm_shape (calm f) x sh s true
        | Some (NDot x y l r) | Some (NMatVec x y l r) | Some (NMatMul x y l r) | Some (NBmm x y l r) =>
            calm_next (calm f) x (a_shape l) true && calm_next (calm f) y (a_shape r) true
        | Some (NReshape x s) => is_none x || ((list_eqb s sh || (u && negb (list_eqb sh []))) && calm f x s u)
        | Some (NTrans x a1 a2) =>
            calm_next (calm f) x (swap_at (axis_of a1 (length sh)) (axis_of a2 (length sh)) sh) false
        end
      | _ => true
      end
    end.
End Calm.

Section Engine.
  Context {T : Type} (N : num T) (inv0 : T -> T).
  Hypothesis F : is_field N inv0.
  Notation "0" := (n0 N). Notation "1" := (n1 N).
  Notation "x + y" := (nadd N x y). Notation "x * y" := (nmul N x y).
  Notation "x - y" := (nsub N x y). Notation "- x" := (nneg N x).
  Add Ring T_ring3 : (field_ring N inv0 F).
  Implicit Types h : heap T.

  Variable leaves : list arr.
  Variable Lsh : list (list nat).
  Variable nodes : list (gnode T).
  (** for every node the shape of its tensor and the derivative of the tensor *)
  Variable Gh : list (list nat * (@pert T -> list nat -> T)).

  Let B := map a_blk leaves.

  Definition keeps h h' : Prop :=
    le (length h) (length h') /\ forall b o, b < length h -> ~ In b B -> load h' b o = load h b o.
  Definition sgood h a sh v : Prop := good h a sh v /\ ~ In (a_blk a) B.

  (** the gradient arrays hold [Gs] *)
  Definition lives h (Gs : nat -> list nat -> T) : Prop :=
    length leaves = length Lsh /\ NoDup B /\
    forall k a, nth_error leaves k = Some a -> exists sh, nth_error Lsh k = Some sh /\
      a = fresh_arr (a_blk a) (prod sh) sh /\ le (length sh) MAX_DIMS /\ good h a sh (Gs k).

  Definition rspec (r : nref) (sh : list nat) (D : @pert T -> list nat -> T) : Prop :=
    match r with
    | RNone => forall d idx, in_range idx sh -> D d idx = 0
    | RLeaf k => nth_error Lsh k = Some sh /\ forall d idx, in_range idx sh -> D d idx = d k idx
    | RNode m => exists D', nth_error Gh m = Some (sh, D') /\ forall d idx, in_range idx sh -> D d idx = D' d idx
    end.
  Definition op1 (m : nat) x sx Dx : Prop := rspec x sx Dx /\ le (depth x) m /\ le (length sx) MAX_DIMS.

  Definition node_ok h (m : nat) (nd : gnode T) (sh : list nat) (D : @pert T -> list nat -> T) : Prop :=
    match nd with
    | NAdd x y sx sy => exists Dx Dy, op1 m x sx Dx /\ op1 m y sy Dy /\ join_shape sx sy sh /\
        forall d i, in_range i sh -> D d i = Dx d (bidx sx i) + Dy d (bidx sy i)
    | NSub x y sx sy => exists Dx Dy, op1 m x sx Dx /\ op1 m y sy Dy /\ join_shape sx sy sh /\
        forall d i, in_range i sh -> D d i = Dx d (bidx sx i) - Dy d (bidx sy i)
    | NMul x y l r => exists sx sy vx vy Dx Dy, op1 m x sx Dx /\ op1 m y sy Dy /\ join_shape sx sy sh /\
        sgood h l sx vx /\ sgood h r sy vy /\
        forall d i, in_range i sh -> D d i = Dx d (bidx sx i) * vy (bidx sy i) + vx (bidx sx i) * Dy d (bidx sy i)
    | NDiv x y l r => exists sx sy vx vy Dx Dy, op1 m x sx Dx /\ op1 m y sy Dy /\ join_shape sx sy sh /\
        sgood h l sx vx /\ sgood h r sy vy /\
        forall d i, in_range i sh -> D d i = ndiv N (Dx d (bidx sx i)) (vy (bidx sy i))
          - ndiv N (vx (bidx sx i) * Dy d (bidx sy i)) (vy (bidx sy i) * vy (bidx sy i))
    | NMulS x s c | NDivS x s c => exists Dx, op1 m x s Dx /\ s = sh /\ forall d i, in_range i sh -> D d i = Dx d i * c
    | NNeg x s => exists Dx, op1 m x s Dx /\ s = sh /\ forall d i, in_range i sh -> D d i = - Dx d i
    | NDot x y l r => exists n vx vy Dx Dy, op1 m x [n] Dx /\ op1 m y [n] Dy /\ sgood h l [n] vx /\ sgood h r [n] vy /\ sh = [] /\
        forall d i, in_range i sh -> D d i = total N (map (fun k => Dx d [k] * vy [k] + vx [k] * Dy d [k]) (seq 0%nat n))
    | NMatVec x y l r => exists n k vx vy Dx Dy, op1 m x [n; k] Dx /\ op1 m y [k] Dy /\ sgood h l [n; k] vx /\ sgood h r [k] vy /\ sh = [n] /\
        forall d i, i < n -> D d [i] = total N (map (fun t => Dx d [i; t] * vy [t] + vx [i; t] * Dy d [t]) (seq 0%nat k))
    | NMatMul x y l r => exists n k p vx vy Dx Dy, op1 m x [n; k] Dx /\ op1 m y [k; p] Dy /\ sgood h l [n; k] vx /\ sgood h r [k; p] vy /\
        sh = [n; p] /\
        forall d i j, i < n -> j < p -> D d [i; j] = total N (map (fun t => Dx d [i; t] * vy [t; j] + vx [i; t] * Dy d [t; j]) (seq 0%nat k))
    | NBmm x y l r => exists q n k p vx vy Dx Dy, op1 m x [q; n; k] Dx /\ op1 m y [q; k; p] Dy /\
        sgood h l [q; n; k] vx /\ sgood h r [q; k; p] vy /\ sh = [q; n; p] /\
        forall d b i j, b < q -> i < n -> j < p ->
          D d [b; i; j] = total N (map (fun t => Dx d [b; i; t] * vy [b; t; j] + vx [b; i; t] * Dy d [b; t; j]) (seq 0%nat k))
    | NReshape x s => exists Dx, op1 m x s Dx /\ prod s = prod sh /\
        forall d i, in_range i sh -> D d i = Dx d (unrank (rank i sh) s)
    | NTrans x a1 a2 => exists s Dx, op1 m x s Dx /\
        let i := axis_of a1 (length s) in let j := axis_of a2 (length s) in
        as_absolute a1 (length s) = Ok i /\ as_absolute a2 (length s) = Ok j /\ i < length s /\ j < length s /\ sh = swap_at i j s /\
        forall d k, in_range k sh -> D d k = Dx d (swap_at i j k)
    end.

  Definition nodes_ok h : Prop := forall m nd, nth_error nodes m = Some nd ->
    exists sh D, nth_error Gh m = Some (sh, D) /\ le (length sh) MAX_DIMS /\ node_ok h m nd sh D.

  (** sum over the leaves of the pairing of the gradient with the perturbation *)
  Definition pairing (Gs : nat -> list nat -> T) (d : @pert T) : T :=
    total N (map (fun k => inner N (nth k Lsh []) (Gs k) (d k)) (seq 0%nat (length Lsh))).

  Definition outcome (c : bool) (r : res (heap T)) h Gs (phi : @pert T -> T) : Prop :=
    (r = Panic /\ c = false) \/
    exists h' Gs', r = Ok h' /\ keeps h h' /\ lives h' Gs' /\ forall d, pairing Gs' d = pairing Gs d + phi d.

  (** *** plumbing *)
  Lemma keeps_refl h : keeps h h. Proof. split; auto. Qed.
  Lemma keeps_trans h1 h2 h3 : keeps h1 h2 -> keeps h2 h3 -> keeps h1 h3.
  Proof. intros [L1 H1] [L2 H2]. split; [lia|]. intros b o Lb NB. rewrite H2 by (auto; lia). auto. Qed.
  Lemma keeps_extends h h' : extends h h' -> keeps h h'.
  Proof. intros [L E]. split; auto. Qed.
  Lemma sgood_keeps h h' a sh v : sgood h a sh v -> keeps h h' -> sgood h' a sh v.
  Proof. intros [G NB] [L K]. split; [|auto]. apply (good_heap _ _ _ _ _ G). intros o. apply K; auto. now apply good_blk in G. Qed.
  Lemma lives_extends h h' Gs : lives h Gs -> extends h h' -> lives h' Gs.
  Proof.
    intros (L & ND & H) E. split; [auto|split; [auto|]]. intros k a Q. destruct (H k a Q) as (sh & ? & ? & ? & G).
    exists sh. repeat split; auto; try apply G. now apply (good_extends h).
  Qed.
  Lemma lives_new h Gs b : lives h Gs -> le (length h) b -> ~ In b B.
  Proof.
    intros (_ & _ & H) L I. unfold B in I. apply in_map_iff in I as (a & <- & I). apply In_nth_error in I as (k & I).
    destruct (H k a I) as (sh & _ & _ & _ & G). apply good_blk in G. lia.
  Qed.
  Lemma node_keeps h h' m nd sh D : node_ok h m nd sh D -> keeps h h' -> node_ok h' m nd sh D.
  Proof.
    intros H K. destruct nd; cbn [node_ok] in *; auto.
    - destruct H as (sx & sy & vx & vy & Dx & Dy & ? & ? & ? & ? & ? & ?). exists sx, sy, vx, vy, Dx, Dy. repeat (split; [solve [auto]|]).
      split; [eapply sgood_keeps; eauto|]. split; [eapply sgood_keeps; eauto|auto].
    - destruct H as (sx & sy & vx & vy & Dx & Dy & ? & ? & ? & ? & ? & ?). exists sx, sy, vx, vy, Dx, Dy. repeat (split; [solve [auto]|]).
      split; [eapply sgood_keeps; eauto|]. split; [eapply sgood_keeps; eauto|auto].
    - destruct H as (n & vx & vy & Dx & Dy & ? & ? & ? & ? & ? & ?). exists n, vx, vy, Dx, Dy. repeat (split; [solve [auto]|]).
      split; [eapply sgood_keeps; eauto|]. split; [eapply sgood_keeps; eauto|auto].
    - destruct H as (n & k & vx & vy & Dx & Dy & ? & ? & ? & ? & ? & ?). exists n, k, vx, vy, Dx, Dy. repeat (split; [solve [auto]|]).
      split; [eapply sgood_keeps; eauto|]. split; [eapply sgood_keeps; eauto|auto].
    - destruct H as (n & k & p & vx & vy & Dx & Dy & ? & ? & ? & ? & ? & ?). exists n, k, p, vx, vy, Dx, Dy. repeat (split; [solve [auto]|]).
      split; [eapply sgood_keeps; eauto|]. split; [eapply sgood_keeps; eauto|auto].
    - destruct H as (q & n & k & p & vx & vy & Dx & Dy & ? & ? & ? & ? & ? & ?). exists q, n, k, p, vx, vy, Dx, Dy. repeat (split; [solve [auto]|]).
      split; [eapply sgood_keeps; eauto|]. split; [eapply sgood_keeps; eauto|auto].
  Qed.
  Lemma nodes_keeps h h' : nodes_ok h -> keeps h h' -> nodes_ok h'.
  Proof. intros H K m nd E. destruct (H m nd E) as (sh & D & ? & ? & ?). exists sh, D. repeat split; auto. eapply node_keeps; eauto. Qed.

  Lemma outcome_bind c1 c2 r1 k h Gs f1 f2 : outcome c1 r1 h Gs f1 ->
    (forall h1 Gs1, keeps h h1 -> lives h1 Gs1 -> outcome c2 (k h1) h1 Gs1 f2) ->
    outcome (c1 && c2) (h1 <- r1 ;; k h1) h Gs (fun d => f1 d + f2 d).
  Proof.
    intros [[-> ->]|(h1 & Gs1 & -> & K1 & L1 & P1)] H; [left; auto|]. cbn [bind].
    destruct (H h1 Gs1 K1 L1) as [[-> ->]|(h2 & Gs2 & -> & K2 & L2 & P2)]; [left; now rewrite andb_false_r|].
    right. exists h2, Gs2. split; [auto|]. split; [now apply (keeps_trans _ h1)|]. split; [auto|]. intros d. rewrite P2, P1. ring.
  Qed.
  Lemma outcome_phi c r h Gs f f' : outcome c r h Gs f -> (forall d, f d = f' d) -> outcome c r h Gs f'.
  Proof.
    intros [H|(h' & Gs' & ? & ? & ? & H)] E; [now left|]. right. exists h', Gs'. split; [auto|]. split; [auto|]. split; [auto|].
    intros d. rewrite H. now rewrite E.
  Qed.
  Lemma outcome_extends c r h h1 Gs f : extends h h1 -> outcome c r h1 Gs f -> outcome c r h Gs f.
  Proof.
    intros E [H|(h' & Gs' & ? & K & ? & H)]; [now left|]. right. exists h', Gs'. split; [auto|]. split; [|auto].
    apply (keeps_trans _ h1); [now apply keeps_extends|auto].
  Qed.
  Lemma outcome_same c h Gs : lives h Gs -> outcome c (Ok h) h Gs (fun _ => 0).
  Proof. intros L. right. exists h, Gs. split; [auto|]. split; [apply keeps_refl|]. split; [auto|]. intros. ring. Qed.

  (** what the recursive calls of node [m] are known to do *)
  Definition rec_ok (m : nat) (rec : heap T -> nref -> arr -> res (heap T)) (c : nref -> list nat -> bool -> bool) : Prop :=
    forall h r sh D g ga Gs (u : bool), le (depth r) m -> rspec r sh D -> le (length sh) MAX_DIMS -> sgood h g sh ga -> (u = true -> rmaj g) ->
      nodes_ok h -> lives h Gs -> outcome (c r sh u) (rec h r g) h Gs (fun d => inner N sh ga (D d)).

  Lemma is_none_spec r : is_none r = true -> r = RNone. Proof. destruct r; easy. Qed.

  Lemma call_next_ok m rec c h x sx Dx (eval : heap T -> res (heap T * arr)) u h1 g ga Gs :
    rec_ok m rec c -> op1 m x sx Dx -> nodes_ok h -> lives h Gs ->
    eval h = Ok (h1, g) -> extends h h1 -> sgood h1 g sx ga -> (u = true -> rmaj g) ->
    outcome (calm_next c x sx u) (call_next rec h eval x) h Gs (fun d => inner N sx ga (Dx d)).
  Proof.
    intros R (S & DP & MD) NO L E X G U. unfold call_next, calm_next. destruct (is_none x) eqn:Q.
    - apply is_none_spec in Q. subst x. eapply outcome_phi; [now apply outcome_same|]. intros d. symmetry. apply (inner_zero_r N inv0 F). intros. now apply S.
    - rewrite E. cbn [bind orb]. apply (outcome_extends _ _ _ h1); [auto|]. apply R; auto.
      + apply (nodes_keeps h); [auto|now apply keeps_extends]. + now apply (lives_extends h).
  Qed.

  Lemma bidx_in s t j : broadcastable s t -> in_range j t -> in_range (bidx s j) s.
  Proof. intros Bc R. destruct (broadcast_stride_ok s (rm_stride s) t (rm_stride_length _) Bc) as (? & _ & _ & K). now apply K. Qed.

  Lemma call_next_shape_ok m rec c h x s Dx t (eval : heap T -> res (heap T * arr)) u h1 g ga Gs :
    rec_ok m rec c -> op1 m x s Dx -> nodes_ok h -> lives h Gs -> broadcastable s t -> le (length t) MAX_DIMS ->
    eval h = Ok (h1, g) -> extends h h1 -> sgood h1 g t ga -> (u = true -> rmaj g) ->
    outcome (calm_shape c x t s u) (call_next_shape N rec h eval s x) h Gs (fun d => inner N t ga (fun j => Dx d (bidx s j))).
  Proof.
    intros R (S & DP & MD) NO L Bc MT E X G U. unfold call_next_shape, calm_shape. destruct (is_none x) eqn:Q.
    - apply is_none_spec in Q. subst x. eapply outcome_phi; [now apply outcome_same|]. intros d. symmetry. apply (inner_zero_r N inv0 F).
      intros j J. apply S. now apply (bidx_in s t).
    - rewrite E. cbn [bind orb]. apply (outcome_extends _ _ _ h1); [auto|].
      assert (NO1 : nodes_ok h1) by (apply (nodes_keeps h); [auto|now apply keeps_extends]).
      assert (L1 : lives h1 Gs) by now apply (lives_extends h).
      rewrite (good_shape _ _ _ _ (proj1 G)). destruct (list_eqb s t) eqn:Q2.
      + apply list_eqb_spec in Q2. subst t. eapply outcome_phi; [apply (R h1 x s Dx g ga Gs u); auto|]. intros d. apply (inner_ext N); [auto|]. intros i I. now rewrite bidx_same.
      + assert (NE : s <> t) by (intros E'; apply list_eqb_spec in E'; congruence).
        destruct (reduce_gradient_ok N inv0 F h1 g s t ga (proj1 G) MT Bc) as [(E2 & _ & N1 & K)|(K & h2 & r & E2 & X2 & W & G2)].
        * left. rewrite E2, K. split; [reflexivity|]. destruct (list_eqb s []) eqn:Q3; [apply list_eqb_spec in Q3; congruence|reflexivity].
        * destruct W as [[W _]|[W1 W2]]; [congruence|]. rewrite E2. cbn [bind].
          assert (C : list_eqb s [] || some_kept s t = true).
          { destruct K as [K|[K|K]]; [congruence|rewrite (proj2 (list_eqb_spec _ _) K); reflexivity|rewrite K; apply orb_true_r]. }
          rewrite C. cbn [andb]. apply (outcome_extends _ _ _ h2); [auto|]. eapply outcome_phi.
          -- apply R; auto. ++ exact S. ++ split; [exact G2|]. rewrite W1. apply (lives_new h1 Gs); auto.
             ++ apply (nodes_keeps h1); [auto|now apply keeps_extends]. ++ now apply (lives_extends h1).
          -- intros d. symmetry. apply (inner_fibre N inv0 F). intros j J. now apply (bidx_in s t).
  Qed.

  (** a new array is not a gradient array *)
  Lemma made_sgood h h' r sh v Gs : lives h Gs -> made h h' r sh v -> sgood h' r sh v.
  Proof. intros L (X & W & G & _). split; [auto|]. rewrite W. now apply (lives_new h Gs). Qed.

  Lemma join_self_r s t : broadcastable s t -> join_shape s t t.
  Proof.
    intros Bc. apply broadcastable_dims in Bc as [L H]. split; [lia|]. intros k. unfold dim_compat, dim_join.
    destruct (Nat.ltb_spec k (length s)).
    - destruct (H k H0) as [-> | ->]; [cbn [Nat.eqb]; auto|]. destruct (dim_r t k =? 1)%nat; auto.
    - rewrite (dim_r_over s) by auto. cbn [Nat.eqb]. auto.
  Qed.

  (** accumulating into a leaf: accumulate_grad.rs *)
  Lemma leaf_ok k sh h g ga Gs a : nth_error leaves k = Some a -> nth_error Lsh k = Some sh -> sgood h g sh ga -> lives h Gs ->
    list_eqb (a_shape a) (a_shape g) = true /\
    exists h', nd_assign (lift2 (nadd N)) h a g = Ok h' /\ keeps h h' /\
      lives h' (fun k' i => if (k' =? k)%nat then Gs k' i + ga i else Gs k' i).
  Proof.
    intros Ea Es [G NB] (LL & ND & H). destruct (H k a Ea) as (sh' & Es' & Fa & MD & Ga). rewrite Es in Es'. injection Es' as <-.
    assert (Sa : a_shape a = sh) by apply Ga. split; [rewrite Sa, (good_shape _ _ _ _ G); now apply list_eqb_spec|].
    assert (In (a_blk a) B) by (unfold B; apply in_map; eapply nth_error_In; eauto).
    assert (IA : inv (a_blk a) (prod sh) false a). { rewrite Fa. cbn [a_blk fresh_arr]. apply fresh_inv; [auto|]. now apply good_prod in Ga. }
    pose proof (nd_assign_ok (lift2 (nadd N)) h a g (good_valid _ _ _ _ Ga) (good_valid _ _ _ _ G) (good_flags _ _ _ _ Ga) (good_nb _ _ _ _ Ga)) as A.
    rewrite (good_shape _ _ _ _ G), Sa in A.
    assert (FC : f_contig (a_fl a) = true) by (rewrite Fa; reflexivity). assert (FW : f_write (a_fl a) = true) by (rewrite Fa; reflexivity).
    specialize (A FC FW (broadcastable_refl _) MD). 
    assert (NF : no_feedback a g). { intros i j _ _ Q. exfalso. apply NB. now rewrite Q. }
    specialize (A NF). unfold assign_values in A. rewrite Sa, (good_shape _ _ _ _ G) in A.
    rewrite (mapM_pure_ext _ (fun i => Gs k i + ga i)) in A.
    2:{ intros i I. apply in_indices in I. rewrite (good_get _ _ _ _ _ Ga I), bidx_same by auto. cbn [bind]. now rewrite (good_get _ _ _ _ _ G I). }
    destruct A as (h' & E & EL & SE). exists h'. split; [auto|].
    assert (OTH : forall b o, b <> a_blk a -> load h' b o = load h b o).
    { intros b o Hb. apply SE. intros (i & _ & Q & _). contradiction. }
    split.
    - split; [destruct SE as [Q _]; lia|]. intros b o _ Hb. apply OTH. intros ->. contradiction.
    - split; [auto|]. split; [auto|]. intros k' a' E'. destruct (H k' a' E') as (sh' & Es' & Fa' & MD' & Ga'). exists sh'. split; [auto|]. split; [auto|]. split; [auto|].
      destruct (k' =? k)%nat eqn:Q.
      + apply Nat.eqb_eq in Q. subst k'. rewrite Ea in E'. injection E' as <-. rewrite Es in Es'. injection Es' as <-.
        split; [apply Ga|]. split; [auto|]. intros i I. rewrite <- Sa in I.
        destruct (nth_error_of_indices_get h' a _ i EL I) as (y & Y1 & ->). rewrite Sa in *. rewrite nth_error_map, (nth_indices_rank _ _ I) in Y1.
        cbn in Y1. congruence.
      + apply Nat.eqb_neq in Q. eapply good_heap; [exact Ga'|]. intros o. apply OTH. intros Q'. apply Q.
        assert (U := proj1 (NoDup_nth_error B) ND). apply U.
        * unfold B. rewrite map_length. apply nth_error_Some. congruence.
        * unfold B. rewrite !nth_error_map, Ea, E'. cbn. congruence.
  Qed.
  Lemma pairing_leaf k sh Gs ga d : nth_error Lsh k = Some sh ->
    pairing (fun k' i => if (k' =? k)%nat then Gs k' i + ga i else Gs k' i) d = pairing Gs d + inner N sh ga (d k).
  Proof.
    intros E. unfold pairing.
    transitivity (total N (map (fun k' => inner N (nth k' Lsh []) (Gs k') (d k') +
      (if Nat.eq_dec k' k then inner N (nth k' Lsh []) ga (d k') else 0)) (seq 0%nat (length Lsh)))).
    - apply (total_ext N). intros k' _. destruct (Nat.eq_dec k' k) as [->|NE].
      + rewrite Nat.eqb_refl. apply (inner_add_l N inv0 F).
      + apply Nat.eqb_neq in NE. rewrite NE. transitivity (inner N (nth k' Lsh []) (Gs k') (d k')); [reflexivity|ring].
    - rewrite (total_add N inv0 F). f_equal. rewrite (total_single N inv0 F Nat.eq_dec (fun k' => inner N (nth k' Lsh []) ga (d k'))).
      + now rewrite (nth_error_nth _ _ _ E).
      + apply seq_NoDup.
      + apply in_seq. assert (k < length Lsh) by (apply nth_error_Some; congruence). lia.
  Qed.

  (** operators inside backward *)
  Lemma bin_s o h a b sa sb sh va vb Gs : sgood h a sa va -> sgood h b sb vb -> join_shape sa sb sh -> le (length sh) MAX_DIMS -> lives h Gs ->
    exists h' r, a_bin N o h a b = Ok (h', r) /\ extends h h' /\ sgood h' r sh (m_bin N o sa va sb vb) /\ rmaj r /\ lives h' Gs.
  Proof.
    intros [Ga _] [Gb _] J MD L. destruct (a_bin_ok N o h a b sa sb sh va vb Ga Gb J MD) as (h' & r & E & M).
    exists h', r. split; [auto|]. split; [apply M|]. split; [now apply (made_sgood h _ _ _ _ Gs)|]. split; [apply M|]. apply (lives_extends h); [auto|apply M].
  Qed.
  Lemma scal_s o h a c sa va Gs : sgood h a sa va -> le (length sa) MAX_DIMS -> lives h Gs ->
    exists h' r, a_scal N o h a c = Ok (h', r) /\ extends h h' /\ sgood h' r sa (fun i => bopf N o (va i) c) /\ rmaj r /\ lives h' Gs.
  Proof.
    intros [Ga _] MD L. destruct (a_scal_ok N o h a c sa va Ga MD) as (h' & r & E & M).
    exists h', r. split; [auto|]. split; [apply M|]. split; [now apply (made_sgood h _ _ _ _ Gs)|]. split; [apply M|]. apply (lives_extends h); [auto|apply M].
  Qed.
  Lemma neg_s h a sa va Gs : sgood h a sa va -> le (length sa) MAX_DIMS -> lives h Gs ->
    exists h' r, a_neg N h a = Ok (h', r) /\ extends h h' /\ sgood h' r sa (fun i => - va i) /\ rmaj r /\ lives h' Gs.
  Proof.
    intros [Ga _] MD L. destruct (a_neg_ok N h a sa va Ga MD) as (h' & r & E & M).
    exists h', r. split; [auto|]. split; [apply M|]. split; [now apply (made_sgood h _ _ _ _ Gs)|]. split; [apply M|]. apply (lives_extends h); [auto|apply M].
  Qed.
  Lemma sgood_extends h h' a sh v : sgood h a sh v -> extends h h' -> sgood h' a sh v.
  Proof. intros G E. apply (sgood_keeps h); [auto|now apply keeps_extends]. Qed.
  Lemma join_self_l s t : broadcastable s t -> join_shape t s t.
  Proof. intros. now apply join_shape_sym, join_self_r. Qed.
  Lemma bcast_nil t : broadcastable [] t.
  Proof. split; [cbn; lia|]. rewrite skipn_all2 by (cbn; lia). constructor. Qed.
  Lemma ext_refl h : extends h h. Proof. split; auto. Qed.

    Lemma join_col n k : join_shape [n; 1%nat] [k] [n; k].
    Proof.
      split; [reflexivity|]. intros [|[|j]]; unfold dim_r, dim_compat, dim_join; cbn [rev app nth length].
      - cbn [Nat.eqb]. auto.
      - destruct (Nat.eqb_spec n 1%nat); subst; auto.
      - destruct j; cbn; auto.
    Qed.
    Lemma clamp_lt n i : i < n -> (if (n =? 1)%nat then 0%nat else i) = i.
    Proof. destruct (Nat.eqb_spec n 1%nat); lia. Qed.

    Lemma matvec_s h a b n k va vb Gs : sgood h a [n; k] va -> sgood h b [k] vb -> lives h Gs ->
      exists h' r, a_matmul N h a b = Ok (h', r) /\ extends h h' /\ sgood h' r [n] (m_matvec N k va vb) /\ rmaj r /\ lives h' Gs.
    Proof.
      intros [Ga _] [Gb _] L. destruct (a_matvec_ok N inv0 F h a b n k va vb Ga Gb) as (h' & r & E & M).
      exists h', r. split; [auto|]. split; [apply M|]. split; [now apply (made_sgood h _ _ _ _ Gs)|]. split; [apply M|]. apply (lives_extends h); [auto|apply M].
    Qed.
    Lemma matmul_s h a b n k p va vb Gs : sgood h a [n; k] va -> sgood h b [k; p] vb -> lives h Gs ->
      exists h' r, a_matmul N h a b = Ok (h', r) /\ extends h h' /\ sgood h' r [n; p] (m_matmul N k va vb) /\ rmaj r /\ lives h' Gs.
    Proof.
      intros [Ga _] [Gb _] L. destruct (a_matmul_ok N inv0 F h a b n k p va vb Ga Gb) as (h' & r & E & M).
      exists h', r. split; [auto|]. split; [apply M|]. split; [now apply (made_sgood h _ _ _ _ Gs)|]. split; [apply M|]. apply (lives_extends h); [auto|apply M].
    Qed.
    Lemma bmm_s h a b q n k p va vb Gs : sgood h a [q; n; k] va -> sgood h b [q; k; p] vb -> lives h Gs ->
      exists h' r, a_bmm N h a b = Ok (h', r) /\ extends h h' /\ sgood h' r [q; n; p] (m_bmm N k va vb) /\ rmaj r /\ lives h' Gs.
    Proof.
      intros [Ga _] [Gb _] L. destruct (a_bmm_ok N inv0 F h a b q n k p va vb Ga Gb) as (h' & r & E & M).
      exists h', r. split; [auto|]. split; [apply M|]. split; [now apply (made_sgood h _ _ _ _ Gs)|]. split; [apply M|]. apply (lives_extends h); [auto|apply M].
    Qed.


  Section Node.
    Variable m : nat.
    Variable rec : heap T -> nref -> arr -> res (heap T).
    Variable c : nref -> list nat -> bool -> bool.
    Hypothesis R : rec_ok m rec c.
    Variable sh : list nat.
    Variable D : @pert T -> list nat -> T.
    Hypothesis MD : le (length sh) MAX_DIMS.
    Variable g : arr.
    Variable ga : list nat -> T.
    Variable u : bool.
    Hypothesis U : u = true -> rmaj g.

    Lemma next_g h Gs x s Dx : nodes_ok h -> lives h Gs -> sgood h g sh ga -> op1 m x s Dx -> broadcastable s sh ->
      outcome (calm_shape c x sh s u) (call_next_shape N rec h (fun h => Ok (h, g)) s x) h Gs (fun d => inner N sh ga (fun j => Dx d (bidx s j))).
    Proof. intros NO L G O Bc. eapply (call_next_shape_ok m rec c h x s Dx sh); eauto using ext_refl. Qed.

    Lemma add_ok h Gs x y sx sy : nodes_ok h -> lives h Gs -> sgood h g sh ga -> node_ok h m (NAdd x y sx sy) sh D ->
      outcome (calm_shape c x sh sx u && calm_shape c y sh sy u)
        (h1 <- call_next_shape N rec h (fun h => Ok (h, g)) sx x ;; call_next_shape N rec h1 (fun h => Ok (h, g)) sy y) h Gs
        (fun d => inner N sh ga (D d)).
    Proof.
      intros NO L G (Dx & Dy & Ox & Oy & J & E). eapply outcome_phi; [eapply outcome_bind|].
      - apply (next_g h Gs x sx Dx); auto. now apply join_shape_broadcastable_l in J.
      - intros h1 Gs1 K1 L1. apply (next_g h1 Gs1 y sy Dy); auto; [eapply nodes_keeps; eauto|eapply sgood_keeps; eauto|].
        now apply join_shape_broadcastable_r in J.
      - intros d. symmetry. apply (inner_pointwise2 N inv0 F). intros i I. rewrite E by auto. ring.
    Qed.
    Lemma sub_ok h Gs x y sx sy : nodes_ok h -> lives h Gs -> sgood h g sh ga -> node_ok h m (NSub x y sx sy) sh D ->
      outcome (calm_shape c x sh sx u && calm_shape c y sh sy true)
        (h1 <- call_next_shape N rec h (fun h => Ok (h, g)) sx x ;; call_next_shape N rec h1 (fun h => a_neg N h g) sy y) h Gs
        (fun d => inner N sh ga (D d)).
    Proof.
      intros NO L G (Dx & Dy & Ox & Oy & J & E). eapply outcome_phi; [eapply outcome_bind|].
      - apply (next_g h Gs x sx Dx); auto. now apply join_shape_broadcastable_l in J.
      - intros h1 Gs1 K1 L1. assert (G1 := sgood_keeps _ _ _ _ _ G K1). destruct (neg_s h1 g sh ga Gs1 G1 MD L1) as (h2 & r & E2 & X2 & G2 & R2 & L2).
        eapply (call_next_shape_ok m rec c h1 y sy Dy sh); eauto; [eapply nodes_keeps; eauto|]. now apply join_shape_broadcastable_r in J.
      - intros d. symmetry. apply (inner_pointwise2 N inv0 F). intros i I. cbv beta. rewrite E by auto. ring.
    Qed.
    Lemma mul_ok h Gs x y l r : nodes_ok h -> lives h Gs -> sgood h g sh ga -> node_ok h m (NMul x y l r) sh D ->
      outcome (calm_shape c x sh (a_shape l) true && calm_shape c y sh (a_shape r) true)
        (h1 <- call_next_shape N rec h (fun h => a_bin N BMul h r g) (a_shape l) x ;;
         call_next_shape N rec h1 (fun h => a_bin N BMul h l g) (a_shape r) y) h Gs
        (fun d => inner N sh ga (D d)).
    Proof.
      intros NO L G (sx & sy & vx & vy & Dx & Dy & Ox & Oy & J & Gl & Gr & E).
      rewrite (good_shape _ _ _ _ (proj1 Gl)), (good_shape _ _ _ _ (proj1 Gr)).
      pose proof (join_shape_broadcastable_l _ _ _ J) as Bx. pose proof (join_shape_broadcastable_r _ _ _ J) as By.
      eapply outcome_phi; [eapply outcome_bind|].
      - destruct (bin_s BMul h r g sy sh sh vy ga Gs Gr G (join_self_r _ _ By) MD L) as (h2 & a & E2 & X2 & G2 & R2 & L2).
        eapply (call_next_shape_ok m rec c h x sx Dx sh); eauto.
      - intros h1 Gs1 K1 L1. assert (G1 := sgood_keeps _ _ _ _ _ G K1). assert (Gl1 := sgood_keeps _ _ _ _ _ Gl K1).
        destruct (bin_s BMul h1 l g sx sh sh vx ga Gs1 Gl1 G1 (join_self_r _ _ Bx) MD L1) as (h2 & a & E2 & X2 & G2 & R2 & L2).
        eapply (call_next_shape_ok m rec c h1 y sy Dy sh); eauto. eapply nodes_keeps; eauto.
      - intros d. symmetry. apply (inner_pointwise2 N inv0 F). intros i I. cbv beta. unfold m_bin. rewrite !(bidx_same sh) by auto. cbn [bopf]. rewrite E by auto. ring.
    Qed.
    Lemma muls_ok h Gs x s k : nodes_ok h -> lives h Gs -> sgood h g sh ga -> node_ok h m (NMulS x s k) sh D ->
      outcome (calm_shape c x sh s true) (call_next_shape N rec h (fun h => a_scal N BMul h g k) s x) h Gs (fun d => inner N sh ga (D d)).
    Proof.
      intros NO L G (Dx & Ox & -> & E). destruct (scal_s BMul h g k sh ga Gs G MD L) as (h2 & a & E2 & X2 & G2 & R2 & L2).
      eapply outcome_phi; [eapply (call_next_shape_ok m rec c h x sh Dx sh); eauto using broadcastable_refl|].
      intros d. apply (inner_pointwise N). intros i I. cbn [bopf]. rewrite bidx_same, E by auto. ring.
    Qed.
    Lemma divs_ok h Gs x s k : nodes_ok h -> lives h Gs -> sgood h g sh ga -> node_ok h m (NDivS x s k) sh D ->
      outcome (calm_shape c x sh s true) (r1 <- a_scal N BMul h g k ;; let '(h1, g1) := r1 in call_next_shape N rec h1 (fun h => Ok (h, g1)) s x)
        h Gs (fun d => inner N sh ga (D d)).
    Proof.
      intros NO L G (Dx & Ox & -> & E). destruct (scal_s BMul h g k sh ga Gs G MD L) as (h2 & a & E2 & X2 & G2 & R2 & L2).
      rewrite E2. cbn [bind]. apply (outcome_extends _ _ _ h2); [auto|].
      eapply outcome_phi; [eapply (call_next_shape_ok m rec c h2 x sh Dx sh); eauto using broadcastable_refl, ext_refl|].
      - eapply nodes_keeps; [eauto|now apply keeps_extends].
      - intros d. apply (inner_pointwise N). intros i I. cbn [bopf]. rewrite bidx_same, E by auto. ring.
    Qed.
    Lemma neg_ok h Gs x s : nodes_ok h -> lives h Gs -> sgood h g sh ga -> node_ok h m (NNeg x s) sh D ->
      outcome (calm_shape c x sh s true) (call_next_shape N rec h (fun h => a_neg N h g) s x) h Gs (fun d => inner N sh ga (D d)).
    Proof.
      intros NO L G (Dx & Ox & -> & E). destruct (neg_s h g sh ga Gs G MD L) as (h2 & a & E2 & X2 & G2 & R2 & L2).
      eapply outcome_phi; [eapply (call_next_shape_ok m rec c h x sh Dx sh); eauto using broadcastable_refl|].
      intros d. apply (inner_pointwise N). intros i I. cbv beta. rewrite bidx_same, E by auto. ring.
    Qed.
    Lemma div_ok h Gs x y l r : nodes_ok h -> lives h Gs -> sgood h g sh ga -> node_ok h m (NDiv x y l r) sh D ->
      outcome (calm_shape c x sh (a_shape l) true && calm_shape c y sh (a_shape r) true)
        (if is_none x then
           call_next_shape N rec h (fun h =>
             r1 <- a_neg N h l ;; let '(h1, nl) := r1 in
             r2 <- a_bin N BMul h1 g nl ;; let '(h2, p) := r2 in
             r3 <- a_bin N BMul h2 r r ;; let '(h3, q) := r3 in
             a_bin N BDiv h3 p q) (a_shape r) y
         else
           r1 <- nd_scalar h (n1 N) ;; let '(h1, one) := r1 in
           r2 <- a_bin N BDiv h1 one r ;; let '(h2, rcp) := r2 in
           r3 <- a_bin N BMul h2 g rcp ;; let '(h3, lg) := r3 in
           h4 <- call_next_shape N rec h3 (fun h => Ok (h, lg)) (a_shape l) x ;;
           call_next_shape N rec h4 (fun h =>
             r1 <- a_bin N BDiv h lg r ;; let '(h1, p) := r1 in
             r2 <- a_neg N h1 l ;; let '(h2, nl) := r2 in
             a_bin N BMul h2 p nl) (a_shape r) y) h Gs
        (fun d => inner N sh ga (D d)).
    Proof.
      intros NO L G (sx & sy & vx & vy & Dx & Dy & Ox & Oy & J & Gl & Gr & E).
      rewrite (good_shape _ _ _ _ (proj1 Gl)), (good_shape _ _ _ _ (proj1 Gr)).
      pose proof (join_shape_broadcastable_l _ _ _ J) as Bx. pose proof (join_shape_broadcastable_r _ _ _ J) as By.
      assert (MX : le (length sx) MAX_DIMS) by apply Ox. assert (MY : le (length sy) MAX_DIMS) by apply Oy.
      destruct (is_none x) eqn:Q.
      - unfold calm_shape at 1. rewrite Q. cbn [orb andb]. apply is_none_spec in Q. subst x.
        destruct (neg_s h l sx vx Gs Gl MX L) as (h1 & nl & E1 & X1 & G1 & _ & L1).
        destruct (bin_s BMul h1 g nl sh sx sh ga _ Gs (sgood_extends _ _ _ _ _ G X1) G1 (join_self_l _ _ Bx) MD L1) as (h2 & p & E2 & X2 & G2 & _ & L2).
        assert (X12 := extends_trans _ _ _ X1 X2). assert (Gr2 := sgood_extends _ _ _ _ _ Gr X12).
        destruct (bin_s BMul h2 r r sy sy sy vy vy Gs Gr2 Gr2 (join_self_r _ _ (broadcastable_refl _)) MY L2) as (h3 & q & E3 & X3 & G3 & _ & L3).
        destruct (bin_s BDiv h3 p q sh sy sh _ _ Gs (sgood_extends _ _ _ _ _ G2 X3) G3 (join_self_l _ _ By) MD L3) as (h4 & w & E4 & X4 & G4 & R4 & L4).
        eapply outcome_phi; [eapply (call_next_shape_ok m rec c h y sy Dy sh _ true h4 w); eauto|].
        + cbv beta. rewrite E1. cbn [bind]. rewrite E2. cbn [bind]. rewrite E3. cbn [bind]. exact E4.
        + eapply extends_trans; [exact X12|]. eapply extends_trans; eauto.
        + intros d. apply (inner_pointwise N). intros i I. unfold m_bin. assert (I' : in_range (bidx sy i) sy) by now apply (bidx_in sy sh).
          rewrite !(bidx_same sh i), ?(bidx_same sy (bidx sy i)) by auto. cbn [bopf]. rewrite E by auto.
          destruct Ox as (Sx & _). cbn [rspec] in Sx. rewrite Sx by now apply (bidx_in sx sh).
          rewrite !(fld_div _ _ F), !(fld_inv _ _ F). ring.
      - destruct (nd_full_made h 1 [] (le_n 1)) as (h1 & one & E1 & M1 & _). unfold nd_scalar. rewrite E1. cbn [bind].
        pose proof (made_sgood _ _ _ _ _ _ L M1) as G1. assert (X1 : extends h h1) by apply M1.
        assert (L1 := lives_extends _ _ _ L X1). assert (Gr1 := sgood_extends _ _ _ _ _ Gr X1).
        destruct (bin_s BDiv h1 one r [] sy sy _ vy Gs G1 Gr1 (join_self_r _ _ (bcast_nil _)) MY L1) as (h2 & rcp & E2 & X2 & G2 & _ & L2).
        rewrite E2. cbn [bind]. assert (X12 := extends_trans _ _ _ X1 X2).
        destruct (bin_s BMul h2 g rcp sh sy sh ga _ Gs (sgood_extends _ _ _ _ _ G X12) G2 (join_self_l _ _ By) MD L2) as (h3 & lg & E3 & X3 & G3 & R3 & L3).
        rewrite E3. cbn [bind]. assert (X13 := extends_trans _ _ _ X12 X3). apply (outcome_extends _ _ _ h3); [auto|].
        assert (NO3 : nodes_ok h3) by (eapply nodes_keeps; [eauto|now apply keeps_extends]).
        eapply outcome_phi; [eapply outcome_bind|].
        + eapply (call_next_shape_ok m rec c h3 x sx Dx sh); eauto using ext_refl.
        + intros h4 Gs4 K4 L4. assert (K04 := keeps_trans _ _ _ (keeps_extends _ _ X13) K4).
          assert (Gl4 := sgood_keeps _ _ _ _ _ Gl K04). assert (Gr4 := sgood_keeps _ _ _ _ _ Gr K04). assert (G34 := sgood_keeps _ _ _ _ _ G3 K4).
          destruct (bin_s BDiv h4 lg r sh sy sh _ vy Gs4 G34 Gr4 (join_self_l _ _ By) MD L4) as (h5 & p & E5 & X5 & G5 & _ & L5).
          destruct (neg_s h5 l sx vx Gs4 (sgood_extends _ _ _ _ _ Gl4 X5) MX L5) as (h6 & nl & E6 & X6 & G6 & _ & L6).
          destruct (bin_s BMul h6 p nl sh sx sh _ _ Gs4 (sgood_extends _ _ _ _ _ G5 X6) G6 (join_self_l _ _ Bx) MD L6) as (h7 & w & E7 & X7 & G7 & R7 & L7).
          eapply (call_next_shape_ok m rec c h4 y sy Dy sh _ true h7 w); eauto.
          * eapply nodes_keeps; eauto.
          * cbv beta. rewrite E5. cbn [bind]. rewrite E6. cbn [bind]. exact E7.
          * eapply extends_trans; [exact X5|]. eapply extends_trans; eauto.
        + intros d. symmetry. apply (inner_pointwise2 N inv0 F). intros i I. unfold m_bin. assert (I' : in_range (bidx sy i) sy) by now apply (bidx_in sy sh).
          rewrite !(bidx_same sh i), ?(bidx_same sy (bidx sy i)) by auto. cbn [bopf]. rewrite E by auto.
          rewrite !(fld_div _ _ F), !(fld_inv _ _ F). ring.
    Qed.

    (** matrix products *)
    Notation Sg := (Sg N).
    Lemma dot_ok h Gs x y l r : nodes_ok h -> lives h Gs -> sgood h g sh ga -> node_ok h m (NDot x y l r) sh D ->
      outcome (calm_next c x (a_shape l) true && calm_next c y (a_shape r) true)
        (h1 <- call_next rec h (fun h => a_bin N BMul h r g) x ;; call_next rec h1 (fun h => a_bin N BMul h l g) y) h Gs
        (fun d => inner N sh ga (D d)).
    Proof.
      intros NO L G (n & vx & vy & Dx & Dy & Ox & Oy & Gl & Gr & -> & E).
      rewrite (good_shape _ _ _ _ (proj1 Gl)), (good_shape _ _ _ _ (proj1 Gr)).
      assert (M1 : le (length [n]) MAX_DIMS) by apply Ox. pose proof (join_self_l _ _ (bcast_nil [n])) as J.
      eapply outcome_phi; [eapply outcome_bind|].
      - destruct (bin_s BMul h r g [n] [] [n] vy ga Gs Gr G J M1 L) as (h2 & a & E2 & X2 & G2 & R2 & L2).
        eapply (call_next_ok m rec c h x [n] Dx); eauto.
      - intros h1 Gs1 K1 L1. assert (G1 := sgood_keeps _ _ _ _ _ G K1). assert (Gl1 := sgood_keeps _ _ _ _ _ Gl K1).
        destruct (bin_s BMul h1 l g [n] [] [n] vx ga Gs1 Gl1 G1 J M1 L1) as (h2 & a & E2 & X2 & G2 & R2 & L2).
        eapply (call_next_ok m rec c h1 y [n] Dy); eauto. eapply nodes_keeps; eauto.
      - intros d. rewrite (inner0 N inv0 F), !(inner1 N inv0 F), E by constructor.
        etransitivity; [|apply (dot_adjoint N inv0 F n (ga []) (fun k => vx [k]) (fun k => vy [k]) (fun k => Dx d [k]) (fun k => Dy d [k]))].
        f_equal; apply Sg_ext; intros k K; unfold m_bin; rewrite (bidx_same [n]) by (constructor; [auto|constructor]); reflexivity.
    Qed.

    Lemma matmul_ok h Gs x y l r : nodes_ok h -> lives h Gs -> sgood h g sh ga -> node_ok h m (NMatMul x y l r) sh D ->
      outcome (calm_next c x (a_shape l) true && calm_next c y (a_shape r) true)
        (h1 <- call_next rec h (fun h => rt <- nd_T ByRef r ;; a_matmul N h g rt) x ;;
         call_next rec h1 (fun h => lt <- nd_T ByRef l ;; a_matmul N h lt g) y) h Gs
        (fun d => inner N sh ga (D d)).
    Proof.
      intros NO L G (n & k & p & vx & vy & Dx & Dy & Ox & Oy & Gl & Gr & -> & E).
      rewrite (good_shape _ _ _ _ (proj1 Gl)), (good_shape _ _ _ _ (proj1 Gr)).
      eapply outcome_phi; [eapply outcome_bind|].
      - destruct (T_good h r k p vy (proj1 Gr)) as (rt & Et & Wt & Gt).
        destruct (matmul_s h g rt n p k ga _ Gs G (conj Gt (eq_ind_r (fun b => ~ In b B) (proj2 Gr) Wt)) L) as (h2 & a & E2 & X2 & G2 & R2 & L2).
        eapply (call_next_ok m rec c h x [n; k] Dx _ true); eauto. cbv beta. rewrite Et. exact E2.
      - intros h1 Gs1 K1 L1. assert (G1 := sgood_keeps _ _ _ _ _ G K1). assert (Gl1 := sgood_keeps _ _ _ _ _ Gl K1).
        destruct (T_good h1 l n k vx (proj1 Gl1)) as (lt & Et & Wt & Gt).
        destruct (matmul_s h1 lt g k n p _ ga Gs1 (conj Gt (eq_ind_r (fun b => ~ In b B) (proj2 Gl1) Wt)) G1 L1) as (h2 & a & E2 & X2 & G2 & R2 & L2).
        eapply (call_next_ok m rec c h1 y [k; p] Dy _ true); eauto; [eapply nodes_keeps; eauto|]. cbv beta. rewrite Et. exact E2.
      - intros d. rewrite !(inner2 N inv0 F).
        etransitivity; [apply (mm_adjoint N inv0 F n k p (fun i j => ga [i; j]) (fun i t => vx [i; t]) (fun t j => vy [t; j]) (fun i t => Dx d [i; t]) (fun t j => Dy d [t; j]))|].
        apply Sg_ext. intros i I. apply Sg_ext. intros j J. rewrite E by auto. reflexivity.
    Qed.
    Lemma bmm_ok h Gs x y l r : nodes_ok h -> lives h Gs -> sgood h g sh ga -> node_ok h m (NBmm x y l r) sh D ->
      outcome (calm_next c x (a_shape l) true && calm_next c y (a_shape r) true)
        (h1 <- call_next rec h (fun h => rt <- nd_transpose ByRef r 1 2 ;; a_bmm N h g rt) x ;;
         call_next rec h1 (fun h => lt <- nd_transpose ByRef l 1 2 ;; a_bmm N h lt g) y) h Gs
        (fun d => inner N sh ga (D d)).
    Proof.
      intros NO L G (q & n & k & p & vx & vy & Dx & Dy & Ox & Oy & Gl & Gr & -> & E).
      rewrite (good_shape _ _ _ _ (proj1 Gl)), (good_shape _ _ _ _ (proj1 Gr)).
      eapply outcome_phi; [eapply outcome_bind|].
      - destruct (T12_good h r q k p vy (proj1 Gr)) as (rt & Et & Wt & Gt).
        destruct (bmm_s h g rt q n p k ga _ Gs G (conj Gt (eq_ind_r (fun b => ~ In b B) (proj2 Gr) Wt)) L) as (h2 & a & E2 & X2 & G2 & R2 & L2).
        eapply (call_next_ok m rec c h x [q; n; k] Dx _ true); eauto. cbv beta. rewrite Et. exact E2.
      - intros h1 Gs1 K1 L1. assert (G1 := sgood_keeps _ _ _ _ _ G K1). assert (Gl1 := sgood_keeps _ _ _ _ _ Gl K1).
        destruct (T12_good h1 l q n k vx (proj1 Gl1)) as (lt & Et & Wt & Gt).
        destruct (bmm_s h1 lt g q k n p _ ga Gs1 (conj Gt (eq_ind_r (fun b => ~ In b B) (proj2 Gl1) Wt)) G1 L1) as (h2 & a & E2 & X2 & G2 & R2 & L2).
        eapply (call_next_ok m rec c h1 y [q; k; p] Dy _ true); eauto; [eapply nodes_keeps; eauto|]. cbv beta. rewrite Et. exact E2.
      - intros d. rewrite !(inner3 N inv0 F).
        etransitivity; [apply (bmm_adjoint N inv0 F q n k p (fun b i j => ga [b; i; j]) (fun b i t => vx [b; i; t]) (fun b t j => vy [b; t; j])
          (fun b i t => Dx d [b; i; t]) (fun b t j => Dy d [b; t; j]))|].
        apply Sg_ext. intros b Bq. apply Sg_ext. intros i I. apply Sg_ext. intros j J. rewrite E by auto. reflexivity.
    Qed.
    Lemma matvec_ok h Gs x y l r : nodes_ok h -> lives h Gs -> sgood h g sh ga -> node_ok h m (NMatVec x y l r) sh D ->
      outcome (calm_next c x (a_shape l) true && calm_next c y (a_shape r) true)
        (h1 <- call_next rec h (fun h => u <- nd_unsqueeze ByRef g 1 ;; a_bin N BMul h u r) x ;;
         call_next rec h1 (fun h => mt <- nd_T ByRef l ;; a_matmul N h mt g) y) h Gs
        (fun d => inner N sh ga (D d)).
    Proof.
      intros NO L G (n & k & vx & vy & Dx & Dy & Ox & Oy & Gl & Gr & -> & E).
      rewrite (good_shape _ _ _ _ (proj1 Gl)), (good_shape _ _ _ _ (proj1 Gr)).
      assert (M2 : le (length [n; k]) MAX_DIMS) by apply Ox.
      eapply outcome_phi; [eapply outcome_bind|].
      - destruct (unsq1_good h g n ga (proj1 G)) as (gu & Et & Wt & Gt).
        destruct (bin_s BMul h gu r [n; 1%nat] [k] [n; k] _ vy Gs (conj Gt (eq_ind_r (fun b => ~ In b B) (proj2 G) Wt)) Gr (join_col n k) M2 L) as (h2 & a & E2 & X2 & G2 & R2 & L2).
        eapply (call_next_ok m rec c h x [n; k] Dx _ true); eauto. cbv beta. rewrite Et. exact E2.
      - intros h1 Gs1 K1 L1. assert (G1 := sgood_keeps _ _ _ _ _ G K1). assert (Gl1 := sgood_keeps _ _ _ _ _ Gl K1).
        destruct (T_good h1 l n k vx (proj1 Gl1)) as (lt & Et & Wt & Gt).
        destruct (matvec_s h1 lt g k n _ ga Gs1 (conj Gt (eq_ind_r (fun b => ~ In b B) (proj2 Gl1) Wt)) G1 L1) as (h2 & a & E2 & X2 & G2 & R2 & L2).
        eapply (call_next_ok m rec c h1 y [k] Dy _ true); eauto; [eapply nodes_keeps; eauto|]. cbv beta. rewrite Et. exact E2.
      - intros d. cbv beta. rewrite !(inner2 N inv0 F), !(inner1 N inv0 F).
        etransitivity; [|etransitivity; [apply (mv_adjoint N inv0 F n k (fun i => ga [i]) (fun i t => vx [i; t]) (fun t => vy [t]) (fun i t => Dx d [i; t]) (fun t => Dy d [t]))|]].
        + f_equal. apply Sg_ext. intros i I. apply Sg_ext. intros t Ht. unfold m_bin, bidx. cbn [length Nat.sub skipn clamp nth bopf].
          now rewrite !clamp_lt by auto.
        + apply Sg_ext. intros i I. rewrite E by auto. reflexivity.
    Qed.

    (** views *)
    Lemma reshape_ok h Gs x s : nodes_ok h -> lives h Gs -> sgood h g sh ga -> node_ok h m (NReshape x s) sh D ->
      outcome (is_none x || ((list_eqb s sh || (u && negb (list_eqb sh []))) && c x s u))
        (call_next rec h (fun h => v <- nd_reshape ByRef g s ;; Ok (h, v)) x) h Gs (fun d => inner N sh ga (D d)).
    Proof.
      intros NO L G (Dx & Ox & P & E). 
      assert (EI : forall d, inner N s (fun i => ga (unrank (rank i s) sh)) (Dx d) = inner N sh ga (D d)).
      { intros d. assert (Ps := good_prod _ _ _ _ (proj1 G)).
        assert (KR : forall i, in_range i sh -> rank i sh < prod s) by (intros i I; rewrite P; now apply rank_lt).
        assert (KS : forall i, in_range i s -> rank i s < prod sh) by (intros i I; rewrite <- P; now apply rank_lt).
        symmetry. transitivity (inner N sh ga (fun i => Dx d (unrank (rank i sh) s))); [apply (inner_ext N); [auto|]; intros i I; now rewrite E|].
        apply (inner_bij N inv0 F s sh (fun i => unrank (rank i sh) s) (fun i => unrank (rank i s) sh)).
        - intros i I. destruct (unrank_in_range _ s (KR i I)) as [I1 ->]. split; [auto|now apply unrank_rank].
        - intros i I. destruct (unrank_in_range _ sh (KS i I)) as [I1 ->]. split; [auto|now apply unrank_rank]. }
      destruct (reshape_good h g sh ga ByRef s (proj1 G)) as [Q|(v & Q & W & _ & Gv & Rv)].
      - unfold call_next. destruct (is_none x) eqn:Z.
        + apply is_none_spec in Z. subst x. eapply outcome_phi; [now apply outcome_same|]. intros d. rewrite <- EI. symmetry.
          apply (inner_zero_r N inv0 F). intros. now apply Ox.
        + left. rewrite Q. split; [reflexivity|]. cbn [orb]. destruct (list_eqb s sh || (u && negb (list_eqb sh []))) eqn:C; [|reflexivity]. exfalso.
          destruct (reshape_no_panic h g sh ga ByRef s (proj1 G) (eq_sym P)) as (r & Er); [|congruence].
          apply orb_prop in C as [C|C]; [left; now apply list_eqb_spec in C|right]. apply andb_prop in C as [C1 C2]. split; [auto|].
          intros ->. discriminate C2.
      - assert (H : outcome (calm_next c x s u) (call_next rec h (fun h => v <- nd_reshape ByRef g s ;; Ok (h, v)) x) h Gs
                      (fun d => inner N s (fun i => ga (unrank (rank i s) sh)) (Dx d))).
        { eapply (call_next_ok m rec c h x s Dx _ u h v); eauto using ext_refl.
          - cbv beta. now rewrite Q. - split; [exact Gv|]. rewrite W. apply G. }
        eapply outcome_phi; [|exact EI]. unfold calm_next in H. destruct H as [[H1 H2]|H]; [left|right; exact H]. split; [auto|].
        apply orb_false_iff in H2 as [-> ->]. now rewrite andb_false_r.
    Qed.
    Lemma trans_ok h Gs x a1 a2 : nodes_ok h -> lives h Gs -> sgood h g sh ga -> node_ok h m (NTrans x a1 a2) sh D ->
      outcome (calm_next c x (swap_at (axis_of a1 (length sh)) (axis_of a2 (length sh)) sh) false)
        (call_next rec h (fun h => v <- nd_transpose ByRef g a1 a2 ;; Ok (h, v)) x) h Gs (fun d => inner N sh ga (D d)).
    Proof.
      intros NO L G (s & Dx & Ox & A1 & A2 & L1 & L2 & S & E). cbv zeta in *.
      assert (LS : length sh = length s) by (rewrite S; apply swap_at_length).
      rewrite <- LS in *. set (i := axis_of a1 (length sh)) in *. set (j := axis_of a2 (length sh)) in *.
      assert (SS : swap_at i j sh = s) by (rewrite S; apply swap_at_invol; lia). rewrite SS.
      destruct (transpose_ok_good h g sh ga ByRef a1 a2 i j (proj1 G) A1 A2) as (v & Q & W & Gv). rewrite SS in Gv.
      eapply outcome_phi.
      - eapply (call_next_ok m rec c h x s Dx _ false h v); eauto using ext_refl; [cbv beta; now rewrite Q| |discriminate].
        split; [exact Gv|]. rewrite W. apply G.
      - intros d. symmetry. transitivity (inner N sh ga (fun k => Dx d (swap_at i j k))); [apply (inner_ext N); [auto|]; intros k K; now rewrite E|].
        apply (inner_bij N inv0 F s sh (swap_at i j) (swap_at i j)).
        + intros k K. split; [apply in_range_swap; auto; [lia|lia|now rewrite <- S]|]. apply swap_at_invol; rewrite (in_range_length _ _ K); lia.
        + intros k K. split; [apply in_range_swap; auto; now rewrite SS|]. apply swap_at_invol; rewrite (in_range_length _ _ K); lia.
    Qed.
  End Node.

  (** ** a whole call of backward *)
  Hypothesis LN : length Gh = length nodes.

  Lemma bw_ok fuel : forall busy h r sh D g ga Gs (u : bool),
    depth r < fuel -> (forall b, In b busy -> le (depth r) b) -> rspec r sh D -> le (length sh) MAX_DIMS ->
    sgood h g sh ga -> (u = true -> rmaj g) -> nodes_ok h -> lives h Gs ->
    outcome (calm nodes fuel r sh u) (bw N leaves nodes fuel busy h r g) h Gs (fun d => inner N sh ga (D d)).
  Proof.
    induction fuel as [|fuel IH]; intros busy h r sh D g ga Gs u DP BU RS MD G U NO L; [lia|].
    destruct r as [|k|m].
    - cbn [bw calm]. eapply outcome_phi; [now apply outcome_same|]. intros d. symmetry. apply (inner_zero_r N inv0 F). intros. now apply RS.
    - destruct RS as [Es RS]. assert (LL : length leaves = length Lsh) by apply L.
      destruct (nth_error leaves k) as [a|] eqn:Ea; [|apply nth_error_None in Ea; assert (k < length Lsh) by (apply nth_error_Some; congruence); lia].
      destruct (leaf_ok k sh h g ga Gs a Ea Es G L) as (Q & h' & E & K & L').
      cbn [bw calm]. rewrite Ea, Q, E. right. exists h'. eexists. split; [reflexivity|]. split; [auto|]. split; [exact L'|].
      intros d. rewrite (pairing_leaf k sh) by auto. f_equal. apply (inner_ext N); [auto|]. intros i I. now rewrite RS.
    - destruct RS as (D' & EG & RS). cbn [depth] in *.
      destruct (nth_error nodes m) as [nd|] eqn:En; [|apply nth_error_None in En; assert (m < length Gh) by (apply nth_error_Some; congruence); lia].
      destruct (NO m nd En) as (sh' & D'' & EG' & _ & OK). rewrite EG in EG'. injection EG' as <- <-.
      assert (NB : existsb (Nat.eqb m) busy = false).
      { destruct (existsb (Nat.eqb m) busy) eqn:Q; [|auto]. apply existsb_exists in Q as (b & I & Q). apply Nat.eqb_eq in Q. subst b. apply BU in I. lia. }
      assert (R : rec_ok m (fun h r g => bw N leaves nodes fuel (m :: busy) h r g) (calm nodes fuel)).
      { intros h1 r1 sh1 D1 g1 ga1 Gs1 u1 DP1 RS1 MD1 G1 U1 NO1 L1. apply IH; auto; [lia|]. intros b [<-|I]; [auto|]. apply BU in I. lia. }
      eapply outcome_phi with (f := fun d => inner N sh ga (D' d)).
      2:{ intros d. apply (inner_ext N); [auto|]. intros i I. now rewrite RS. }
      cbn [bw calm]. rewrite NB, En. destruct nd.
      + eapply add_ok; eauto. + eapply sub_ok; eauto. + eapply mul_ok; eauto. + eapply muls_ok; eauto. + eapply div_ok; eauto.
      + eapply divs_ok; eauto. + eapply neg_ok; eauto. + eapply dot_ok; eauto. + eapply matvec_ok; eauto. + eapply matmul_ok; eauto.
      + eapply bmm_ok; eauto. + eapply reshape_ok; eauto. + eapply trans_ok; eauto.
  Qed.

  (** the pairing determines the gradients *)
  Lemma pairing_unit Gs k idx sh : nth_error Lsh k = Some sh -> in_range idx sh -> pairing Gs (unit_pert N k idx) = Gs k idx.
  Proof.
    intros E I. unfold pairing.
    transitivity (total N (map (fun k' => if Nat.eq_dec k' k then Gs k' idx else 0) (seq 0%nat (length Lsh)))).
    - apply (total_ext N). intros k' _. destruct (Nat.eq_dec k' k) as [->|NE].
      + rewrite (nth_error_nth _ _ _ E). rewrite <- (inner_unit N inv0 F sh (Gs k) idx) by auto. apply (inner_ext N); [auto|].
        intros i _. unfold unit_pert. rewrite Nat.eqb_refl. cbn [andb]. destruct (list_eq_dec Nat.eq_dec i idx); auto.
      + apply (inner_zero_r N inv0 F). intros i _. unfold unit_pert. apply Nat.eqb_neq in NE. now rewrite NE.
    - apply (total_single N inv0 F Nat.eq_dec (fun k' => Gs k' idx)); [apply seq_NoDup|].
      apply in_seq. assert (k < length Lsh) by (apply nth_error_Some; congruence). lia.
  Qed.
  Lemma lives_ext h Gs Gs' : lives h Gs -> (forall k sh idx, nth_error Lsh k = Some sh -> in_range idx sh -> Gs k idx = Gs' k idx) -> lives h Gs'.
  Proof.
    intros (L & ND & H) E. split; [auto|]. split; [auto|]. intros k a Q. destruct (H k a Q) as (sh & ES & Fr & MD & G).
    exists sh. repeat split; auto; try apply G. intros idx I. rewrite (good_get _ _ _ _ _ G I). now rewrite (E k sh).
  Qed.

  (** what backward does, entry by entry *)
  Theorem bw_entry busy fuel h r sh D g ga Gs (u : bool) :
    depth r < fuel -> (forall b, In b busy -> le (depth r) b) -> rspec r sh D -> le (length sh) MAX_DIMS ->
    sgood h g sh ga -> (u = true -> rmaj g) -> nodes_ok h -> lives h Gs ->
    (bw N leaves nodes fuel busy h r g = Panic /\ calm nodes fuel r sh u = false) \/
    exists h', bw N leaves nodes fuel busy h r g = Ok h' /\ keeps h h' /\
      lives h' (fun k idx => Gs k idx + inner N sh ga (D (unit_pert N k idx))).
  Proof.
    intros DP BU RS MD G U NO L. destruct (bw_ok fuel busy h r sh D g ga Gs u DP BU RS MD G U NO L) as [H|(h' & Gs' & E & K & L' & P)]; [now left|].
    right. exists h'. split; [auto|]. split; [auto|]. apply (lives_ext h' Gs'); [auto|]. intros k s idx Es I.
    rewrite <- (pairing_unit Gs' k idx s Es I), P. now rewrite (pairing_unit Gs k idx s Es I).
  Qed.
End Engine.
