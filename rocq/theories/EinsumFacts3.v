(** EinsumFacts3.v: the einsum loops visit the whole index box. *)
From Coq Require Import List Arith Lia Bool ZArith Permutation.
From Verif Require Import Base Spec Layout SpecFacts LayoutFacts Views Kernels Access HeapFacts ReduceFacts Reduce Einsum EinsumFacts EinsumFacts2.
Import ListNotations.
Open Scope res_scope.

Lemma perm_flat_map_cons {A B C} (f : A -> B -> C) a (As : list A) Bs :
  Permutation (map (f a) Bs ++ flat_map (fun b => map (fun x => f x b) As) Bs) (flat_map (fun b => map (fun x => f x b) (a :: As)) Bs).
Proof.
  induction Bs as [|b Bs IH]; cbn [map flat_map app]; [constructor|]. constructor.
  eapply Permutation_trans; [|apply Permutation_app_head; exact IH]. rewrite !app_assoc. apply Permutation_app_tail. apply Permutation_app_comm.
Qed.

Lemma flat_map_swap {A B C} (f : A -> B -> C) As Bs :
  Permutation (flat_map (fun a => map (f a) Bs) As) (flat_map (fun b => map (fun a => f a b) As) Bs).
Proof.
  induction As as [|a As IH].
  - cbn [flat_map map]. induction Bs; cbn [flat_map app]; auto.
  - cbn [flat_map]. eapply Permutation_trans; [apply Permutation_app_head; exact IH|]. apply perm_flat_map_cons.
Qed.

Lemma perm_flat_map_ext {A B} (f g : A -> list B) l : (forall x, In x l -> Permutation (f x) (g x)) -> Permutation (flat_map f l) (flat_map g l).
Proof.
  induction l as [|x l IH]; intros H; cbn [flat_map]; [constructor|]. apply Permutation_app; [apply H; now left|].
  apply IH. intros y I. apply H. now right.
Qed.

Lemma indices_cons_perm {C} (F : list nat -> C) n sh l : Permutation l (indices sh) ->
  Permutation (flat_map (fun idx => map (fun k => F (k :: idx)) (seq 0 n)) l) (map F (indices (n :: sh))).
Proof.
  intros P. cbn [indices]. rewrite flat_map_map.
  eapply Permutation_trans; [apply Permutation_flat_map; exact P|].
  eapply Permutation_trans; [apply (flat_map_swap (fun idx k => F (k :: idx)))|].
  apply perm_flat_map_ext. intros k _. rewrite map_map. apply Permutation_refl.
Qed.

Lemma lin_one nops d i : length d = nops -> scale i d = lin nops [d] [i].
Proof.
  intros L. unfold scale, lin. rewrite (row_map d nops L) at 1. rewrite map_map. apply map_ext. intros k. cbn [col map dot]. lia.
Qed.

Lemma lin_two nops d1 d2 i j : length d1 = nops -> length d2 = nops -> add_lists (scale i d2) (scale j d1) = lin nops [d1; d2] [j; i].
Proof.
  intros L1 L2. unfold scale, lin. rewrite (row_map d1 nops L1) at 1. rewrite (row_map d2 nops L2) at 1. rewrite !map_map, add_lists_map.
  apply map_ext. intros k. cbn [col map dot]. lia.
Qed.

Section Csr.
  Context {T : Type}.
  Variable zero one : T.
  Variable add mul : T -> T -> T.
  Variable CSR : is_csr zero one add mul.

  Local Notation addM := (fun x y => Ok (add x y)).
  Local Notation mulM := (fun x y => Ok (mul x y)).
  Local Notation fmaM := (fun a b c => Ok (add (mul a b) c)).
  Local Notation product := (bigsum mul one).
  Local Notation acc := (@acc_eff T zero add).

  (** operand k of a loop nest: at every index it reads W idx, outside block b *)
  Definition opnd (h : heap T) (b : nat) (rows : list (list nat)) (sh : list nat) (k : nat) (p : ptr) (W : list nat -> T) : Prop :=
    fst p <> b /\ forall idx, in_range idx sh -> ld h (padd p (dot idx (col k rows))) = Ok (W idx).
  Inductive opnds (h : heap T) (b : nat) (rows : list (list nat)) (sh : list nat) : nat -> list ptr -> list (list nat -> T) -> Prop :=
  | opnds_nil k : opnds h b rows sh k [] []
  | opnds_cons k p W ps Ws : opnd h b rows sh k p W -> opnds h b rows sh (S k) ps Ws -> opnds h b rows sh k (p :: ps) (W :: Ws).

  Lemma opnds_eff h h' b rows sh k ps Ws l : acc h h' b l -> opnds h b rows sh k ps Ws -> opnds h' b rows sh k ps Ws.
  Proof.
    intros (_ & F & _). induction 1 as [|k p W ps Ws (N & H) O IH]; constructor; auto. split; [auto|].
    intros idx R. unfold ld. rewrite F; [now apply H|exact N].
  Qed.

  Lemma opnds_length h b rows sh k ps Ws : opnds h b rows sh k ps Ws -> length ps = length Ws.
  Proof. induction 1; cbn [length]; congruence. Qed.

  Lemma opnds_srcs h b inner rows n0 sh idx k ps Ws : opnds h b (inner :: rows) (n0 :: sh) k ps Ws -> in_range idx sh ->
    srcs h b n0 (padds ps (map (fun k => dot idx (col k rows)) (seq k (length ps)))) (map (fun k => nth k inner 0) (seq k (length ps)))
      (map (fun W i => W (i :: idx)) Ws).
  Proof.
    intros O R. induction O as [|k p W ps Ws (N & H) O IH]; cbn [length seq map padds]; constructor; auto. split; [exact N|].
    intros i L. specialize (H (i :: idx)). cbn [col map dot] in H. fold (col k rows) in H.
    rewrite padd_padd. rewrite Nat.add_comm. apply H. now constructor.
  Qed.

  Definition dst_box (h : heap T) (b o : nat) (dcol sh : list nat) : Prop :=
    forall idx, in_range idx sh -> exists x, load h b (o + dot idx dcol) = Ok x.
  Lemma dst_box_eff h h' b o dcol sh l : acc h h' b l -> dst_box h b o dcol sh -> dst_box h' b o dcol sh.
  Proof. intros A D idx R. apply (acc_ok zero add h h' b l _ A). now apply D. Qed.

  Lemma for_each_acc {A} (body : A -> heap T -> res (heap T)) (P : heap T -> Prop) (L : A -> list (nat * T)) b :
    (forall h h' l, acc h h' b l -> P h -> P h') ->
    forall xs, (forall x h, In x xs -> P h -> exists h', body x h = Ok h' /\ acc h h' b (L x)) ->
    forall h, P h -> exists h', for_each body xs h = Ok h' /\ acc h h' b (flat_map L xs).
  Proof.
    intros ST. induction xs as [|x xs IH]; intros H h Ph; cbn [for_each flat_map].
    - exists h. split; [reflexivity|]. apply (acc_nil zero one add mul CSR).
    - destruct (H x h (or_introl eq_refl) Ph) as (h1 & -> & A1). cbn [bind].
      destruct (IH (fun y g I => H y g (or_intror I)) h1 (ST _ _ _ A1 Ph)) as (h2 & E & A2).
      exists h2. split; [exact E|]. now apply (acc_trans zero one add mul CSR) with h1.
  Qed.

  Lemma for_each_ext {A S} (f g : A -> S -> res S) l : (forall x s, In x l -> f x s = g x s) -> forall s, for_each f l s = for_each g l s.
  Proof.
    induction l as [|x l IH]; intros H s; cbn [for_each]; [reflexivity|]. rewrite H by now left.
    destruct (g x s); cbn [bind]; auto. apply IH. intros y s' I. apply H. now right.
  Qed.

  Lemma firstn_seq n m s : firstn n (seq s (n + m)) = seq s n.
  Proof. rewrite seq_add, firstn_app, seq_length, Nat.sub_diag, firstn_O, app_nil_r. apply firstn_all2. now rewrite seq_length. Qed.

  Section Nest.
    Variables (f : heap T -> list ptr -> list nat -> ptr -> nat -> nat -> res (heap T)).
    Hypothesis GOOD : good_sop zero one add mul f.
    Variables (b o : nat) (bases : list ptr) (Ws : list (list nat -> T)).
    Variables (inner : list nat) (rows : list (list nat)) (n0 : nat) (sh : list nat).
    Hypothesis POS : 0 < n0.
    Hypothesis LI : length inner = S (length bases).
    Local Notation n := (length bases).
    Local Notation rws := (inner :: rows).

    (** contribution of one index *)
    Definition term (idx : list nat) : nat * T := (o + dot idx (col n rws), product (map (fun W => W idx) Ws)).

    Definition ready (h : heap T) : Prop := opnds h b rws (n0 :: sh) 0 bases Ws /\ dst_box h b o (col n rws) (n0 :: sh).

    Lemma ready_eff h h' l : acc h h' b l -> ready h -> ready h'.
    Proof. intros A (O & D). split; [now apply opnds_eff with h l|now apply dst_box_eff with h l]. Qed.

    Lemma call_sop_ok h idx : ready h -> in_range idx sh ->
      exists h', call_sop f h bases (b, o) (lin (S n) rows idx) inner n0 = Ok h' /\ acc h h' b (map (fun k => term (k :: idx)) (seq 0 n0)).
    Proof.
      intros (O & D) R. unfold call_sop.
      replace (firstn n (lin (S n) rows idx)) with (map (fun k => dot idx (col k rows)) (seq 0 n)).
      2: { unfold lin. rewrite firstn_map. f_equal. replace (S n) with (n + 1) by lia. symmetry. apply firstn_seq. }
      replace (firstn n inner) with (map (fun k => nth k inner 0) (seq 0 n)).
      2: { transitivity (firstn n (map (fun k => nth k inner 0) (seq 0 (S n)))); [|f_equal; symmetry; now apply row_map].
           rewrite firstn_map. f_equal. replace (S n) with (n + 1) by lia. symmetry. apply firstn_seq. }
      assert (E : nth n (lin (S n) rows idx) 0 = dot idx (col n rows)).
      { unfold lin. apply (nth_map_seq (fun k => dot idx (col k rows))). lia. }
      rewrite E. unfold padd at 1. cbn [fst snd].
      destruct (GOOD h b (o + dot idx (col n rows)) (nth n inner 0) _ _ _ n0 POS (opnds_srcs h b inner rows n0 sh idx 0 bases Ws O R)) as (h' & E' & A).
      - intros k L. destruct (D (k :: idx)) as (x & Ex); [now constructor|]. cbn [col map dot] in Ex. fold (col n rows) in Ex. exists x. rewrite <- Ex. f_equal. lia.
      - exists h'. split; [exact E'|]. unfold row_l in A. erewrite map_ext; [exact A|]. intros k. unfold term. cbn [col map dot]. fold (col n rows).
        f_equal; [lia|]. now rewrite map_map.
    Qed.

    Lemma nest_ok l h : ready h -> Permutation l (indices sh) ->
      exists h', for_each (fun idx h => call_sop f h bases (b, o) (lin (S n) rows idx) inner n0) l h = Ok h' /\
        acc h h' b (map term (indices (n0 :: sh))).
    Proof.
      intros Rd P. destruct (for_each_acc (fun idx h => call_sop f h bases (b, o) (lin (S n) rows idx) inner n0) ready (fun idx => map (fun k => term (k :: idx)) (seq 0 n0)) b ready_eff l) with (h := h) as (h' & E & A).
      - intros idx g I Rg. apply call_sop_ok; auto. apply in_indices. now apply (Permutation_in _ P).
      - exact Rd.
      - exists h'. split; [exact E|]. revert A. apply (acc_perm zero one add mul CSR). now apply indices_cons_perm.
    Qed.
  End Nest.

  Lemma for_each_map {A B S} (g : A -> B) (body : B -> S -> res S) l : forall s, for_each body (map g l) s = for_each (fun x => body (g x)) l s.
  Proof. induction l as [|x l IH]; intros s; cbn [map for_each]; [reflexivity|]. destruct (body (g x) s); cbn [bind]; auto. Qed.

  Lemma for_each_app {A S} (body : A -> S -> res S) l1 l2 : forall s, for_each body (l1 ++ l2) s = (s' <- for_each body l1 s ;; for_each body l2 s').
  Proof. induction l1 as [|x l IH]; intros s; cbn [app for_each]; [reflexivity|]. destruct (body x s); cbn [bind]; auto. Qed.

  Lemma for_each_flat {A B S} (g : A -> list B) (body : B -> S -> res S) l : forall s, for_each body (flat_map g l) s = for_each (fun x => for_each body (g x)) l s.
  Proof.
    induction l as [|x l IH]; intros s; cbn [flat_map for_each]; [reflexivity|]. rewrite for_each_app.
    destruct (for_each body (g x) s); cbn [bind]; auto.
  Qed.

  Lemma unspec_go_eq n sh rows bases dst inner n0 : length rows = length sh -> Forall (fun r => length r = S (length bases)) rows -> n = S (length bases) ->
    forall k idx h, in_range idx sh -> prod sh = k + rank idx sh ->
    unspec_go zero one addM mulM k (mfig_at n sh rows 0 idx) h bases dst inner n0 =
    for_each (fun idx h => call_sop (sop_slice zero one addM mulM) h bases dst (lin n rows idx) inner n0) (skipn (rank idx sh) (indices sh)) h.
  Proof.
    intros LR FR ->. induction k as [|k IH]; intros idx h R P.
    - pose proof (rank_lt idx sh R). lia.
    - cbn [unspec_go]. rewrite (skipn_nth _ _ _ (nth_indices_rank idx sh R)). cbn [for_each]. unfold mfig_at at 1. cbn [m_flat].
      destruct (call_sop _ h bases dst (lin (S (length bases)) rows idx) inner n0) as [h1| |] eqn:E; cbn [bind]; try reflexivity.
      destruct (mfig_increment_spec (S (length bases)) sh rows 0 idx LR FR R) as (idx' & -> & R' & K). cbn [bind].
      destruct k as [|k'].
      + cbn [unspec_go]. rewrite skipn_all2; [reflexivity|]. rewrite indices_length. lia.
      + specialize (K ltac:(lia)). rewrite IH; [|auto|lia]. now rewrite K, Nat.add_1_r.
  Qed.

  (** the whole loop nest *)
  Lemma run_einsum_ok h b o bases Ws rows sh :
    sh <> [] -> Forall (fun n => 0 < n) sh -> length rows = length sh -> Forall (fun r => length r = S (length bases)) rows ->
    length sh <= MAX_DIMS -> length bases < MAX_ARGS ->
    opnds h b rows sh 0 bases Ws -> dst_box h b o (col (length bases) rows) sh ->
    exists h', run_einsum zero one addM mulM fmaM h bases rows sh (b, o) = Ok h' /\
      acc h h' b (map (term o bases Ws (hd [] rows) (tl rows)) (indices sh)).
  Proof.
    intros NE PS LR FR LD LA O D.
    destruct sh as [|n0 sh]; [congruence|]. destruct rows as [|inner rows]; [discriminate|]. clear NE.
    apply Forall_cons_iff in PS as [P0 PS]. apply Forall_cons_iff in FR as [LI FR]. cbn [length] in LR. injection LR as LR. cbn [hd tl].
    assert (RD : ready b o bases Ws inner rows n0 sh h) by (split; auto).
    assert (PP : 0 < prod sh). { clear - PS. induction PS; cbn [prod fold_right]; [lia|]. unfold prod in IHPS. nia. }
    assert (U : exists h', unspecialized zero one addM mulM h bases (inner :: rows) (n0 :: sh) (b, o) = Ok h' /\
                acc h h' b (map (term o bases Ws inner rows) (indices (n0 :: sh)))).
    { unfold unspecialized. cbn [length] in LD. rewrite mfig_from_ok; [|auto|lia|lia]. cbn [bind].
      rewrite (unspec_go_eq _ sh rows bases (b, o) inner n0 LR FR eq_refl) by (rewrite ?rank_zeros; try apply in_range_zeros; lia).
      rewrite rank_zeros. cbn [skipn].
      apply (nest_ok _ (sop_slice_good zero one add mul CSR) b o bases Ws inner rows n0 sh P0 LI); [exact RD|apply Permutation_refl]. }
    unfold run_einsum. destruct ((length bases =? 1) || (length bases =? 2)); [|exact U].
    destruct rows as [|d1 rows]; [exact U|]. destruct rows as [|d2 rows].
    - destruct sh as [|n1 [|? ?]]; try exact U. unfold einsum_2labels.
      apply Forall_cons_iff in PS as [P1 _]. rewrite !uassert_pos by auto. cbn [bind].
      apply Forall_cons_iff in FR as [L1 _].
      destruct (nest_ok _ (sop_fixed_good zero one add mul CSR) b o bases Ws inner [d1] n0 [n1] P0 LI (map (fun i => [i]) (seq 0 n1)) h RD) as (h' & E & A).
      { cbn [indices map]. rewrite <- flat_map_concat_map || idtac. clear. induction (seq 0 n1); cbn [map flat_map app]; auto. }
      exists h'. split; [|exact A]. rewrite for_each_map in E. rewrite <- E. apply for_each_ext. intros i g _. now rewrite (lin_one (S (length bases)) d1 i L1).
    - destruct sh as [|n1 [|n2 [|? ?]]]; destruct rows as [|? ?]; try exact U; try discriminate. unfold einsum_3labels.
      apply Forall_cons_iff in PS as [P1 PS]. apply Forall_cons_iff in PS as [P2 _]. rewrite !uassert_pos by auto. cbn [bind].
      apply Forall_cons_iff in FR as [L1 FR]. apply Forall_cons_iff in FR as [L2 _].
      destruct (nest_ok _ (sop_fixed_good zero one add mul CSR) b o bases Ws inner [d1; d2] n0 [n1; n2] P0 LI (flat_map (fun i => map (fun j => [j; i]) (seq 0 n1)) (seq 0 n2)) h RD) as (h' & E & A).
      { cbn [indices]. eapply Permutation_trans; [apply (flat_map_swap (fun i j => [j; i]))|]. apply perm_flat_map_ext. intros j _.
        rewrite flat_map_map. cbn [map]. clear. induction (seq 0 n2); cbn [map flat_map app]; auto. }
      exists h'. split; [|exact A]. rewrite for_each_flat in E. rewrite <- E. apply for_each_ext. intros i g _. rewrite for_each_map.
      apply for_each_ext. intros j g' _. now rewrite (lin_two (S (length bases)) d1 d2 i j L1 L2).
  Qed.
End Csr.
