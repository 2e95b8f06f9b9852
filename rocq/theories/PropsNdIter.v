(** PropsNdIter.v: C73, what nditer returns for arbitrary axes. *)
From Coq Require Import List Arith Lia Bool ZArith.
From Verif Require Import Base Spec Layout SpecFacts LayoutFacts Views ViewsFacts ViewsFacts2 ViewsFacts3
  Kernels Access HeapFacts KernelFacts OpFacts AccessFacts Chain ChainFacts Reduce ReduceFacts Iter PropsViews PropsOps PropsReduce
  PropsIter PropsBcast.
Import ListNotations.
Open Scope res_scope.

(** ** Specification *)
(** The position after j steps.  Every axis, from the last to the first, stays on a digit in
    0..n instead of 0..n-1, and going back to 0 moves back by n - 1 strides only.  An axis that
    was advanced c times has been reset c / (n+1) times, so it is c mod (n+1) + c / (n+1)
    strides away from its start, and the axis before it was advanced c / (n+1) times.
    The result is the distance and the number of resets of the first axis. *)
Fixpoint walk (sh st : list nat) (j : nat) : nat * nat :=
  match sh, st with
  | n :: sh', s :: st' => let '(o, c) := walk sh' st' j in (o + (c mod S n + c / S n) * s, c / S n)
  | _, _ => (0, j)
  end.

(** the distances of the cells copied for one item: consecutive cells when the strides look
    like one run of step 0 or 1, the elements otherwise *)
Definition copied (sh st os : list nat) : Prop :=
  (evenly sh st /\ last st 0 <= 1 -> os = seq 0 (prod sh)) /\
  (~ (evenly sh st /\ last st 0 <= 1) -> os = offsets sh st).

(** item j should hold, for every remaining index, the element of a at the merged index *)
Definition items_right (a : arr) (A : list nat) {T} (h h' : heap T) (rs : list arr) : Prop :=
  length rs = prod (take_axes A (a_shape a)) /\
  forall idx, in_range idx (a_shape a) ->
    exists r, nth_error rs (rank (take_axes A idx) (take_axes A (a_shape a))) = Some r /\
      a_shape r = drop_axes A (a_shape a) /\ get h' r (drop_axes A idx) = get h a idx.

(** ** the carry loop *)
Fixpoint digits (sh : list nat) (j : nat) : list nat * nat :=
  match sh with
  | [] => ([], j)
  | n :: sh' => let '(d, c) := digits sh' j in (c mod S n :: d, c / S n)
  end.
Lemma digits_walk sh : forall st j, length st = length sh -> snd (digits sh j) = snd (walk sh st j).
Proof.
  induction sh as [|n sh IH]; intros [|s st] j L; try discriminate; [reflexivity|]. injection L as L. cbn [digits walk].
  specialize (IH st j L). destruct (digits sh j), (walk sh st j). cbn [snd] in *. now subst.
Qed.
Lemma digits_zero sh : digits sh 0 = (repeat 0 (length sh), 0).
Proof. induction sh as [|n sh IH]; [reflexivity|]. cbn [digits length repeat]. rewrite IH. now rewrite Nat.mod_0_l, Nat.div_0_l by lia. Qed.
Lemma walk_zero sh : forall st, walk sh st 0 = (0, 0).
Proof. induction sh as [|n sh IH]; intros [|s st]; try reflexivity. cbn [walk]. rewrite IH. now rewrite Nat.mod_0_l, Nat.div_0_l by lia. Qed.

Lemma step_digit c n : 0 < n ->
  (c mod S n <> n -> S c mod S n = S (c mod S n) /\ S c / S n = c / S n) /\
  (c mod S n = n -> S c mod S n = 0 /\ S c / S n = S (c / S n)).
Proof.
  intros N. pose proof (Nat.div_mod c (S n) ltac:(lia)) as D. pose proof (Nat.mod_upper_bound c (S n) ltac:(lia)) as U.
  set (q := c / S n) in *. set (m := c mod S n) in *. split; intros H.
  - assert (S c = S n * q + S m) by lia. split; symmetry; [apply (Nat.mod_unique _ _ q)|apply (Nat.div_unique _ _ _ (S m))]; lia.
  - assert (S c = S n * S q + 0) by lia. split; symmetry; [apply (Nat.mod_unique _ _ (S q))|apply (Nat.div_unique _ _ _ 0)]; lia.
Qed.

Lemma carry_walk sh : forall st j base, length st = length sh -> Forall (fun n => 0 < n) sh ->
  nditer_carry sh st (fst (digits sh j)) (base + fst (walk sh st j)) =
    Ok (fst (digits sh (S j)), base + fst (walk sh st (S j)), snd (walk sh st (S j)) =? snd (walk sh st j)) /\
  (snd (walk sh st (S j)) = snd (walk sh st j) \/ snd (walk sh st (S j)) = S (snd (walk sh st j))).
Proof.
  induction sh as [|n sh IH]; intros [|s st] j base L P; try discriminate.
  - cbn [nditer_carry digits walk fst snd]. rewrite (proj2 (Nat.eqb_neq _ _)) by lia. auto.
  - injection L as L. inversion P as [|? ? N P']; subst. cbn [digits walk].
    pose proof (digits_walk sh st j L) as E0. pose proof (digits_walk sh st (S j) L) as E1.
    destruct (digits sh j) as [d c] eqn:D0, (digits sh (S j)) as [d' c'] eqn:D1.
    destruct (walk sh st j) as [o q] eqn:W0, (walk sh st (S j)) as [o' q'] eqn:W1. cbn [fst snd] in *. subst q q'.
    specialize (IH st j (base + (c mod S n + c / S n) * s) L P'). rewrite D0, D1, W0, W1 in IH. cbn [fst snd] in IH.
    destruct IH as [IH ST]. cbn [nditer_carry].
    replace (base + (o + (c mod S n + c / S n) * s)) with (base + (c mod S n + c / S n) * s + o) by lia. rewrite IH. cbn [bind].
    destruct (step_digit c n N) as [S1 S2]. destruct (Nat.eqb_spec c' c) as [->|NE].
    + rewrite Nat.eqb_refl. split; [|now left]. f_equal. f_equal. f_equal. lia.
    + destruct ST as [ST| ->]; [contradiction|]. destruct (Nat.eqb_spec (c mod S n) n) as [Q|Q]; cbn [negb].
      * destruct (S2 Q) as [-> ->]. rewrite Q. unfold csub. rewrite (proj2 (Nat.ltb_ge n 1)) by lia. cbn [bind].
        assert (X : s * (n - 1) + s = n * s) by (destruct n; [lia|]; cbn [Nat.sub]; rewrite Nat.sub_0_r; cbn [Nat.mul]; lia).
        rewrite (proj2 (Nat.ltb_ge _ _)) by (rewrite Nat.mul_add_distr_r; lia). cbn [bind].
        split; [|now right]. rewrite (proj2 (Nat.eqb_neq _ _)) by lia. f_equal. f_equal. f_equal.
        rewrite Nat.mul_add_distr_r. cbn [Nat.mul]. rewrite Nat.add_0_l. lia.
      * destruct (S1 Q) as [-> ->]. rewrite Nat.eqb_refl. split; [|now left]. f_equal. f_equal. f_equal. rewrite !Nat.mul_add_distr_r. cbn [Nat.mul]. lia.
Qed.

(** ** the copy of one item *)
Lemma clone_strided_steps {T} (h : heap T) a : length (a_stride a) = length (a_shape a) -> a_shape a <> [] -> length (a_shape a) <= MAX_DIMS ->
  clone_strided h a = at_steps h a (offsets (a_shape a) (a_stride a)).
Proof.
  intros W NE MD. unfold clone_strided.
  destruct (collapse (a_shape a) (a_stride a)) as [sh str] eqn:C.
  destruct (collapse_offsets _ _ _ _ (eq_sym W) C) as (O & LC & LM).
  pose proof (collapse_nonempty _ _ (eq_sym W) NE) as NE'. rewrite C in NE'. cbn [fst] in NE'.
  assert (G : at_steps h a (offsets (a_shape a) (a_stride a)) = mapM (fun o => ld h (padd (a_ptr a) o)) (offsets sh str)) by (rewrite O; reflexivity).
  assert (F : forall x, (r <- at_steps h a (offsets (a_shape a) (a_stride a)) ;; if length r =? prod (a_shape a) then Ok r else x) =
    at_steps h a (offsets (a_shape a) (a_stride a))).
  { intros x. destruct (at_steps h a _) as [r| |] eqn:E; cbn [bind]; auto. apply mapM_length in E. rewrite E, offsets_length, Nat.eqb_refl. reflexivity. }
  destruct str as [|s0 str0] eqn:ES; [destruct sh; [congruence|discriminate]|]. rewrite <- ES in *.
  assert (NS : str <> []) by (rewrite ES; discriminate). clear ES s0 str0.
  rewrite <- (F Oob), G. destruct (Nat.eqb_spec (last str 0) 1) as [L1|L1].
  - assert (LR : length (removelast str) = length (removelast sh)) by (rewrite !removelast_firstn_len, !firstn_length; lia).
    assert (LR2 : length (removelast sh) <= MAX_DIMS) by (rewrite removelast_firstn_len, firstn_length; lia).
    rewrite fig_list_ok' by assumption. cbn [bind]. rewrite copy_runs_eq.
    assert (E : flat_map (fun i => map (Nat.add i) (seq 0 (last sh 0))) (offsets (removelast sh) (removelast str)) = offsets sh str).
    { transitivity (offsets (removelast sh ++ [last sh 0]) (removelast str ++ [last str 0]));
        [|now rewrite <- (app_removelast_last 0 NE'), <- (app_removelast_last 0 NS)].
      rewrite L1. rewrite offsets_snoc by exact LR. apply flat_map_ext. intros o. apply map_ext. intros k. lia. }
    now rewrite E.
  - rewrite fig_list_ok' by lia. cbn [bind]. rewrite copy_runs_eq.
    assert (E : flat_map (fun i => map (Nat.add i) (seq 0 1)) (offsets sh str) = offsets sh str).
    { generalize (offsets sh str). clear. intros l0. induction l0 as [|o l IH]; [reflexivity|]. cbn [flat_map]. rewrite IH. cbn [seq map app]. now rewrite Nat.add_0_r. }
    now rewrite E.
Qed.

Lemma clone_copied {T} (h : heap T) a os : length (a_stride a) = length (a_shape a) -> flags_ok a -> a_len a = prod (a_shape a) ->
  length (a_shape a) <= MAX_DIMS -> copied (a_shape a) (a_stride a) os ->
  nd_clone h a = (vs <- at_steps h a os ;; Ok (h ++ [Some vs], fresh_arr (length h) (prod (a_shape a)) (a_shape a))).
Proof.
  intros W [_ FC] LE MD [C1 C2]. unfold nd_clone, clone_data.
  assert (EQ : (if f_contig (a_fl a) then read_run h (a_ptr a) (a_len a) else clone_strided h a) = at_steps h a os).
  { rewrite FC. destruct (uniform_dec (a_shape a) (a_stride a) W) as [[E ->]|[E ->]].
    - destruct (Nat.leb_spec (last (a_stride a) 0) 1) as [B|B].
      + rewrite C1 by auto. rewrite LE. reflexivity.
      + rewrite C2 by lia. apply clone_strided_steps; auto. intros N. rewrite N in W. destruct (a_stride a); [cbn in B; lia|discriminate].
    - rewrite C2 by tauto. apply clone_strided_steps; auto. intros N. apply E. rewrite N. intros k K. cbn in K. lia. }
  rewrite EQ. destruct (at_steps h a os) as [vs| |] eqn:E; cbn [bind]; auto.
  assert (LV : length vs = prod (a_shape a)).
  { apply mapM_length in E. rewrite E. destruct (uniform_dec (a_shape a) (a_stride a) W) as [[D _]|[D _]].
    - destruct (le_lt_dec (last (a_stride a) 0) 1); [rewrite C1 by auto; apply seq_length|rewrite C2 by lia; apply offsets_length].
    - rewrite C2 by tauto. apply offsets_length. }
  unfold from_buffer, alloc. now rewrite LV.
Qed.

(** ** running the iterator *)
Lemma taken_length A sh : NoDup A -> (forall k, In k A -> k < length sh) -> length A = length (take_axes A sh).
Proof.
  intros N B. unfold take_axes. rewrite map_length. apply Nat.le_antisymm.
  - rewrite <- (map_length fst (filter _ _)). apply NoDup_incl_length; [exact N|]. intros k I. apply in_map_iff. exists (k, nth k sh 0). split; [reflexivity|].
    apply filter_In. split; [|now apply existsb_In]. specialize (B k I). clear - B.
    assert (H : forall s k, k < length sh -> In (s + k, nth k sh 0) (combine (seq s (length sh)) sh)); [|apply (H 0); exact B].
    clear. induction sh as [|n sh IH]; intros s k K; cbn [length] in K; [lia|]. cbn [length seq combine]. destruct k; [left; f_equal; lia|]. right.
    replace (s + S k) with (S s + k) by lia. apply IH. lia.
  - rewrite <- (map_length fst (filter _ _)). apply NoDup_incl_length.
    + clear. generalize 0. induction sh as [|n sh IH]; intros s; [constructor|]. cbn [length seq combine filter fst].
      destruct (existsb (Nat.eqb s) A); [|apply IH]. cbn [map fst]. constructor; [|apply IH]. intros I. apply in_map_iff in I as ((k & x) & E & I).
      apply filter_In in I as [I _]. apply in_combine_l, in_seq in I. cbn in E. lia.
    + intros k I. apply in_map_iff in I as ((k' & x) & E & I). cbn in E. subst. apply filter_In in I as [_ I]. now apply existsb_In in I.
Qed.
Lemma mask_lengths : forall m (l l' : list nat), length l = length l' -> length (drop m l) = length (drop m l') /\ length (keep m l) = length (keep m l').
Proof.
  induction m as [|[|] m IHm]; intros [|x l] [|x' l'] L; try discriminate; auto; cbn [drop keep length]; destruct (IHm l l' ltac:(cbn in L; lia)); auto.
Qed.
Lemma pos_all l : 0 < prod l -> Forall (fun n => 0 < n) l.
Proof. induction l as [|n l IH]; intros P; [constructor|]. rewrite prod_cons in P. constructor; [lia|]. apply IH. destruct (prod l); lia. Qed.

Section Walk.
  Context {T : Type}.
  Variables (h : heap T) (a : arr) (ish ist osh ost os : list nat).
  Hypothesis BL : a_blk a < length h.
  Hypothesis LI : length ist = length ish.
  Hypothesis LO : length ost = length osh.
  Hypothesis MD : length osh <= MAX_DIMS.
  Hypothesis CO : copied osh ost os.

  Definition it_at (j : nat) : nditer :=
    mkIt (set_off (reshaped_view ByRef a osh ost) (a_off a + fst (walk ish ist j))) ish ist (fst (digits ish j)) j (prod ish).
  Definition content (j : nat) : res (list T) := mapM (fun o => load h (a_blk a) (a_off a + fst (walk ish ist j) + o)) os.

  Lemma it_next h' j : extends h h' -> j < prod ish ->
    nditer_next h' (it_at j) = (vs <- content j ;; Ok (Some (h' ++ [Some vs], fresh_arr (length h') (prod osh) osh, it_at (S j)))).
  Proof.
    intros X J. unfold nditer_next. cbn [it_at it_k it_size it_res it_shape it_stride it_idx]. rewrite (proj2 (Nat.eqb_neq _ _)) by lia.
    set (r := set_off (reshaped_view ByRef a osh ost) (a_off a + fst (walk ish ist j))).
    rewrite (clone_copied h' r os); [|exact LO|unfold r, set_off, flags_ok; cbn; apply update_flags_ok|reflexivity|exact MD|exact CO].
    assert (E : at_steps h' r os = content j).
    { unfold at_steps, content. apply mapM_ext. intros o _. cbn [r set_off reshaped_view a_blk a_off]. apply X. exact BL. }
    rewrite E. destruct (content j) as [vs| |]; cbn [bind]; auto. cbn [r set_off reshaped_view a_shape a_off].
    destruct (carry_walk ish ist j (a_off a) LI (pos_all ish ltac:(lia))) as [-> _]. cbn [bind fst snd]. reflexivity.
  Qed.

  Lemma walk_collect : forall m j h', j + m = prod ish -> extends h h' ->
    ((forall i, i < m -> exists vs, content (j + i) = Ok vs) ->
      exists vss, nditer_collect (S m) h' (it_at j) = Ok (h' ++ map Some vss, map (fun i => fresh_arr (length h' + i) (prod osh) osh) (seq 0 m)) /\
        length vss = m /\ forall i, i < m -> exists vs, nth_error vss i = Some vs /\ content (j + i) = Ok vs) /\
    ((forall i, i < m -> (exists vs, content (j + i) = Ok vs) \/ content (j + i) = Oob) -> (exists i, i < m /\ content (j + i) = Oob) ->
      nditer_collect (S m) h' (it_at j) = Oob).
  Proof.
    induction m as [|m IH]; intros j h' J X.
    - split; [intros _|intros _ (i & I & _); lia]. exists []. cbn [nditer_collect]. unfold nditer_next. cbn [it_at it_k it_size]. rewrite (proj2 (Nat.eqb_eq _ _)) by lia.
      cbn [bind map seq]. rewrite app_nil_r. split; [reflexivity|]. split; [reflexivity|]. intros i I. lia.
    - assert (X1 : forall vs, extends h (h' ++ [Some vs])).
      { intros vs. destruct X as [X1 X2]. split; [rewrite app_length; lia|]. intros b o B. rewrite load_app_old by lia. now apply X2. }
      remember (S m) as sm eqn:ES. cbn [nditer_collect]. subst sm. rewrite it_next by (auto; lia). split.
      + intros H. destruct (H 0 ltac:(lia)) as (vs & E0). rewrite Nat.add_0_r in E0. rewrite E0. cbn [bind].
        destruct (proj1 (IH (S j) (h' ++ [Some vs]) ltac:(lia) (X1 vs))) as (vss & E & L & HV).
        { intros i I. replace (S j + i) with (j + S i) by lia. apply H. lia. }
        rewrite E. cbn [bind fst snd]. exists (vs :: vss). split; [|split; [cbn; lia|]].
        * cbn [map seq]. f_equal. f_equal; [now rewrite <- app_assoc|]. f_equal; [now rewrite Nat.add_0_r|]. rewrite <- seq_shift, map_map. apply map_ext. intros i.
          rewrite app_length. cbn [length]. f_equal. lia.
        * intros [|i] I; [exists vs; rewrite Nat.add_0_r; auto|]. destruct (HV i ltac:(lia)) as (v & N & C). exists v.
          replace (j + S i) with (S j + i) by lia. auto.
      + intros D (i & I & O). destruct (D 0 ltac:(lia)) as [(vs & E0)|E0]; rewrite Nat.add_0_r in E0; rewrite E0; [|reflexivity]. cbn [bind].
        rewrite (proj2 (IH (S j) (h' ++ [Some vs]) ltac:(lia) (X1 vs))); [reflexivity| |].
        * intros k K. replace (S j + k) with (j + S k) by lia. apply D. lia.
        * destruct i as [|i]; [rewrite Nat.add_0_r in O; congruence|]. exists i. split; [lia|]. now replace (S j + i) with (j + S i) by lia.
  Qed.
End Walk.

(** ** C73.  The axes may be any set of distinct axes and the strides anything.  Item j is made
    of the cells [walk] gives.  The iterator stays inside the allocation exactly when these
    cells do; otherwise it reads outside. *)
Theorem C73_nditer : forall T (h : heap T) n a A os, live h (a_blk a) n -> length (a_stride a) = length (a_shape a) ->
  NoDup A -> (forall k, In k A -> k < length (a_shape a)) ->
  let ish := take_axes A (a_shape a) in let ist := take_axes A (a_stride a) in
  let osh := drop_axes A (a_shape a) in
  length osh <= MAX_DIMS -> copied osh (drop_axes A (a_stride a)) os ->
  let cell j o := a_off a + fst (walk ish ist j) + o in
  ((forall j o, j < prod ish -> In o os -> cell j o < n) ->
     exists h' rs, nd_nditer h a A = Ok (h', rs) /\ extends h h' /\ length rs = prod ish /\
       forall j, j < prod ish -> exists r, nth_error rs j = Some r /\ a_blk r = length h + j /\ a_shape r = osh /\ valid h' r /\
         elems h' r = mapM (fun o => load h (a_blk a) (cell j o)) os) /\
  ((exists j o, j < prod ish /\ In o os /\ n <= cell j o) -> nd_nditer h a A = Oob).
Proof.
  intros T h n a A os LV W N B ish ist osh MD CO cell.
  assert (BL : a_blk a < length h) by (destruct LV as (l & E & _); apply nth_error_Some; congruence).
  set (mask := mask_of (length (a_shape a)) A).
  destruct (mask_lengths mask _ _ W) as [LI LO].
  assert (E1 : drop mask (a_shape a) = ish) by apply take_mask.
  assert (E2 : drop mask (a_stride a) = ist) by (unfold mask; rewrite <- W; apply take_mask).
  assert (E3 : keep mask (a_shape a) = osh) by apply keep_mask.
  assert (E4 : keep mask (a_stride a) = drop_axes A (a_stride a)) by (unfold mask; rewrite <- W; apply keep_mask).
  rewrite E1, E2 in LI. rewrite E3, E4 in LO.
  assert (EN : nd_nditer h a A = nditer_collect (S (prod ish)) h (it_at a ish ist osh (drop_axes A (a_stride a)) 0)).
  { unfold nd_nditer, nditer_from. rewrite !split_ok by (auto; rewrite W; auto). cbn [bind fst snd it_size]. rewrite W. fold mask.
    rewrite E1, E2, E3, E4. unfold it_at. rewrite walk_zero, digits_zero. cbn [fst]. rewrite Nat.add_0_r.
    pose proof (taken_length A (a_shape a) N B) as EA. fold ish in EA. rewrite EA. reflexivity. }
  rewrite EN.
  destruct (walk_collect h a ish ist osh (drop_axes A (a_stride a)) os BL LI LO MD CO (prod ish) 0 h eq_refl ltac:(split; [lia|auto])) as [C1 C2].
  assert (ST : forall j, content h a ish ist os j = at_steps h (set_off a (a_off a + fst (walk ish ist j))) os) by reflexivity.
  split.
  - intros IN. destruct C1 as (vss & E & L & H).
    { intros j J. rewrite ST. apply (at_steps_ok h (set_off a (a_off a + fst (walk ish ist (0 + j)))) n os LV). intros o O. now apply IN. }
    rewrite E. eexists _, _. split; [reflexivity|]. split; [apply extends_app|]. split; [now rewrite map_length, seq_length|].
    intros j J. destruct (H j J) as (vs & NV & EC). exists (fresh_arr (length h + j) (prod osh) osh).
    split; [now apply (map_nth_error (fun i => fresh_arr (length h + i) (prod osh) osh)), nth_error_seq|]. split; [reflexivity|]. split; [reflexivity|].
    cbn [plus] in EC. unfold content in EC. fold (cell j) in EC.
    assert (LV' : length vs = prod osh).
    { apply mapM_length in EC. rewrite EC. destruct CO as [K1 K2]. destruct (uniform_dec osh (drop_axes A (a_stride a)) LO) as [[D _]|[D _]].
      - destruct (le_lt_dec (last (drop_axes A (a_stride a)) 0) 1); [rewrite K1 by auto; apply seq_length|rewrite K2 by lia; apply offsets_length].
      - rewrite K2 by tauto. apply offsets_length. }
    assert (VR : valid (h ++ map Some vss) (fresh_arr (length h + j) (prod osh) osh)).
    { split; [cbn; apply stride_from_shape_length|]. intros idx R. destruct (get_block h vss j vs osh (prod osh) idx NV LV' R) as (v & _ & G). eauto. }
    split; [exact VR|]. change (elems (h ++ map Some vss) (fresh_arr (length h + j) (prod osh) osh) = content h a ish ist os j).
    unfold content. rewrite EC. destruct (valid_elems _ _ VR) as (ws & EW). rewrite EW. f_equal.
    pose proof (mapM_length _ _ _ EW) as LW. cbn [fresh_arr a_shape] in LW. rewrite indices_length in LW.
    apply nth_error_ext. intros i. destruct (Nat.lt_ge_cases i (prod osh)) as [I|I].
    + destruct (nth_error (indices osh) i) as [idx|] eqn:EI; [|apply nth_error_None in EI; rewrite indices_length in EI; lia].
      destruct (nth_indices_inv _ _ _ EI) as [R RK].
      destruct (mapM_nth _ _ _ _ _ EW EI) as (v & NW & G). destruct (get_block h vss j vs osh (prod osh) idx NV LV' R) as (v' & N' & G').
      rewrite RK in N'. rewrite NW, N'. f_equal. congruence.
    + rewrite (proj2 (nth_error_None _ _)) by lia. rewrite (proj2 (nth_error_None _ _)) by lia. reflexivity.
  - intros (j & o & J & O & G). apply C2.
    + intros i I. rewrite ST.
      destruct (Exists_dec (fun o => n <= cell i o) os (fun o => le_dec n (cell i o))) as [Z|Z].
      * right. apply Exists_exists in Z as (o' & O' & G'). eapply at_steps_oob; [exact LV|]. exists o'. split; [exact O'|]. exact G'.
      * left. eapply at_steps_ok; [exact LV|]. intros o' O'. destruct (le_lt_dec n (cell i o')) as [Y|Y]; [|exact Y]. exfalso. apply Z. apply Exists_exists. eauto.
    + exists j. split; [exact J|]. rewrite ST. eapply at_steps_oob; [exact LV|]. exists o. split; [exact O|]. exact G.
Qed.
Print Assumptions C73_nditer.

(** ** C73, when the items are the sub-arrays *)
Lemma copied_exists sh st : length st = length sh -> exists os, copied sh st os /\ length os = prod sh.
Proof.
  intros L. destruct (uniform_dec sh st L) as [[E _]|[E _]].
  - destruct (le_lt_dec (last st 0) 1) as [B|B].
    + exists (seq 0 (prod sh)). split; [split; intros H; [reflexivity|tauto]|apply seq_length].
    + exists (offsets sh st). split; [split; intros H; [lia|reflexivity]|apply offsets_length].
  - exists (offsets sh st). split; [split; intros H; [tauto|reflexivity]|apply offsets_length].
Qed.
Lemma copied_elements sh st os : length st = length sh -> 0 < prod sh -> copied sh st os ->
  os = offsets sh st <-> (evenly sh st -> last st 0 <= 1 -> no_bcast sh st).
Proof.
  intros W P [C1 C2]. split.
  - intros O E B. destruct (no_bcast_dec _ _ W) as [NB|NB]; [exact NB|exfalso].
    destruct (not_no_bcast _ _ W NB) as (j & J & A & Z).
    destruct (unit_rank _ j J ltac:(now apply pos_prod) A) as (idx & R & K & D).
    pose proof (offsets_nth _ st _ R) as N. pose proof (rank_lt _ _ R).
    rewrite <- O, (C1 (conj E B)), nth_error_seq, (D _ W Z) in N by lia. injection N as N. lia.
  - intros NB. destruct (uniform_dec sh st W) as [[E _]|[E _]]; [|apply C2; tauto].
    destruct (le_lt_dec (last st 0) 1) as [B|B]; [|apply C2; lia]. specialize (NB E B).
    rewrite (C1 (conj E B)), (proj2 (run_elements _ _ W P E) (or_intror NB)). unfold run.
    destruct (Nat.eq_dec (last st 0) 1) as [->|NE].
    + rewrite <- (map_id (seq 0 _)) at 1. apply map_ext. intros; lia.
    + assert (Z : last st 0 = 0) by lia.
      assert (P1 : prod sh = 1).
      { pose proof (evenly_zero _ _ W E Z) as F. clear -NB F P. unfold no_bcast in NB. induction NB as [|m s sh st N NB IH]; [reflexivity|].
        inversion F; subst. rewrite prod_cons in *. assert (0 < prod sh) by nia. rewrite IH by assumption. destruct N as [N|N]; lia. }
      now rewrite P1.
Qed.

Lemma pos_parts l : forall m, 0 < prod l -> 0 < prod (keep m l) /\ 0 < prod (drop m l).
Proof.
  induction l as [|x l IH]; intros [|[|] m] P; cbn [drop keep]; try (cbn; lia); rewrite prod_cons in *;
    (destruct (IH m) as [I1 I2]; [destruct (prod l); lia|]).
  - split; [assumption|]. apply Nat.mul_pos_pos; [lia|assumption].
  - split; [|assumption]. apply Nat.mul_pos_pos; [lia|assumption].
Qed.

Theorem C73_right : forall b n bc a A, chain b n bc a -> 0 < prod (a_shape a) ->
  NoDup A -> (forall k, In k A -> k < length (a_shape a)) ->
  let ish := take_axes A (a_shape a) in let ist := take_axes A (a_stride a) in
  let osh := drop_axes A (a_shape a) in let ost := drop_axes A (a_stride a) in
  length osh <= MAX_DIMS ->
  (forall T (h : heap T), live h b n -> exists h' rs, nd_nditer h a A = Ok (h', rs) /\ items_right a A h h' rs) <->
  (forall c, in_range c ish -> fst (walk ish ist (rank c ish)) = dot c ist) /\
  (evenly osh ost -> last ost 0 <= 1 -> no_bcast osh ost).
Proof.
  intros b n bc a A C P N B ish ist osh ost MD. pose proof (chain_inv _ _ _ _ C) as I. pose proof (i_wf _ _ _ _ I) as W.
  set (mask := mask_of (length (a_shape a)) A). assert (LM : length mask = length (a_shape a)) by apply mask_of_length.
  destruct (mask_lengths mask _ _ W) as [LI LO].
  assert (E1 : drop mask (a_shape a) = ish) by apply take_mask.
  assert (E2 : drop mask (a_stride a) = ist) by (unfold mask; rewrite <- W; apply take_mask).
  assert (E3 : keep mask (a_shape a) = osh) by apply keep_mask.
  assert (E4 : keep mask (a_stride a) = ost) by (unfold mask; rewrite <- W; apply keep_mask).
  assert (EX : forall idx, in_range idx (a_shape a) -> drop mask idx = take_axes A idx /\ keep mask idx = drop_axes A idx).
  { intros idx R. pose proof (in_range_length _ _ R) as LR. unfold mask. rewrite <- LR. split; [apply take_mask|apply keep_mask]. }
  rewrite E1, E2 in LI. rewrite E3, E4 in LO.
  assert (PP : 0 < prod osh /\ 0 < prod ish).
  { rewrite <- E1, <- E3. now apply pos_parts. }
  destruct PP as [PO PI]. destruct (copied_exists osh ost LO) as (os & CO & LOS).
  rewrite <- (copied_elements osh ost os LO PO CO).
  (* every index splits into an iterated and a remaining part *)
  assert (SP : forall c o, in_range c ish -> in_range o osh -> exists idx, in_range idx (a_shape a) /\ take_axes A idx = c /\ drop_axes A idx = o).
  { intros c o RC RO. rewrite <- E1 in RC. rewrite <- E3 in RO. destruct (merge_spec mask (a_shape a) c o LM RC RO) as (R & D & K).
    exists (merge mask c o). destruct (EX _ R) as [X1 X2]. split; [exact R|]. split; congruence. }
  assert (DT : forall idx, in_range idx (a_shape a) -> dot idx (a_stride a) = dot (take_axes A idx) ist + dot (drop_axes A idx) ost).
  { intros idx R. destruct (EX _ R) as [X1 X2]. rewrite <- X1, <- X2, <- E2, <- E4. pose proof (in_range_length _ _ R). apply dot_split; [rewrite LM; symmetry; exact W|congruence]. }
  assert (TR : forall idx, in_range idx (a_shape a) -> in_range (take_axes A idx) ish /\ in_range (drop_axes A idx) osh).
  { intros idx R. destruct (EX _ R) as [X1 X2]. rewrite <- X1, <- X2, <- E1, <- E3. split; [now apply take_in_range|now apply keep_in_range]. }
  (* the value item j holds at the remaining index o *)
  assert (IT : forall T (h : heap T), live h b n ->
    (forall j o, j < prod ish -> In o os -> a_off a + fst (walk ish ist j) + o < n) ->
    exists h' rs, nd_nditer h a A = Ok (h', rs) /\ length rs = prod ish /\ forall j, j < prod ish -> exists r, nth_error rs j = Some r /\
      a_shape r = osh /\ forall o d, in_range o osh -> nth_error os (rank o osh) = Some d ->
        get h' r o = load h b (a_off a + fst (walk ish ist j) + d)).
  { intros T h LV IN. rewrite <- (i_blk _ _ _ _ I) in LV.
    destruct (proj1 (C73_nditer T h n a A os LV W N B MD CO) IN) as (h' & rs & E & _ & L & H). exists h', rs. split; [exact E|]. split; [exact L|].
    intros j J. destruct (H j J) as (r & NR & _ & SR & VR & ER). exists r. split; [exact NR|]. split; [exact SR|]. intros o d RO ND.
    destruct (valid_elems _ _ VR) as (ws & EW). rewrite EW in ER. symmetry in ER.
    unfold elems in EW. fold osh in SR. rewrite SR in EW. destruct (mapM_nth _ _ _ _ _ EW (nth_indices_rank _ _ RO)) as (v & NW & ->).
    destruct (mapM_nth _ _ _ _ _ ER ND) as (v' & NW' & E'). rewrite (i_blk _ _ _ _ I) in E'. fold ish ist in E'. rewrite E'. congruence. }
  assert (OSN : forall o, in_range o osh -> exists d, nth_error os (rank o osh) = Some d).
  { intros o RO. destruct (nth_error os (rank o osh)) as [d|] eqn:E; [eauto|]. apply nth_error_None in E. pose proof (rank_lt _ _ RO). lia. }
  split.
  - intros H. destruct (H nat (ruler b n) (ruler_live b n)) as (h' & rs & E & _ & R).
    assert (IN : forall j o, j < prod ish -> In o os -> a_off a + fst (walk ish ist j) + o < n).
    { intros j o J O. destruct (le_lt_dec n (a_off a + fst (walk ish ist j) + o)) as [G|G]; [|exact G]. exfalso.
      pose proof (ruler_live b n) as LV. rewrite <- (i_blk _ _ _ _ I) in LV at 2.
      rewrite (proj2 (C73_nditer nat (ruler b n) n a A os LV W N B MD CO)) in E; [discriminate|]. exists j, o. auto. }
    destruct (IT nat (ruler b n) (ruler_live b n) IN) as (h1 & rs1 & E' & L & HI). assert (Q : h1 = h' /\ rs1 = rs) by (split; congruence). destruct Q as [-> ->].
    assert (AD : forall c o d, in_range c ish -> in_range o osh -> nth_error os (rank o osh) = Some d -> fst (walk ish ist (rank c ish)) + d = dot c ist + dot o ost).
    { intros c o d RC RO ND. destruct (SP c o RC RO) as (idx & RI & T1 & T2). destruct (R idx RI) as (r & NR & SR & G). rewrite T1 in NR. fold ish in NR. rewrite T2 in G.
      destruct (HI (rank c ish) (rank_lt _ _ RC)) as (r' & NR' & _ & G'). assert (r' = r) as -> by congruence. specialize (G' o d RO ND). rewrite G in G'.
      unfold get in G'. rewrite (i_blk _ _ _ _ I), (DT idx RI), T1, T2 in G'.
      assert (J : rank c ish < prod ish) by now apply rank_lt.
      specialize (IN _ d J (nth_error_In _ _ ND)). destruct (proj1 (live_load _ _ _ _ (ruler_live b n)) IN) as (x & LX).
      rewrite LX in G'. apply ruler_load in LX. apply ruler_load in G'. lia. }
    assert (Z : in_range (repeat 0 (length osh)) osh) by now apply in_range_zeros.
    assert (Z' : in_range (repeat 0 (length ish)) ish) by now apply in_range_zeros.
    assert (WD : forall c, in_range c ish -> fst (walk ish ist (rank c ish)) = dot c ist).
    { intros c RC. destruct (OSN _ Z) as (d & ND). pose proof (AD c _ d RC Z ND) as K. pose proof (AD _ _ d Z' Z ND) as K'.
      rewrite rank_zeros, walk_zero, !dot_zeros in K'. rewrite dot_zeros in K. cbn [fst] in K'. lia. }
    split; [exact WD|]. apply nth_error_ext. intros i. destruct (Nat.lt_ge_cases i (prod osh)) as [J|J].
    + destruct (nth_error (indices osh) i) as [o|] eqn:EI; [|apply nth_error_None in EI; rewrite indices_length in EI; lia].
      destruct (nth_indices_inv _ _ _ EI) as [RO RK]. destruct (OSN o RO) as (d & ND). pose proof (AD _ o d Z' RO ND) as K. rewrite (WD _ Z') in K.
      rewrite <- RK, ND, (offsets_nth _ ost _ RO). f_equal. lia.
    + rewrite !(proj2 (nth_error_None _ _)); [reflexivity|rewrite offsets_length; lia|lia].
  - intros [WD ->] T h LV.
    assert (AD : forall c o, in_range c ish -> in_range o osh -> exists idx, in_range idx (a_shape a) /\ take_axes A idx = c /\ drop_axes A idx = o /\
      a_off a + fst (walk ish ist (rank c ish)) + dot o ost = a_off a + dot idx (a_stride a)).
    { intros c o RC RO. destruct (SP c o RC RO) as (idx & RI & T1 & T2). exists idx. rewrite (DT idx RI), T1, T2, (WD c RC). repeat split; auto; lia. }
    destruct (IT T h LV) as (h' & rs & E & L & HI).
    { intros j d J D. apply In_nth_error in D as (i & D). assert (LT : i < prod osh) by (rewrite <- LOS; apply nth_error_Some; congruence).
      destruct (nth_error (indices osh) i) as [o|] eqn:EI; [|apply nth_error_None in EI; rewrite indices_length in EI; lia].
      destruct (nth_error (indices ish) j) as [c|] eqn:EJ; [|apply nth_error_None in EJ; rewrite indices_length in EJ; lia].
      destruct (nth_indices_inv _ _ _ EI) as [RO RK]. destruct (nth_indices_inv _ _ _ EJ) as [RC RJ].
      rewrite <- RK, (offsets_nth _ ost _ RO) in D. injection D as <-. destruct (AD c o RC RO) as (idx & RI & _ & _ & EQ). rewrite <- RJ, EQ.
      exact (i_in _ _ _ _ I idx RI). }
    exists h', rs. split; [exact E|]. split; [exact L|]. intros idx RI. destruct (TR idx RI) as [RC RO].
    destruct (HI _ (rank_lt _ _ RC)) as (r & NR & SR & G). exists r. split; [exact NR|]. split; [exact SR|].
    rewrite (G _ _ RO (offsets_nth _ ost _ RO)), (WD _ RC). unfold get. rewrite (i_blk _ _ _ _ I), (DT idx RI). f_equal. lia.
Qed.
Print Assumptions C73_right.

(** with nested strides, in particular with one axis, the distances are right *)
Lemma walk_nested : forall sh st j, length st = length sh -> nested_strides sh st -> sh <> [] ->
  exists n s, hd_error sh = Some n /\ hd_error st = Some s /\ fst (walk sh st j) + n * s * snd (walk sh st j) = j * last st 0.
Proof.
  induction sh as [|n sh IH]; intros [|s st] j L N NE; try discriminate; [contradiction|]. injection L as L. exists n, s. split; [reflexivity|]. split; [reflexivity|].
  cbn [walk]. destruct sh as [|m sh].
  - destruct st; [|discriminate]. cbn [walk fst snd last]. pose proof (Nat.div_mod j (S n) ltac:(lia)). set (q := j / S n) in *. set (r := j mod S n) in *. rewrite H. lia.
  - destruct st as [|t st]; [discriminate|]. destruct (IH (t :: st) j L (nested_cons _ _ _ _ N) ltac:(discriminate)) as (m' & t' & E1 & E2 & E).
    cbn [hd_error] in E1, E2. injection E1 as <-. injection E2 as <-. pose proof (N 0 ltac:(cbn; lia)) as N0. cbn [nth] in N0. rewrite <- N0 in E.
    destruct (walk (m :: sh) (t :: st) j) as [o c]. cbn [fst snd] in *. change (last (s :: t :: st) 0) with (last (t :: st) 0). rewrite <- E.
    pose proof (Nat.div_mod c (S n) ltac:(lia)) as D. set (q := c / S n) in *. set (r := c mod S n) in *. rewrite D. lia.
Qed.
Lemma walk_small : forall sh st j, length st = length sh -> 0 < prod sh -> j <= prod sh -> sh <> [] -> snd (walk sh st j) = 0.
Proof.
  assert (G : forall sh st j, length st = length sh -> snd (walk sh st j) = j / prod (map S sh)).
  { induction sh as [|n sh IH]; intros [|s st] j L; try discriminate; [cbn [walk snd map prod fold_right]; now rewrite Nat.div_1_r|]. injection L as L.
    cbn [walk map]. rewrite prod_cons. specialize (IH st j L). destruct (walk sh st j) as [o c]. cbn [snd] in *. subst c.
    rewrite Nat.div_div, (Nat.mul_comm (S n)); [reflexivity| |lia]. clear. induction sh as [|x l IHl]; [cbn; lia|]. cbn [map]. rewrite prod_cons. lia. }
  intros sh st j L P J NE. rewrite G by exact L. pose proof (prod_S sh NE P). apply Nat.div_small. lia.
Qed.
Theorem C73_nested : forall sh st c, length st = length sh -> nested_strides sh st -> in_range c sh ->
  fst (walk sh st (rank c sh)) = dot c st.
Proof.
  intros sh st c L N R. rewrite (nested_dot sh st c N L R). pose proof (rank_lt _ _ R) as RL. destruct sh as [|n sh]; [inversion R; subst; reflexivity|].
  destruct (walk_nested (n :: sh) st (rank c (n :: sh)) L N ltac:(discriminate)) as (n' & s' & _ & _ & E).
  rewrite (walk_small (n :: sh) st) in E by (auto; try lia; discriminate). lia.
Qed.
Print Assumptions C73_nested.

(** two axes: right exactly when the strides are nested or the first axis has one entry *)
Lemma walk_two n1 n2 s1 s2 : 0 < n1 -> 0 < n2 ->
  (forall c, in_range c [n1; n2] -> fst (walk [n1; n2] [s1; s2] (rank c [n1; n2])) = dot c [s1; s2]) <-> n1 = 1 \/ s1 = n2 * s2.
Proof.
  intros P1 P2. split.
  - intros H. destruct (Nat.eq_dec n1 1) as [E|E]; [now left|right].
    assert (R : in_range [1; 0] [n1; n2]) by (constructor; [lia|constructor; [lia|constructor]]). specialize (H _ R).
    cbn [rank dot walk prod fold_right fst snd] in H. rewrite !Nat.mul_1_r, !Nat.mul_1_l, !Nat.add_0_r in H. cbn [Nat.mul] in H.
    rewrite (Nat.mod_small n2 (S n2)), (Nat.div_small n2 (S n2)) in H by lia. rewrite Nat.mod_0_l, Nat.div_0_l in H by lia. cbn [Nat.add Nat.mul] in H. lia.
  - intros [-> |E] c R.
    + inversion R as [|i m r sh I R1]; subst. inversion R1 as [|k m r' sh K R2]; subst. inversion R2; subst.
      replace i with 0 by lia. cbn [rank dot walk prod fold_right fst snd]. rewrite !Nat.mul_1_r, !Nat.add_0_r. cbn [Nat.mul Nat.add].
      rewrite (Nat.mod_small k (S n2)), (Nat.div_small k (S n2)) by lia. rewrite Nat.mod_0_l, Nat.div_0_l by lia. cbn [Nat.add Nat.mul]. lia.
    + apply C73_nested; [reflexivity| |exact R]. intros [|[|i]] L; cbn [length nth] in *; try lia.
Qed.

Theorem C73_two_axes : forall b n bc a A n1 n2 s1 s2, chain b n bc a -> 0 < prod (a_shape a) ->
  NoDup A -> (forall k, In k A -> k < length (a_shape a)) ->
  take_axes A (a_shape a) = [n1; n2] -> take_axes A (a_stride a) = [s1; s2] ->
  let osh := drop_axes A (a_shape a) in let ost := drop_axes A (a_stride a) in
  length osh <= MAX_DIMS -> no_bcast osh ost ->
  (forall T (h : heap T), live h b n -> exists h' rs, nd_nditer h a A = Ok (h', rs) /\ items_right a A h h' rs) <->
  n1 = 1 \/ s1 = n2 * s2.
Proof.
  intros b n bc a A n1 n2 s1 s2 C P N B E1 E2 osh ost MD NB. unfold osh, ost in *.
  assert (PI : 0 < prod (take_axes A (a_shape a))) by (rewrite <- take_mask; now apply pos_parts).
  assert (Q : 0 < n1 /\ 0 < n2). { rewrite E1 in PI. cbn in PI. destruct n1, n2; lia. }
  pose proof (C73_right b n bc a A C P N B MD) as K. cbn zeta in K. rewrite E1, E2 in K. rewrite (walk_two n1 n2 s1 s2 (proj1 Q) (proj2 Q)) in K.
  rewrite K. tauto.
Qed.
Print Assumptions C73_two_axes.

(** any number of axes of at least two entries each: right exactly when the strides are nested *)
Lemma walk_needs : forall sh st, length st = length sh -> Forall (fun n => 2 <= n) sh ->
  (forall c, in_range c sh -> fst (walk sh st (rank c sh)) = dot c st) -> nested_strides sh st.
Proof.
  induction sh as [|n sh IH]; intros [|s st] L P H; try discriminate; [intros i B; cbn in B; lia|].
  injection L as L. inversion P as [|? ? Pn P']; subst. destruct sh as [|m sh]; [intros i B; cbn in B; lia|]. destruct st as [|t st]; [discriminate|].
  assert (PP : 0 < prod (m :: sh)). { clear - P'. induction P' as [|x l X P IH]; [cbn; lia|]. rewrite prod_cons. nia. }
  assert (SM : forall j, j <= prod (m :: sh) -> fst (walk (n :: m :: sh) (s :: t :: st) j) = fst (walk (m :: sh) (t :: st) j)).
  { intros j J. pose proof (walk_small (m :: sh) (t :: st) j L PP J ltac:(discriminate)) as W. remember (m :: sh) as l. remember (t :: st) as k. cbn [walk].
    destruct (walk l k j) as [o c]. cbn [fst snd] in *. subst c. rewrite Nat.mod_0_l, Nat.div_0_l by lia. lia. }
  assert (N : nested_strides (m :: sh) (t :: st)).
  { apply IH; auto. intros c R. assert (R0 : in_range (0 :: c) (n :: m :: sh)) by (apply in_range_cons; split; [lia|exact R]). specialize (H _ R0).
    change (rank (0 :: c) (n :: m :: sh)) with (0 * prod (m :: sh) + rank c (m :: sh)) in H. cbn [dot] in H. rewrite !Nat.mul_0_l, !Nat.add_0_l in H.
    rewrite SM in H by (pose proof (rank_lt _ _ R); lia). exact H. }
  assert (R1 : in_range (1 :: repeat 0 (length (m :: sh))) (n :: m :: sh)) by (apply in_range_cons; split; [lia|now apply in_range_zeros]).
  specialize (H _ R1). change (rank (1 :: repeat 0 (length (m :: sh))) (n :: m :: sh)) with (1 * prod (m :: sh) + rank (repeat 0 (length (m :: sh))) (m :: sh)) in H.
  rewrite rank_zeros, Nat.mul_1_l, Nat.add_0_r, SM in H by lia.
  change (dot (1 :: repeat 0 (length (m :: sh))) (s :: t :: st)) with (1 * s + dot (repeat 0 (length (m :: sh))) (t :: st)) in H.
  rewrite dot_zeros, Nat.mul_1_l, Nat.add_0_r in H.
  destruct (walk_nested (m :: sh) (t :: st) (prod (m :: sh)) L N ltac:(discriminate)) as (m' & t' & E1 & E2 & E).
  injection E1 as <-. injection E2 as <-. rewrite walk_small in E by (auto; discriminate).
  assert (E3 : prod (m :: sh) * last (t :: st) 0 = m * t).
  { clear - N L. revert m t st N L. induction sh as [|k sh IH]; intros m t [|u st] N L; try discriminate; [cbn; lia|]. injection L as L.
    change (last (t :: u :: st) 0) with (last (u :: st) 0). rewrite prod_cons, <- Nat.mul_assoc, (IH k u st (nested_cons _ _ _ _ N) ltac:(cbn; lia)).
    pose proof (N 0 ltac:(cbn; lia)) as N0. cbn [nth] in N0. now rewrite N0. }
  intros [|i] B; [cbn [nth]; lia|]. cbn [nth]. apply (N i). cbn [length] in *. lia.
Qed.

Theorem C73_all_axes : forall b n bc a A, chain b n bc a -> 0 < prod (a_shape a) ->
  NoDup A -> (forall k, In k A -> k < length (a_shape a)) ->
  let ish := take_axes A (a_shape a) in let ist := take_axes A (a_stride a) in
  let osh := drop_axes A (a_shape a) in let ost := drop_axes A (a_stride a) in
  Forall (fun n => 2 <= n) ish -> length osh <= MAX_DIMS -> no_bcast osh ost ->
  (forall T (h : heap T), live h b n -> exists h' rs, nd_nditer h a A = Ok (h', rs) /\ items_right a A h h' rs) <-> nested_strides ish ist.
Proof.
  intros b n bc a A C P N B ish ist osh ost P2 MD NB.
  assert (LI : length ist = length ish).
  { unfold ish, ist. rewrite <- !take_mask, (i_wf _ _ _ _ (chain_inv _ _ _ _ C)). apply mask_lengths. exact (i_wf _ _ _ _ (chain_inv _ _ _ _ C)). }
  rewrite (C73_right b n bc a A C P N B MD). fold ish ist osh ost. split.
  - intros [H _]. now apply walk_needs.
  - intros H. split; [|auto]. intros c R. now apply C73_nested.
Qed.
Print Assumptions C73_all_axes.

(** ** examples: axes 0 and 2 of a 2 x 2 x 2 array, and both axes of a transposed 2 x 3 array,
    where the third item would start at the seventh of six cells *)
Example C73_ex : exists b n bc a, chain b n bc a /\ 0 < prod (a_shape a) /\
  take_axes [0; 2] (a_shape a) = [2; 2] /\ take_axes [0; 2] (a_stride a) = [4; 1] /\
  copied (drop_axes [0; 2] (a_shape a)) (drop_axes [0; 2] (a_stride a)) [0; 2] /\
  (exists h' rs, nd_nditer [Some [0; 1; 2; 3; 4; 5; 6; 7]] a [0; 2] = Ok (h', rs) /\
     mapM (elems h') rs = Ok [[0; 2]; [1; 3]; [2; 4]; [5; 7]]).
Proof.
  exists 0, 8, false, (fresh_arr 0 8 [2; 2; 2]). split; [apply Ch_new; [reflexivity|lia]|]. split; [cbn; lia|]. split; [reflexivity|]. split; [reflexivity|].
  split; [split; [intros [_ H]; cbn in H; lia|reflexivity]|]. eexists _, _. split; vm_compute; reflexivity.
Qed.
Example C73_outside_ex : exists b n bc a, chain b n bc a /\
  take_axes [0; 1] (a_shape a) = [3; 2] /\ take_axes [0; 1] (a_stride a) = [1; 3] /\ fst (walk [3; 2] [1; 3] 2) = 6 /\
  live [Some [0; 1; 2; 3; 4; 5]] (a_blk a) n /\ n = 6 /\
  nd_nditer [Some [0; 1; 2; 3; 4; 5]] a [0; 1] = Oob.
Proof.
  exists 0, 6, false. eexists. split; [eapply Ch_transpose with (m := ByRef) (i := 0%Z) (j := 1%Z); [exact (Ch_new 0 6 [2; 3] eq_refl ltac:(lia))|vm_compute; reflexivity]|].
  split; [reflexivity|]. split; [reflexivity|]. split; [reflexivity|]. split; [eexists; split; reflexivity|]. split; [reflexivity|]. vm_compute. reflexivity.
Qed.
