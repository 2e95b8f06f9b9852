(** PropsSimdNan.v: exactly when a NaN reaches the result of the vectorised minimum and
    maximum.  The vector part of the loops takes whole blocks of cells and its lanes
    return NaN as soon as one operand is; the scalar tail passes over NaN cells. *)
From Coq Require Import ZArith List Arith Lia Bool Permutation.
From Verif Require Import Base Spec Layout SpecFacts LayoutFacts Views ViewsFacts ViewsFacts2 ViewsFacts3
  Kernels Access HeapFacts KernelFacts OpFacts AccessFacts Chain ChainFacts ViewsFacts4 Reduce ReduceFacts
  Simd SimdFacts SimdOps SimdRed Vdsp VdspFacts PropsViews PropsOps PropsReduce PropsBcast PropsSimd PropsSimdBcast.
Import ListNotations.
Open Scope nat_scope.
Open Scope res_scope.

(** ** how many cells the vector part takes *)
Section Prefix.
  Context {T : Type}.
  Variable L : nat.
  Hypothesis HL : L = 2 \/ L = 4.
  Variable op : T -> T -> T.
  Variable hor : list T -> res T.
  Hypothesis Hhor : forall ts, length ts = L -> exists t, hor (map (teval op) ts) = Ok (teval op t) /\ Permutation (leaves t) (lv ts).
  Variable step : T -> T -> T.

  (** whole blocks of W cells go through the lanes, the fewer than W others through the tail *)
  Definition takes (W n : nat) (g : nat -> T) (ts : list (tree T)) (k : nat) (out : res T) : Prop :=
    exists t q, k + q * W <= n < k + q * W + W /\ Permutation (leaves t) (lv ts ++ map g (seq k (q * W))) /\
      out = Ok (fold_left step (map g (seq (k + q * W) (n - (k + q * W)))) (teval op t)).

  Lemma takes_tail W h p s n g ts k : (forall i, i < n -> ld h (padd p (i * s)) = Ok (g i)) ->
    length ts = L -> k <= n -> n < k + W ->
    takes W n g ts k (out <- hor (map (teval op) ts) ;; red_tail step h (padd p (k * s)) (n - k) s out).
  Proof.
    intros R E LE LT. destruct (Hhor ts E) as (t & -> & P). exists t, 0. cbn [Nat.mul seq map]. rewrite Nat.add_0_r, app_nil_r.
    split; [lia|]. split; [exact P|]. cbn [bind]. apply (red_tail_at step h p s n g R). lia.
  Qed.

  Lemma uniform_takes h p s n g : (forall i, i < n -> ld h (padd p (i * s)) = Ok (g i)) ->
    forall fuel k ts, n - k < fuel -> k <= n -> length ts = L ->
    takes L n g ts k (red_uniform_go L op hor step fuel h (padd p (k * s)) (n - k) s (map (teval op) ts)).
  Proof.
    intros R. pose proof (HLpos L HL) as PL. induction fuel as [|fuel IH]; intros k ts F LE E; [lia|]. cbn [red_uniform_go].
    destruct (Nat.leb_spec L (n - k)) as [B|B]; [|apply takes_tail; auto; lia].
    rewrite (vgather_at L HL h p s n g R) by lia. cbn [bind]. rewrite padd_add. replace (k * s + s * L) with ((k + L) * s) by lia.
    replace (n - k - L) with (n - (k + L)) by lia.
    rewrite <- (teval_leaf op (map g (seq k L))), map2_teval.
    destruct (IH (k + L) (map2 Node ts (map Leaf (map g (seq k L))))) as (t & q & I & P & Q);
      [lia|lia|rewrite map2_length, !map_length, seq_length; lia|].
    exists t, (S q). replace (k + S q * L) with (k + L + q * L) by lia. split; [lia|]. split; [|exact Q].
    rewrite P, lv_node by (now rewrite !map_length, seq_length). rewrite lv_leaf, <- app_assoc, <- map_app.
    replace (S q * L) with (L + q * L) by lia. now rewrite seq_app.
  Qed.

  Lemma contig_takes h p n g : (forall i, i < n -> ld h (padd p i) = Ok (g i)) ->
    forall fuel k ts, n - k < fuel -> k <= n -> length ts = L ->
    takes (4 * L) n g ts k (red_contig_go L op hor step fuel h (padd p k) (n - k) (map (teval op) ts)).
  Proof.
    intros R. pose proof (HLpos L HL) as PL. induction fuel as [|fuel IH]; intros k ts F LE E; [lia|]. cbn [red_contig_go].
    destruct (Nat.leb_spec (4 * L) (n - k)) as [B|B].
    - rewrite !padd_add, !Nat.mul_0_l, !Nat.add_0_r, !(vload_at L h p n g R) by lia. cbn [bind].
      rewrite quads_eval, map2_teval. replace (n - k - 4 * L) with (n - (k + 4 * L)) by lia.
      destruct (IH (k + 4 * L) (map2 Node ts (quads L g k))) as (t & q & I & P & Q);
        [lia|lia|rewrite map2_length, quads_length; lia|].
      exists t, (S q). replace (k + S q * (4 * L)) with (k + 4 * L + q * (4 * L)) by lia. split; [lia|]. split; [|exact Q].
      rewrite P, lv_node by (now rewrite quads_length). rewrite quads_leaves, <- app_assoc, <- map_app.
      replace (S q * (4 * L)) with (4 * L + q * (4 * L)) by lia. now rewrite seq_app.
    - replace (padd p k) with (padd p (k * 1)) by (now rewrite Nat.mul_1_r). apply takes_tail; auto; [|lia].
      intros i I. rewrite Nat.mul_1_r. auto.
  Qed.
End Prefix.

Lemma app_split_len {A} (l1 : list A) : forall l2 r1 r2, length l1 = length l2 -> l1 ++ r1 = l2 ++ r2 -> l1 = l2 /\ r1 = r2.
Proof.
  induction l1 as [|x l1 IH]; intros [|y l2] r1 r2 E H; try discriminate; [auto|]. cbn [length app] in *.
  injection H as -> H. injection E as E. destruct (IH _ _ _ E H) as [-> ->]. auto.
Qed.

(** ** absorbing values: the lanes keep them, the scalar steps pass over them *)
Section Absorb.
  Context {T : Type}.
  Variable L : nat.
  Hypothesis HL : L = 2 \/ L = 4.
  Variable bad : T -> bool.
  Variable le : T -> T -> Prop.
  Let P (x : T) : Prop := bad x = false.
  Hypothesis le_refl : forall x, P x -> le x x.
  Hypothesis le_trans : forall x y z, P x -> P y -> P z -> le x y -> le y z -> le x z.
  Variable op step : T -> T -> T.
  Hypothesis opP : forall x y, P x -> P y -> (op x y = x \/ op x y = y) /\ le (op x y) x /\ le (op x y) y.
  Hypothesis stepP : forall x y, P x -> P y -> (step x y = x \/ step x y = y) /\ le (step x y) x /\ le (step x y) y.
  Hypothesis op_bad : forall x y, bad (op x y) = bad x || bad y.
  Hypothesis step_keep : forall x y, bad x = true -> step x y = x.
  Hypothesis step_skip : forall x y, bad y = true -> step x y = x.

  Lemma teval_bad t : bad (teval op t) = existsb bad (leaves t).
  Proof.
    induction t as [x|l IHl r IHr]; cbn [teval leaves existsb]; [now rewrite orb_false_r|].
    now rewrite op_bad, existsb_app, IHl, IHr.
  Qed.
  Lemma fold_keep xs : forall v, bad v = true -> fold_left step xs v = v.
  Proof. induction xs as [|x xs IH]; intros v B; cbn [fold_left]; [reflexivity|]. rewrite step_keep by exact B. now apply IH. Qed.
  Lemma fold_skip xs : forall v, fold_left step xs v = fold_left step (filter (fun x => negb (bad x)) xs) v.
  Proof.
    induction xs as [|x xs IH]; intros v; cbn [fold_left filter]; [reflexivity|].
    destruct (bad x) eqn:B; cbn [negb]; [rewrite step_skip by exact B|cbn [fold_left]]; apply IH.
  Qed.
  Lemma existsb_perm (l l' : list T) : Permutation l l' -> existsb bad l = existsb bad l'.
  Proof.
    intros Q. apply eq_true_iff_eq. rewrite !existsb_exists. split; intros (x & I & B); exists x; split; auto.
    - eapply Permutation_in; eauto.
    - eapply Permutation_in; [symmetry|]; eauto.
  Qed.
  Lemma none_bad l : existsb bad l = false -> Forall P l.
  Proof.
    intros E. apply Forall_forall. intros x I. unfold P. destruct (bad x) eqn:B; [|reflexivity].
    rewrite <- E. symmetry. apply existsb_exists. eauto.
  Qed.

  Lemma takes_exact W vs init out : 0 < W -> P init ->
    takes op step W (length vs) (fun i => nth i vs init) (repeat (Leaf init) L) 0 out ->
    let k := W * (length vs / W) in
    exists v, out = Ok v /\
      (bad v = true <-> exists x, In x (firstn k vs) /\ bad x = true) /\
      (bad v = false -> In v (init :: vs) /\ le v init /\ forall x, In x vs -> bad x = false -> le v x).
  Proof.
    intros W0 PI (t & q & I & Q & ->) k. rewrite Nat.add_0_l in *. pose proof (HLpos L HL) as PL.
    assert (K : k = q * W).
    { unfold k. rewrite (Nat.div_unique (length vs) W q (length vs - q * W)) by lia. lia. }
    rewrite K. clear k K. rewrite lv_repeat in Q.
    assert (SP : map (fun i => nth i vs init) (seq 0 (q * W)) = firstn (q * W) vs /\
      map (fun i => nth i vs init) (seq (q * W) (length vs - q * W)) = skipn (q * W) vs).
    { pose proof (map_nth_seq vs init) as E. pose proof (seq_split 0 (q * W) (length vs)) as SS. rewrite !Nat.sub_0_r in SS.
      rewrite SS, map_app in E by lia. pose proof (eq_trans E (eq_sym (firstn_skipn (q * W) vs))) as E'. clear E.
      assert (LE : length (map (fun i => nth i vs init) (seq 0 (q * W))) = length (firstn (q * W) vs))
        by (rewrite map_length, seq_length, firstn_length; lia).
      exact (app_split_len _ _ _ _ LE E'). }
    destruct SP as [S1 S2]. rewrite S1 in Q. rewrite S2. clear S1 S2. set (xs := firstn (q * W) vs) in *. set (ys := skipn (q * W) vs).
    eexists. split; [reflexivity|].
    assert (ER : existsb bad (repeat init L) = false).
    { destruct (existsb bad (repeat init L)) eqn:E; [|reflexivity]. apply existsb_exists in E as (x & J & B).
      apply repeat_spec in J. subst x. unfold P in PI. congruence. }
    assert (BT : bad (teval op t) = existsb bad xs) by now rewrite teval_bad, (existsb_perm _ _ Q), existsb_app, ER.
    destruct (existsb bad xs) eqn:EX.
    - rewrite fold_keep by exact BT. rewrite BT. split; [|discriminate]. split; [|auto].
      intros _. apply existsb_exists in EX. exact EX.
    - rewrite fold_skip. set (zs := filter (fun x => negb (bad x)) ys).
      assert (FL : Forall P (leaves t)) by (apply none_bad; now rewrite <- teval_bad).
      assert (FZ : Forall P zs).
      { apply Forall_forall. intros x J. apply filter_In in J as [_ J]. unfold P. now destruct (bad x). }
      pose proof (fold_least P le le_refl le_trans step stepP zs (teval op t) (leaves t) FL FZ
        (tree_least P le le_refl le_trans op opP t FL)) as LS.
      eapply least_perm in LS; [|rewrite Q, <- app_assoc; reflexivity].
      apply (least_repeat L HL le _ init L) in LS; [|lia]. set (v := fold_left step zs (teval op t)) in *.
      destruct LS as [LI LB].
      assert (VV : vs = xs ++ ys) by (symmetry; apply firstn_skipn).
      assert (FX : Forall P xs) by now apply none_bad.
      assert (BV : bad v = false).
      { destruct LI as [<- |LI]; [exact PI|]. apply in_app_or in LI as [LI|LI];
          [exact (proj1 (Forall_forall _ _) FX v LI)|exact (proj1 (Forall_forall _ _) FZ v LI)]. }
      rewrite BV. split.
      + split; [discriminate|]. intros (x & J & B). pose proof (proj1 (Forall_forall _ _) FX x J) as PX. unfold P in PX. congruence.
      + intros _. split; [|split; [apply LB; now left|]].
        * destruct LI as [<- |LI]; [now left|right]. rewrite VV. apply in_or_app. apply in_app_or in LI as [LI|LI]; [now left|right].
          apply filter_In in LI. apply LI.
        * intros x J B. apply LB. right. rewrite VV in J. apply in_or_app. apply in_app_or in J as [J|J]; [now left|right].
          apply filter_In. rewrite B. auto.
  Qed.
End Absorb.

(** ** C96.  L lanes; block = the cells one round of the vector loop takes: four vectors if
    the cells lie one after the other, else one.  The result is NaN exactly if one of the
    cells in whole blocks is; otherwise it is the start value or a cell, and bounds all
    cells that are not NaN. *)
Import SpecFloat.
Definition block (L s : nat) : nat := if s =? 1 then 4 * L else L.

Lemma lane_min_nan x y : nan (lane_min x y) = nan x || nan y.
Proof.
  unfold lane_min. destruct (nan x) eqn:X, (nan y) eqn:Y; cbn [orb]; try reflexivity.
  destruct (zero_f x && zero_f y); [reflexivity|]. destruct (SFltb y x); assumption.
Qed.
Lemma lane_max_nan x y : nan (lane_max x y) = nan x || nan y.
Proof.
  unfold lane_max. destruct (nan x) eqn:X, (nan y) eqn:Y; cbn [orb]; try reflexivity.
  destruct (zero_f x && zero_f y); [reflexivity|]. destruct (SFltb x y); assumption.
Qed.
Lemma lt_nan x y : nan x = true \/ nan y = true -> SFltb x y = false.
Proof.
  intros [N|N]; [destruct x|destruct y]; try discriminate; [reflexivity|].
  destruct x as [?|[|]| |[|] ? ?]; reflexivity.
Qed.
Lemma pmin_keep x y : nan x = true -> pmin SFltb x y = x.
Proof. intros N. unfold pmin. now rewrite lt_nan by auto. Qed.
Lemma pmin_skip x y : nan y = true -> pmin SFltb x y = x.
Proof. intros N. unfold pmin. now rewrite lt_nan by auto. Qed.
Lemma pmax_keep x y : nan x = true -> pmax SFltb x y = x.
Proof. intros N. unfold pmax. now rewrite lt_nan by auto. Qed.
Lemma pmax_skip x y : nan y = true -> pmax SFltb x y = x.
Proof. intros N. unfold pmax. now rewrite lt_nan by auto. Qed.

Theorem C96_min : forall L (h : heap spec_float) blk n bc a top, L = 2 \/ L = 4 -> nan top = false ->
  live h blk n -> chain blk n bc a -> evenly (a_shape a) (a_stride a) ->
  let cells := run (prod (a_shape a)) (last (a_stride a) 0) in
  let b := block L (last (a_stride a) 0) in
  let k := b * (prod (a_shape a) / b) in
  (forall o, In o cells -> a_off a + o < n) ->
  exists vs v h' r, at_steps h a cells = Ok vs /\ snd_min L SFltb lane_min top h a = Ok (h', r) /\
    fresh_result h h' r [] (fun _ => Ok v) /\
    (nan v = true <-> exists x, In x (firstn k vs) /\ nan x = true) /\
    (nan v = false -> In v (top :: vs) /\ fle v top /\ forall x, In x vs -> nan x = false -> fle v x).
Proof.
  intros L h blk n bc a top HL NT LV C EV cells b k H. pose proof (HLpos L HL) as PL.
  destruct (cells_hold h blk n bc a LV C top H) as (vs & E & LN & R).
  unfold snd_min. rewrite (sk_reduce_even h blk n bc a C EV). unfold k, b, block. rewrite <- LN.
  pose proof (fun W out W0 => takes_exact L HL nan fle fle_refl fle_trans lane_min (pmin SFltb) lane_min_ok pmin_ok
    lane_min_nan pmin_keep pmin_skip W vs top out W0 NT) as TE. cbv zeta in TE.
  assert (Q : exists v, (if last (a_stride a) 0 =? 1 then simd_min_contiguous L SFltb lane_min top h (a_ptr a) (length vs)
      else simd_min_uniform L SFltb lane_min top h (a_ptr a) (length vs) (last (a_stride a) 0)) = Ok v /\
    let b := if last (a_stride a) 0 =? 1 then 4 * L else L in
    (nan v = true <-> exists x, In x (firstn (b * (length vs / b)) vs) /\ nan x = true) /\
    (nan v = false -> In v (top :: vs) /\ fle v top /\ forall x, In x vs -> nan x = false -> fle v x)).
  { destruct (Nat.eqb_spec (last (a_stride a) 0) 1) as [E1|_]; cbv zeta; apply TE; try lia.
    - rewrite E1 in R. unfold simd_min_contiguous, red_contig. rewrite <- (teval_repeat lane_min top L).
      pose proof (contig_takes L HL lane_min (hor_pairs lane_min) (hor_pairs_tree L HL lane_min) (pmin SFltb) h (a_ptr a) (length vs)
        (fun i => nth i vs top) (holds1 h (a_ptr a) vs top R) (S (length vs)) 0 (repeat (Leaf top) L)) as TK.
      rewrite padd_0, Nat.sub_0_r in TK. apply TK; [lia|lia|apply repeat_length].
    - unfold simd_min_uniform, red_uniform. rewrite <- (teval_repeat lane_min top L).
      pose proof (uniform_takes L HL lane_min (hor_pairs lane_min) (hor_pairs_tree L HL lane_min) (pmin SFltb) h (a_ptr a) (last (a_stride a) 0)
        (length vs) (fun i => nth i vs top) R (S (length vs)) 0 (repeat (Leaf top) L)) as TK.
      rewrite Nat.mul_0_l, padd_0, Nat.sub_0_r in TK. apply TK; [lia|lia|apply repeat_length]. }
  destruct Q as (v & -> & N & M). cbn [bind]. destruct (scalar_result h v) as (h' & r & S & F).
  exists vs, v, h', r. auto.
Qed.
Print Assumptions C96_min.

Theorem C96_max : forall L (h : heap spec_float) blk n bc a bot, L = 2 \/ L = 4 -> nan bot = false ->
  live h blk n -> chain blk n bc a -> evenly (a_shape a) (a_stride a) ->
  let cells := run (prod (a_shape a)) (last (a_stride a) 0) in
  let b := block L (last (a_stride a) 0) in
  let k := b * (prod (a_shape a) / b) in
  (forall o, In o cells -> a_off a + o < n) ->
  exists vs v h' r, at_steps h a cells = Ok vs /\ snd_max L SFltb lane_max bot h a = Ok (h', r) /\
    fresh_result h h' r [] (fun _ => Ok v) /\
    (nan v = true <-> exists x, In x (firstn k vs) /\ nan x = true) /\
    (nan v = false -> In v (bot :: vs) /\ fle bot v /\ forall x, In x vs -> nan x = false -> fle x v).
Proof.
  intros L h blk n bc a bot HL NT LV C EV cells b k H. pose proof (HLpos L HL) as PL.
  destruct (cells_hold h blk n bc a LV C bot H) as (vs & E & LN & R).
  unfold snd_max. rewrite (sk_reduce_even h blk n bc a C EV). unfold k, b, block. rewrite <- LN.
  pose proof (fun W out W0 => takes_exact L HL nan (fun x y => fle y x) fle_refl (fun x y z X Y Z H1 H2 => fle_trans z y x Z Y X H2 H1)
    lane_max (pmax SFltb) lane_max_ok pmax_ok lane_max_nan pmax_keep pmax_skip W vs bot out W0 NT) as TE. cbv zeta in TE.
  assert (Q : exists v, (if last (a_stride a) 0 =? 1 then simd_max_contiguous L SFltb lane_max bot h (a_ptr a) (length vs)
      else simd_max_uniform L SFltb lane_max bot h (a_ptr a) (length vs) (last (a_stride a) 0)) = Ok v /\
    let b := if last (a_stride a) 0 =? 1 then 4 * L else L in
    (nan v = true <-> exists x, In x (firstn (b * (length vs / b)) vs) /\ nan x = true) /\
    (nan v = false -> In v (bot :: vs) /\ fle bot v /\ forall x, In x vs -> nan x = false -> fle x v)).
  { destruct (Nat.eqb_spec (last (a_stride a) 0) 1) as [E1|_]; cbv zeta; apply TE; try lia.
    - rewrite E1 in R. unfold simd_max_contiguous, red_contig. rewrite <- (teval_repeat lane_max bot L).
      pose proof (contig_takes L HL lane_max (hor_pairs lane_max) (hor_pairs_tree L HL lane_max) (pmax SFltb) h (a_ptr a) (length vs)
        (fun i => nth i vs bot) (holds1 h (a_ptr a) vs bot R) (S (length vs)) 0 (repeat (Leaf bot) L)) as TK.
      rewrite padd_0, Nat.sub_0_r in TK. apply TK; [lia|lia|apply repeat_length].
    - unfold simd_max_uniform, red_uniform. rewrite <- (teval_repeat lane_max bot L).
      pose proof (uniform_takes L HL lane_max (hor_pairs lane_max) (hor_pairs_tree L HL lane_max) (pmax SFltb) h (a_ptr a) (last (a_stride a) 0)
        (length vs) (fun i => nth i vs bot) R (S (length vs)) 0 (repeat (Leaf bot) L)) as TK.
      rewrite Nat.mul_0_l, padd_0, Nat.sub_0_r in TK. apply TK; [lia|lia|apply repeat_length]. }
  destruct Q as (v & -> & N & M). cbn [bind]. destruct (scalar_result h v) as (h' & r & S & F).
  exists vs, v, h', r. auto.
Qed.
Print Assumptions C96_max.

Lemma eqb_both x y : nan x = false -> nan y = false -> fle x y -> fle y x -> SFeqb x y = true.
Proof.
  intros X Y A B. pose proof (flt_le y x Y X) as LT. unfold fle in A. rewrite A in LT.
  pose proof (flt_le x y X Y) as LT'. unfold fle in B. rewrite B in LT'.
  unfold SFeqb, SFltb, SFleb in *. destruct (SFcompare x y) as [[| |]|] eqn:E; try discriminate. reflexivity.
Qed.
Lemma eqb_nan x y : SFeqb x y = true -> nan x = false.
Proof. destruct x; [reflexivity|reflexivity|discriminate|reflexivity]. Qed.
Lemma agree_iff v w xs : nan w = false -> (nan v = true <-> exists x, In x xs /\ nan x = true) ->
  (nan v = false -> fle v w /\ fle w v) -> SFeqb v w = true <-> forall x, In x xs -> nan x = false.
Proof.
  intros NW N A. split.
  - intros E x I. apply eqb_nan in E. destruct (nan x) eqn:X; [|reflexivity].
    rewrite (proj2 N) in E by eauto. discriminate.
  - intros F. assert (NV : nan v = false).
    { destruct (nan v) eqn:V; [|reflexivity]. destruct (proj1 N eq_refl) as (x & I & X). rewrite F in X by exact I. discriminate. }
    destruct (A NV). now apply eqb_both.
Qed.

(** ** against the portable loop *)
Lemma portable_min vs : forall z, foldM (partial_min SFltb) vs z = Ok (fold_left (pmin SFltb) vs z).
Proof. induction vs as [|x vs IH]; intros z; [reflexivity|]. cbn [foldM fold_left partial_min bind]. apply IH. Qed.
Lemma portable_max vs : forall z, foldM (partial_max SFltb) vs z = Ok (fold_left (pmax SFltb) vs z).
Proof. induction vs as [|x vs IH]; intros z; [reflexivity|]. cbn [foldM fold_left partial_max bind]. apply IH. Qed.

(** the scalar loop over all cells bounds those that are not NaN, and is not NaN *)
Lemma scalar_bounds (le : spec_float -> spec_float -> Prop) step vs init :
  (forall x, nan x = false -> le x x) ->
  (forall x y z, nan x = false -> nan y = false -> nan z = false -> le x y -> le y z -> le x z) ->
  (forall x y, nan x = false -> nan y = false -> (step x y = x \/ step x y = y) /\ le (step x y) x /\ le (step x y) y) ->
  (forall x y, nan y = true -> step x y = x) -> nan init = false ->
  let w := fold_left step vs init in
  nan w = false /\ In w (init :: vs) /\ le w init /\ forall x, In x vs -> nan x = false -> le w x.
Proof.
  intros LR LT SP SK NI w. unfold w. rewrite (fold_skip nan step SK). set (zs := filter (fun x => negb (nan x)) vs).
  assert (FZ : Forall (fun x => nan x = false) zs).
  { apply Forall_forall. intros x J. apply filter_In in J as [_ J]. now destruct (nan x). }
  assert (F1 : Forall (fun x => nan x = false) [init]) by auto.
  destruct (fold_least (fun x => nan x = false) le LR LT step SP zs init [init] F1 FZ) as [I B].
  { split; [now left|]. intros x [<- |[]]. now apply LR. }
  cbn [app] in I, B. split; [|split; [|split; [apply B; now left|]]].
  - destruct I as [<- |I]; [exact NI|]. exact (proj1 (Forall_forall _ _) FZ _ I).
  - destruct I as [I|I]; [now left|right]. apply filter_In in I. apply I.
  - intros x J N. apply B. right. apply filter_In. rewrite N. auto.
Qed.

Theorem C96_min_agrees : forall L (h : heap spec_float) blk n bc a top, L = 2 \/ L = 4 -> nan top = false ->
  live h blk n -> chain blk n bc a -> evenly (a_shape a) (a_stride a) ->
  let cells := run (prod (a_shape a)) (last (a_stride a) 0) in
  let b := block L (last (a_stride a) 0) in
  let k := b * (prod (a_shape a) / b) in
  (forall o, In o cells -> a_off a + o < n) ->
  exists vs v w h1 r1 h2 r2, at_steps h a cells = Ok vs /\
    snd_min L SFltb lane_min top h a = Ok (h1, r1) /\ fresh_result h h1 r1 [] (fun _ => Ok v) /\
    nd_reduce (partial_min SFltb) top h a = Ok (h2, r2) /\ fresh_result h h2 r2 [] (fun _ => Ok w) /\
    (SFeqb v w = true <-> forall x, In x (firstn k vs) -> nan x = false).
Proof.
  intros L h blk n bc a top HL NT LV C EV cells b k H.
  destruct (C96_min L h blk n bc a top HL NT LV C EV H) as (vs & v & h1 & r1 & A & E1 & F1 & N & M).
  destruct (proj1 (C65_reduce_run _ (partial_min SFltb) h blk n bc a top LV C EV) H) as (vs' & A' & P & _).
  fold cells in A, A'. rewrite A in A'. injection A' as <-.
  destruct (P _ (portable_min vs top)) as (h2 & r2 & E2 & F2).
  destruct (scalar_bounds fle (pmin SFltb) vs top fle_refl fle_trans pmin_ok pmin_skip NT) as (NW & IW & WT & WB).
  set (w := fold_left (pmin SFltb) vs top) in *.
  exists vs, v, w, h1, r1, h2, r2. do 5 (split; [assumption|]). apply (agree_iff _ _ _ NW N). intros NV.
  destruct (M NV) as (IV & VT & VB). split.
  - destruct IW as [E|IW]; [rewrite <- E; exact VT|now apply VB].
  - destruct IV as [E|IV]; [rewrite <- E; exact WT|now apply WB].
Qed.
Print Assumptions C96_min_agrees.

Theorem C96_max_agrees : forall L (h : heap spec_float) blk n bc a bot, L = 2 \/ L = 4 -> nan bot = false ->
  live h blk n -> chain blk n bc a -> evenly (a_shape a) (a_stride a) ->
  let cells := run (prod (a_shape a)) (last (a_stride a) 0) in
  let b := block L (last (a_stride a) 0) in
  let k := b * (prod (a_shape a) / b) in
  (forall o, In o cells -> a_off a + o < n) ->
  exists vs v w h1 r1 h2 r2, at_steps h a cells = Ok vs /\
    snd_max L SFltb lane_max bot h a = Ok (h1, r1) /\ fresh_result h h1 r1 [] (fun _ => Ok v) /\
    nd_reduce (partial_max SFltb) bot h a = Ok (h2, r2) /\ fresh_result h h2 r2 [] (fun _ => Ok w) /\
    (SFeqb v w = true <-> forall x, In x (firstn k vs) -> nan x = false).
Proof.
  intros L h blk n bc a bot HL NT LV C EV cells b k H.
  destruct (C96_max L h blk n bc a bot HL NT LV C EV H) as (vs & v & h1 & r1 & A & E1 & F1 & N & M).
  destruct (proj1 (C65_reduce_run _ (partial_max SFltb) h blk n bc a bot LV C EV) H) as (vs' & A' & P & _).
  fold cells in A, A'. rewrite A in A'. injection A' as <-.
  destruct (P _ (portable_max vs bot)) as (h2 & r2 & E2 & F2).
  destruct (scalar_bounds (fun x y => fle y x) (pmax SFltb) vs bot fle_refl (fun x y z X Y Z H1 H2 => fle_trans z y x Z Y X H2 H1) pmax_ok pmax_skip NT)
    as (NW & IW & WT & WB).
  set (w := fold_left (pmax SFltb) vs bot) in *.
  exists vs, v, w, h1, r1, h2, r2. do 5 (split; [assumption|]). apply (agree_iff _ _ _ NW N). intros NV.
  destruct (M NV) as (IV & VT & VB). split.
  - destruct IV as [E|IV]; [rewrite <- E; exact WT|now apply WB].
  - destruct IW as [E|IW]; [rewrite <- E; exact VT|now apply VB].
Qed.
Print Assumptions C96_max_agrees.

(** ** views with uneven strides, which no vector kernel handles: a NaN never reaches the result *)
Theorem C96_min_uneven : forall L (h : heap spec_float) blk n bc a top, nan top = false ->
  live h blk n -> chain blk n bc a -> ~ evenly (a_shape a) (a_stride a) -> length (a_shape a) <= MAX_DIMS ->
  exists vs v h' r, elems h a = Ok vs /\ snd_min L SFltb lane_min top h a = Ok (h', r) /\
    fresh_result h h' r [] (fun _ => Ok v) /\ nan v = false /\
    In v (top :: vs) /\ fle v top /\ forall x, In x vs -> nan x = false -> fle v x.
Proof.
  intros L h blk n bc a top NT LV C UN MD.
  destruct (C65_reduce_elements _ (partial_min SFltb) h blk n bc a top LV C UN MD) as (vs & A & P & _).
  destruct (P _ (portable_min vs top)) as (h2 & r2 & E2 & F2).
  destruct (scalar_bounds fle (pmin SFltb) vs top fle_refl fle_trans pmin_ok pmin_skip NT) as (NW & IW & WT & WB).
  exists vs, (fold_left (pmin SFltb) vs top), h2, r2. split; [exact A|]. split; [|auto].
  rewrite <- E2. unfold snd_min, nd_reduce, sk_reduce, k_reduce.
  now rewrite (unevenly_uniform _ _ (i_wf _ _ _ _ (chain_inv _ _ _ _ C)) UN).
Qed.
Print Assumptions C96_min_uneven.

Theorem C96_max_uneven : forall L (h : heap spec_float) blk n bc a bot, nan bot = false ->
  live h blk n -> chain blk n bc a -> ~ evenly (a_shape a) (a_stride a) -> length (a_shape a) <= MAX_DIMS ->
  exists vs v h' r, elems h a = Ok vs /\ snd_max L SFltb lane_max bot h a = Ok (h', r) /\
    fresh_result h h' r [] (fun _ => Ok v) /\ nan v = false /\
    In v (bot :: vs) /\ fle bot v /\ forall x, In x vs -> nan x = false -> fle x v.
Proof.
  intros L h blk n bc a bot NT LV C UN MD.
  destruct (C65_reduce_elements _ (partial_max SFltb) h blk n bc a bot LV C UN MD) as (vs & A & P & _).
  destruct (P _ (portable_max vs bot)) as (h2 & r2 & E2 & F2).
  destruct (scalar_bounds (fun x y => fle y x) (pmax SFltb) vs bot fle_refl (fun x y z X Y Z H1 H2 => fle_trans z y x Z Y X H2 H1) pmax_ok pmax_skip NT) as (NW & IW & WT & WB).
  exists vs, (fold_left (pmax SFltb) vs bot), h2, r2. split; [exact A|]. split; [|auto].
  rewrite <- E2. unfold snd_max, nd_reduce, sk_reduce, k_reduce.
  now rewrite (unevenly_uniform _ _ (i_wf _ _ _ _ (chain_inv _ _ _ _ C)) UN).
Qed.
Print Assumptions C96_max_uneven.

(** ** runs shorter than a block: the vector loop does nothing, and the result is that of the
    portable loop bit by bit *)
Lemma lane_min_self x : nan x = false -> lane_min x x = x.
Proof.
  intros N. unfold lane_min. rewrite N. cbn [orb]. destruct x as [[|]|[|]| |? ? ?]; try discriminate; try reflexivity.
  cbn [zero_f andb]. now destruct (SFltb _ _).
Qed.
Lemma lane_max_self x : nan x = false -> lane_max x x = x.
Proof.
  intros N. unfold lane_max. rewrite N. cbn [orb]. destruct x as [[|]|[|]| |? ? ?]; try discriminate; try reflexivity.
  cbn [zero_f andb]. now destruct (SFltb _ _).
Qed.
Lemma teval_same {T} (op : T -> T -> T) x t : op x x = x -> Forall (fun y => y = x) (leaves t) -> teval op t = x.
Proof.
  intros O. induction t as [y|l IHl r IHr]; cbn [teval leaves]; intros F; [now inversion F|].
  apply Forall_app in F as [F1 F2]. now rewrite IHl, IHr.
Qed.
Lemma takes_short {T} L (op step : T -> T -> T) init : op init init = init -> forall vs W out, length vs < W ->
  takes op step W (length vs) (fun i => nth i vs init) (repeat (Leaf init) L) 0 out -> out = Ok (fold_left step vs init).
Proof.
  intros O vs W out LT (t & q & I & Q & ->). assert (q = 0) by nia. subst q. cbn [Nat.mul Nat.add seq map] in *.
  rewrite lv_repeat, app_nil_r in Q. rewrite Nat.sub_0_r, map_nth_seq. do 2 f_equal. apply teval_same; [exact O|].
  eapply Permutation_Forall; [symmetry; exact Q|]. apply Forall_forall. intros x J. now apply repeat_spec in J.
Qed.

Theorem C96_min_short : forall L (h : heap spec_float) blk n bc a top, L = 2 \/ L = 4 -> nan top = false ->
  live h blk n -> chain blk n bc a -> evenly (a_shape a) (a_stride a) ->
  prod (a_shape a) < block L (last (a_stride a) 0) ->
  (forall o, In o (run (prod (a_shape a)) (last (a_stride a) 0)) -> a_off a + o < n) ->
  snd_min L SFltb lane_min top h a = nd_reduce (partial_min SFltb) top h a.
Proof.
  intros L h blk n bc a top HL NT LV C EV SH H. pose proof (HLpos L HL) as PL.
  destruct (cells_hold h blk n bc a LV C top H) as (vs & E & LN & R).
  assert (KR : k_reduce (partial_min SFltb) top h (a_ptr a) (a_shape a) (a_stride a) = Ok (fold_left (pmin SFltb) vs top)).
  { rewrite <- portable_min. pose proof (chain_inv _ _ _ _ C) as I. pose proof (i_wf _ _ _ _ I) as W.
    pose proof (i_blk _ _ _ _ I) as B. rewrite <- B in LV. rewrite (k_reduce_run _ h top (a_ptr a) _ _ W EV). rewrite fold_idx_eq.
    - change (mapM (fun i => ld h (padd (a_ptr a) i)) (run (prod (a_shape a)) (last (a_stride a) 0))) with (at_steps h a (run (prod (a_shape a)) (last (a_stride a) 0))).
      rewrite E. reflexivity.
    - intros o O. apply (proj1 (live_load h _ _ (a_off a + o) LV)). now apply H. }
  unfold nd_reduce. rewrite KR. unfold snd_min. rewrite (sk_reduce_even h blk n bc a C EV). rewrite <- LN in *. unfold block in SH.
  pose proof (takes_short L lane_min (pmin SFltb) top (lane_min_self top NT) vs) as TS.
  f_equal. destruct (Nat.eqb_spec (last (a_stride a) 0) 1) as [E1|_].
  - rewrite E1 in R. unfold simd_min_contiguous, red_contig. apply (TS (4 * L) _ SH). rewrite <- (teval_repeat lane_min top L).
    pose proof (contig_takes L HL lane_min (hor_pairs lane_min) (hor_pairs_tree L HL lane_min) (pmin SFltb) h (a_ptr a) (length vs)
      (fun i => nth i vs top) (holds1 h (a_ptr a) vs top R) (S (length vs)) 0 (repeat (Leaf top) L)) as TK.
    rewrite padd_0, Nat.sub_0_r in TK. apply TK; [lia|lia|apply repeat_length].
  - unfold simd_min_uniform, red_uniform. apply (TS L _ SH). rewrite <- (teval_repeat lane_min top L).
    pose proof (uniform_takes L HL lane_min (hor_pairs lane_min) (hor_pairs_tree L HL lane_min) (pmin SFltb) h (a_ptr a) (last (a_stride a) 0)
      (length vs) (fun i => nth i vs top) R (S (length vs)) 0 (repeat (Leaf top) L)) as TK.
    rewrite Nat.mul_0_l, padd_0, Nat.sub_0_r in TK. apply TK; [lia|lia|apply repeat_length].
Qed.
Print Assumptions C96_min_short.

Theorem C96_max_short : forall L (h : heap spec_float) blk n bc a bot, L = 2 \/ L = 4 -> nan bot = false ->
  live h blk n -> chain blk n bc a -> evenly (a_shape a) (a_stride a) ->
  prod (a_shape a) < block L (last (a_stride a) 0) ->
  (forall o, In o (run (prod (a_shape a)) (last (a_stride a) 0)) -> a_off a + o < n) ->
  snd_max L SFltb lane_max bot h a = nd_reduce (partial_max SFltb) bot h a.
Proof.
  intros L h blk n bc a bot HL NT LV C EV SH H. pose proof (HLpos L HL) as PL.
  destruct (cells_hold h blk n bc a LV C bot H) as (vs & E & LN & R).
  assert (KR : k_reduce (partial_max SFltb) bot h (a_ptr a) (a_shape a) (a_stride a) = Ok (fold_left (pmax SFltb) vs bot)).
  { rewrite <- portable_max. pose proof (chain_inv _ _ _ _ C) as I. pose proof (i_wf _ _ _ _ I) as W.
    pose proof (i_blk _ _ _ _ I) as B. rewrite <- B in LV. rewrite (k_reduce_run _ h bot (a_ptr a) _ _ W EV). rewrite fold_idx_eq.
    - change (mapM (fun i => ld h (padd (a_ptr a) i)) (run (prod (a_shape a)) (last (a_stride a) 0))) with (at_steps h a (run (prod (a_shape a)) (last (a_stride a) 0))).
      rewrite E. reflexivity.
    - intros o O. apply (proj1 (live_load h _ _ (a_off a + o) LV)). now apply H. }
  unfold nd_reduce. rewrite KR. unfold snd_max. rewrite (sk_reduce_even h blk n bc a C EV). rewrite <- LN in *. unfold block in SH.
  pose proof (takes_short L lane_max (pmax SFltb) bot (lane_max_self bot NT) vs) as TS.
  f_equal. destruct (Nat.eqb_spec (last (a_stride a) 0) 1) as [E1|_].
  - rewrite E1 in R. unfold simd_max_contiguous, red_contig. apply (TS (4 * L) _ SH). rewrite <- (teval_repeat lane_max bot L).
    pose proof (contig_takes L HL lane_max (hor_pairs lane_max) (hor_pairs_tree L HL lane_max) (pmax SFltb) h (a_ptr a) (length vs)
      (fun i => nth i vs bot) (holds1 h (a_ptr a) vs bot R) (S (length vs)) 0 (repeat (Leaf bot) L)) as TK.
    rewrite padd_0, Nat.sub_0_r in TK. apply TK; [lia|lia|apply repeat_length].
  - unfold simd_max_uniform, red_uniform. apply (TS L _ SH). rewrite <- (teval_repeat lane_max bot L).
    pose proof (uniform_takes L HL lane_max (hor_pairs lane_max) (hor_pairs_tree L HL lane_max) (pmax SFltb) h (a_ptr a) (last (a_stride a) 0)
      (length vs) (fun i => nth i vs bot) R (S (length vs)) 0 (repeat (Leaf bot) L)) as TK.
    rewrite Nat.mul_0_l, padd_0, Nat.sub_0_r in TK. apply TK; [lia|lia|apply repeat_length].
Qed.
Print Assumptions C96_max_short.

(** the same eleven cells, two lanes: a NaN in the ninth of them is passed over if the cells lie
    one after the other (whole blocks of eight), and is the answer if they are two apart (whole
    blocks of two) *)
Definition nan_cells : list spec_float := repeat f64_two53 8 ++ [S754_nan; f64_one; f64_two53].
Definition nan_near : heap spec_float := [Some nan_cells].
Definition nan_far : heap spec_float := [Some (flat_map (fun x => [x; f64_zero]) nan_cells)].
Example C96_ex :
  (exists h' r, snd_min 2 SFltb lane_min f64_top nan_near (fresh_arr 0 11 [11]) = Ok (h', r) /\ get h' r [] = Ok f64_one) /\
  (exists a h' r, nd_slice_along (fresh_arr 0 22 [11; 2]) 1%Z (IUsize 0) = Ok a /\ live nan_far 0 22 /\ chain 0 22 false a /\
     evenly (a_shape a) (a_stride a) /\ last (a_stride a) 0 = 2 /\ prod (a_shape a) = 11 /\
     snd_min 2 SFltb lane_min f64_top nan_far a = Ok (h', r) /\ get h' r [] = Ok S754_nan).
Proof.
  split; [eexists _, _; split; vm_compute; reflexivity|].
  eexists _, _, _. split; [vm_compute; reflexivity|]. split; [eexists; split; reflexivity|]. split.
  - apply (Ch_slice_along 0 22 false (fresh_arr 0 22 [11; 2]) 1%Z 1 (IUsize 0)); [apply Ch_new; cbn; lia|reflexivity|cbn; lia|vm_compute; reflexivity].
  - split; [intros k K; cbn in K; lia|]. do 2 (split; [reflexivity|]). split; vm_compute; reflexivity.
Qed.
(** a matrix without its last column has uneven strides, so the NaN in it are passed over; the
    whole matrix gives NaN *)
Definition nan_matrix : heap spec_float := [Some ([S754_nan; f64_one; f64_zero] ++ [f64_two53; S754_nan; f64_zero] ++ [f64_one; f64_one; f64_zero])].
Example C96_uneven_ex : exists a h1 r1 h2 r2, nd_slice (fresh_arr 0 9 [3; 3]) [IFull; ITo 2] = Ok a /\ live nan_matrix 0 9 /\
  chain 0 9 false a /\ ~ evenly (a_shape a) (a_stride a) /\ nan (SFopp f64_top) = false /\
  snd_max 2 SFltb lane_max (SFopp f64_top) nan_matrix a = Ok (h1, r1) /\ get h1 r1 [] = Ok f64_two53 /\
  snd_max 2 SFltb lane_max (SFopp f64_top) nan_matrix (fresh_arr 0 9 [3; 3]) = Ok (h2, r2) /\ get h2 r2 [] = Ok S754_nan.
Proof.
  destruct (nd_slice (fresh_arr 0 9 [3; 3]) [IFull; ITo 2]) as [r| |] eqn:E; try discriminate. exists r. eexists _, _, _, _.
  split; [reflexivity|]. split; [eexists; split; reflexivity|].
  split; [eapply (Ch_slice 0 9 false (fresh_arr 0 9 [3; 3]) [IFull; ITo 2]); [apply Ch_new; [reflexivity|lia]| |exact E]; vm_compute; repeat constructor; lia|].
  vm_compute in E. injection E as <-. split; [|split; [reflexivity|]].
  - intros S0. specialize (S0 0 ltac:(cbn; lia)). cbn in S0. lia.
  - split; [vm_compute; reflexivity|]. split; [vm_compute; reflexivity|]. split; vm_compute; reflexivity.
Qed.
(** equal as floats is not equal bit by bit: the lanes order the two zeros, the portable loop
    keeps the first it meets *)
Definition two_zeros : heap spec_float := [Some (S754_zero false :: S754_zero true :: repeat f64_one 6)].
Example C96_zeros_ex : exists h1 r1 h2 r2, live two_zeros 0 8 /\
  snd_min 2 SFltb lane_min f64_top two_zeros (fresh_arr 0 8 [8]) = Ok (h1, r1) /\ get h1 r1 [] = Ok (S754_zero true) /\
  nd_reduce (partial_min SFltb) f64_top two_zeros (fresh_arr 0 8 [8]) = Ok (h2, r2) /\ get h2 r2 [] = Ok (S754_zero false).
Proof. eexists _, _, _, _. split; [eexists; split; reflexivity|]. do 3 (split; [vm_compute; reflexivity|]). vm_compute; reflexivity. Qed.
(** seven adjacent cells, fewer than a block of eight, the first one NaN *)
Definition seven : heap spec_float := [Some (S754_nan :: f64_two53 :: repeat f64_one 5)].
Example C96_short_ex : exists h1 r1, live seven 0 7 /\ chain 0 7 false (fresh_arr 0 7 [7]) /\ prod [7] < block 2 1 /\
  snd_max 2 SFltb lane_max (SFopp f64_top) seven (fresh_arr 0 7 [7]) = Ok (h1, r1) /\ get h1 r1 [] = Ok f64_two53.
Proof.
  eexists _, _. split; [eexists; split; reflexivity|]. split; [apply Ch_new; [reflexivity|lia]|]. split; [cbn; lia|].
  split; vm_compute; reflexivity.
Qed.
