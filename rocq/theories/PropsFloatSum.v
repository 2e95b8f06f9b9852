(** PropsFloatSum.v: accuracy of sums and means of f32 and f64 arrays, in every build. *)
From Coq Require Import List Arith Lia Lqa Bool ZArith QArith Qpower Qabs Permutation Floats.SpecFloat.
From Verif Require Import Base Spec Layout SpecFacts LayoutFacts Views ViewsFacts ViewsFacts2 ViewsFacts3
  Kernels Access HeapFacts KernelFacts OpFacts AccessFacts Chain ChainFacts ViewsFacts4 Reduce ReduceFacts
  PropsViews PropsOps PropsReduce Simd SimdFacts SimdRed PropsSimd Vdsp PropsVdsp Numeric NumericFacts FloatErr FloatSum.
Import ListNotations.
Open Scope res_scope.
Open Scope Q_scope.

(** a bit pattern of the format (every f32 resp. f64 value is one) *)
Definition in_format (f : fmt) (x : spec_float) : Prop := valid_binary (prec f) (emax f) x = true.

(** [s] is the sum of [xs] up to rounding.  If [s] is finite then so are the summands and
    |s - sum| <= ((1 + 2^-prec)^(n-1) - 1) * sum of magnitudes.  If the magnitudes add up
    to less than the overflow threshold, with room for rounding, then [s] is finite. *)
Definition sum_within (f : fmt) (xs : list spec_float) (s : spec_float) : Prop :=
  let bound := (1 + 2 ^ (- prec f)) ^ Z.of_nat (length xs - 1) in
  let total := qsum (map qv xs) in
  let magnitude := qsum (map (fun x => Qabs (qv x)) xs) in
  (finite s -> Forall finite xs /\ Qabs (qv s - total) <= (bound - 1) * magnitude) /\
  (Forall finite xs -> bound * magnitude < 2 ^ emax f * (1 - 2 ^ (- prec f - 1)) -> finite s).

Lemma std_ok f : std f -> (2 <= prec f)%Z /\ (prec f + 2 <= emax f)%Z.
Proof. intros S. pose proof (std_bounds f S). lia. Qed.

Lemma perm_zeros k (xs l : list spec_float) s : Permutation l (repeat (S754_zero s) k ++ xs) ->
  (weight l <= length xs)%nat /\ qsum (map qv l) == qsum (map qv xs) /\
  qsum (map (fun x => Qabs (qv x)) l) == qsum (map (fun x => Qabs (qv x)) xs) /\
  (Forall finite l <-> Forall finite xs).
Proof.
  intros P.
  assert (W : weight l = weight (repeat (S754_zero s) k ++ xs)).
  { unfold weight. apply Permutation_length. clear - P. induction P; cbn [filter].
    - constructor.
    - destruct (negb (zero_float x)); [now constructor|assumption].
    - destruct (negb (zero_float x)), (negb (zero_float y)); try apply perm_swap; apply Permutation_refl.
    - now transitivity (filter (fun x => negb (zero_float x)) l'). }
  assert (Q1 : qsum (map qv (repeat (S754_zero s) k)) == 0 /\ qsum (map (fun x => Qabs (qv x)) (repeat (S754_zero s) k)) == 0 /\
    weight (repeat (S754_zero s) k) = 0%nat /\ Forall finite (repeat (S754_zero s) k)).
  { clear. induction k as [|k (I1 & I2 & I3 & I4)]; [repeat split; try reflexivity; constructor|]. cbn [repeat map qsum fold_right].
    fold (qsum (map qv (repeat (S754_zero s) k))) (qsum (map (fun x => Qabs (qv x)) (repeat (S754_zero s) k))). rewrite I1, I2.
    split; [reflexivity|]. split; [reflexivity|]. split; [exact I3|]. constructor; [exact I|exact I4]. }
  destruct Q1 as (I1 & I2 & I3 & I4). split; [|split; [|split]].
  - rewrite W, weight_app, I3. unfold weight. cbn [plus]. clear. induction xs as [|x xs IH]; cbn [filter length]; [lia|]. destruct (negb _); cbn [length]; lia.
  - rewrite (qsum_perm _ _ (Permutation_map qv P)), map_app, qsum_app, I1. ring.
  - rewrite (qsum_perm _ _ (Permutation_map (fun x => Qabs (qv x)) P)), map_app, qsum_app, I2. ring.
  - split; intros F.
    + apply (Permutation_Forall P), Forall_app in F. tauto.
    + apply (Permutation_Forall (Permutation_sym P)), Forall_app. tauto.
Qed.

(** every order of adding, with any number of zeros thrown in *)
Lemma tree_within f t k xs s : std f -> Forall (in_format f) xs -> Permutation (leaves t) (repeat (S754_zero s) k ++ xs) ->
  in_format f (teval (fadd f) t) /\ sum_within f xs (teval (fadd f) t).
Proof.
  intros S V P. destruct (std_ok f S) as [Hp He].
  assert (VL : Forall (fun x => valid_binary (prec f) (emax f) x = true) (leaves t)).
  { apply (Permutation_Forall (Permutation_sym P)), Forall_app. split; [|exact V]. apply Forall_forall. intros x I. now rewrite (repeat_spec _ _ _ I). }
  destruct (tree_err (prec f) (emax f) Hp He t VL) as (VT & B1 & B2). split; [exact VT|].
  destruct (perm_zeros k xs _ s P) as (W & S1 & S2 & FF). unfold sum_within. cbv zeta.
  change ((1 + 2 ^ (- prec f)) ^ Z.of_nat (length xs - 1)) with (growth (prec f) (length xs - 1)).
  pose proof (growth_mono (prec f) (pred (weight (leaves t))) (length xs - 1) ltac:(lia)) as GM.
  pose proof (qsum_abs_nonneg xs) as PA. split.
  - intros F. destruct (B1 F) as [FL D]. split; [now apply FF|]. rewrite S1, S2 in D. eapply Qle_trans; [exact D|].
    apply Qmult_le_compat_r; [|exact PA]. lra.
  - intros F H. apply B2; [now apply FF|]. rewrite S2. eapply Qle_lt_trans; [|exact H]. apply Qmult_le_compat_r; [exact GM|exact PA].
Qed.

Lemma fold_tree f xs z : exists t, teval (fadd f) t = fold_left (fadd f) xs z /\ Permutation (leaves t) (z :: xs).
Proof. destruct (tree_fold (fadd f) xs (Leaf z)) as (t & E & L). exists t. cbn [teval leaves] in *. split; [now symmetry|]. now rewrite L. Qed.

(** ** C67 sum in the portable build *)
Theorem C67_sum : forall f (h : heap spec_float) blk n a vs, std f ->
  live h blk n -> chain blk n false a -> (length (a_shape a) <= MAX_DIMS)%nat -> elems h a = Ok vs -> Forall (in_format f) vs ->
  exists h' r s, nd_reduce (fun x acc => Ok (fadd f acc x)) (S754_zero false) h a = Ok (h', r) /\
    fresh_result h h' r [] (fun _ => Ok s) /\ in_format f s /\ sum_within f vs s.
Proof.
  intros f h blk n a vs S LV C MD E V.
  destruct (C19_fold_total_partial _ (fadd f) h blk n a (S754_zero false) LV C MD) as (vs' & h' & r & E' & R & F). assert (vs' = vs) by congruence. subst vs'.
  destruct (fold_tree f vs (S754_zero false)) as (t & Q & P). exists h', r, (fold_left (fadd f) vs (S754_zero false)).
  split; [exact R|]. split; [exact F|]. rewrite <- Q. now apply (tree_within f t 1 vs false).
Qed.
Print Assumptions C67_sum.

(** along axes: each element is the sum of its fibre *)
Theorem C67_sum_along : forall f (h : heap spec_float) a axes, std f ->
  valid h a -> (length (a_shape a) <= MAX_DIMS)%nat -> (0 < prod (a_shape a))%nat ->
  let nd := length (a_shape a) in axes_in nd axes -> NoDup (axes_of nd axes) ->
  let A := axes_of nd axes in
  (forall idx x, in_range idx (a_shape a) -> get h a idx = Ok x -> in_format f x) ->
  exists h' r val, nd_reduce_along (fun x acc => Ok (fadd f acc x)) (S754_zero false) h a axes = Ok (h', r) /\
    fresh_result h h' r (drop_axes A (a_shape a)) val /\
    forall o, in_range o (drop_axes A (a_shape a)) -> exists xs s, mapM (get h a) (fibre A (a_shape a) o) = Ok xs /\
      val o = Ok s /\ in_format f s /\ sum_within f xs s.
Proof.
  intros f h a axes S V MD P nd AI ND A VF.
  assert (G : forall o, exists xs, mapM (get h a) (fibre A (a_shape a) o) = Ok xs /\ Forall (in_format f) xs).
  { intros o. assert (IR : forall i, In i (fibre A (a_shape a) o) -> in_range i (a_shape a)).
    { intros i I. unfold fibre in I. apply filter_In in I as [I _]. now apply in_indices. }
    destruct (mapM_Ok (get h a) (fibre A (a_shape a) o)) as (xs & E).
    - intros i I. apply V. now apply IR.
    - exists xs. split; [exact E|]. revert xs E IR. induction (fibre A (a_shape a) o) as [|i l IH]; intros xs E IR; cbn [mapM] in E.
      + injection E as <-. constructor.
      + destruct (get h a i) as [x| |] eqn:Ex; try discriminate. cbn [bind] in E. destruct (mapM (get h a) l) as [ys| |] eqn:El; try discriminate.
        cbn [bind] in E. injection E as <-. constructor; [apply (VF i); [apply IR; now left|exact Ex]|]. apply IH; [reflexivity|]. intros j J. apply IR. now right. }
  destruct (C20_reduce_along _ (fun x acc => Ok (fadd f acc x)) h a (S754_zero false) axes V MD P AI ND) as [K _]. fold nd A in K.
  destruct K as (h' & r & E & F).
  { intros o _. destruct (G o) as (xs & -> & _). cbn [bind]. rewrite foldM_left. eauto. }
  eexists h', r, _. split; [exact E|]. split; [exact F|]. intros o R. destruct (G o) as (xs & Ex & Vx).
  exists xs, (fold_left (fadd f) xs (S754_zero false)). rewrite Ex. cbn [bind]. rewrite foldM_left. split; [reflexivity|]. split; [reflexivity|].
  destruct (fold_tree f xs (S754_zero false)) as (t & Q & Pt). rewrite <- Q. now apply (tree_within f t 1 xs false).
Qed.
Print Assumptions C67_sum_along.

(** ** the SIMD build: two or four partial sums, combined in some order *)
Theorem C67_sum_simd : forall f L (h : heap spec_float) a vs, std f -> L = 2%nat \/ L = 4%nat -> dense h a ->
  elems h a = Ok vs -> Forall (in_format f) vs ->
  exists h' r s, snd_sum L (fadd f) (S754_zero false) h a = Ok (h', r) /\
    fresh_result h h' r [] (fun _ => Ok s) /\ in_format f s /\ sum_within f vs s.
Proof.
  intros f L h a vs S HL D E V. destruct (C50_sum_partial _ L (fadd f) (S754_zero false) h a HL D) as (xs & t & k & h' & r & E' & R & _ & P & F).
  assert (xs = vs) by congruence. subst xs. exists h', r, (teval (fadd f) t). split; [exact R|]. split; [exact F|]. now apply (tree_within f t k vs false).
Qed.
Print Assumptions C67_sum_simd.

(** ** the vDSP build: the library adds every element once, in an order of its own *)
Theorem C67_sum_vdsp : forall f lib (h : heap spec_float) a vs, std f -> sums_once (fadd f) lib -> dense h a -> (0 < prod (a_shape a))%nat ->
  elems h a = Ok vs -> Forall (in_format f) vs ->
  exists h' r s, vnd_reduce lib (fun v acc => Ok (fadd f acc v)) (S754_zero false) h a = Ok (h', r) /\
    fresh_result h h' r [] (fun _ => Ok s) /\ in_format f s /\ sum_within f vs s.
Proof.
  intros f lib h a vs S SO D P0 E V. destruct (C53_sum_partial _ (fadd f) (S754_zero false) lib h a SO D P0) as (xs & t & k & h' & r & E' & R & _ & P & F).
  assert (xs = vs) by congruence. subst xs. exists h', r, (teval (fadd f) t). split; [exact R|]. split; [exact F|]. now apply (tree_within f t k vs false).
Qed.
Print Assumptions C67_sum_vdsp.

(** ** what [sum_within] says *)
(** two builds differ by at most twice the bound *)
Theorem C67_builds_agree : forall f vs s t, sum_within f vs s -> sum_within f vs t -> finite s -> finite t ->
  Qabs (qv s - qv t) <= 2 * ((1 + 2 ^ (- prec f)) ^ Z.of_nat (length vs - 1) - 1) * qsum (map (fun x => Qabs (qv x)) vs).
Proof.
  intros f vs s t [A _] [B _] Fs Ft. destruct (A Fs) as [_ A']. destruct (B Ft) as [_ B']. cbv zeta in *.
  setoid_replace (qv s - qv t) with ((qv s - qsum (map qv vs)) + - (qv t - qsum (map qv vs))) by ring.
  eapply Qle_trans; [apply Qabs_triangle|]. rewrite Qabs_opp. lra.
Qed.
Print Assumptions C67_builds_agree.
(** in first order: for up to 2^prec summands the bound is below 2 (n-1) 2^-prec *)
Theorem C67_bound : forall f vs s, (Z.of_nat (length vs) <= 2 ^ prec f)%Z -> (0 <= prec f)%Z -> sum_within f vs s -> finite s ->
  Qabs (qv s - qsum (map qv vs)) <= 2 * inject_Z (Z.of_nat (length vs - 1)) * 2 ^ (- prec f) * qsum (map (fun x => Qabs (qv x)) vs).
Proof.
  intros f vs s L P [A _] Fs. destruct (A Fs) as [_ A']. cbv zeta in A'. eapply Qle_trans; [exact A'|].
  apply Qmult_le_compat_r; [|apply qsum_abs_nonneg]. apply (growth_le (prec f) (length vs - 1)).
  assert (X : inject_Z (Z.of_nat (length vs - 1)) <= 2 ^ prec f).
  { rewrite <- two_Z by exact P. rewrite <- Zle_Qle. lia. }
  setoid_replace 1 with (2 ^ prec f * 2 ^ (- prec f)).
  - apply Qmult_le_compat_r; [exact X|]. apply Qlt_le_weak, two_pos.
  - rewrite <- two_add. now replace (prec f + - prec f)%Z with 0%Z by lia.
Qed.
Print Assumptions C67_bound.
(** without cancellation the relative error is small *)
Theorem C67_relative : forall f vs s, sum_within f vs s -> finite s -> Forall (fun x => 0 <= qv x) vs ->
  Qabs (qv s - qsum (map qv vs)) <= ((1 + 2 ^ (- prec f)) ^ Z.of_nat (length vs - 1) - 1) * qsum (map qv vs).
Proof.
  intros f vs s [A _] Fs N. destruct (A Fs) as [_ A']. cbv zeta in A'.
  setoid_replace (qsum (map qv vs)) with (qsum (map (fun x => Qabs (qv x)) vs)) at 2; [exact A'|].
  clear - N. induction N as [|x l H N IH]; [reflexivity|]. cbn [map qsum fold_right]. fold (qsum (map qv l)) (qsum (map (fun x => Qabs (qv x)) l)).
  now rewrite IH, (Qabs_pos _ H).
Qed.
Print Assumptions C67_relative.

(** ** the mean: the sum divided by the count *)
Definition mean_within (f : fmt) (xs : list spec_float) (q : spec_float) : Prop :=
  let n := inject_Z (Z.of_nat (length xs)) in
  let total := qsum (map qv xs) in
  let magnitude := qsum (map (fun x => Qabs (qv x)) xs) in
  (finite q -> Forall finite xs /\
     Qabs (qv q - total / n) <= ((1 + 2 ^ (- prec f)) ^ Z.of_nat (length xs) - 1) * (magnitude / n) + 2 ^ (2 - emax f - prec f)) /\
  (Forall finite xs -> (1 + 2 ^ (- prec f)) ^ Z.of_nat (length xs - 1) * magnitude < 2 ^ emax f * (1 - 2 ^ (- prec f - 1)) -> finite q).

Lemma rep_finite x v : rep x v -> finite x /\ qv x == inject_Z v.
Proof.
  destruct x as [s|s| |s m e]; cbn [rep]; try tauto.
  - intros ->. split; [exact I|reflexivity].
  - intros (N & Es & Ee & Em). split; [exact I|]. unfold qv. cbn [qval].
    assert (X : inject_Z (Zpos m) == inject_Z (Z.abs v) * 2 ^ (- e)).
    { rewrite Em, inject_Z_mult, two_Z by lia. reflexivity. }
    assert (Y : inject_Z (Zpos m) * 2 ^ e == inject_Z (Z.abs v)).
    { rewrite X, <- Qmult_assoc, <- two_add. replace (- e + e)%Z with 0%Z by lia. change (2 ^ 0) with 1. ring. }
    subst s. destruct (Z.ltb_spec v 0).
    + change (Zneg m) with (- Zpos m)%Z. rewrite inject_Z_opp. setoid_replace (- inject_Z (Zpos m) * 2 ^ e) with (- (inject_Z (Zpos m) * 2 ^ e)) by ring. rewrite Y, <- inject_Z_opp. now rewrite Z.abs_neq, Z.opp_involutive by lia.
    + rewrite Y. now rewrite Z.abs_eq.
Qed.

Lemma div_finite f s c : finite c -> ~ qv c == 0 -> finite (fdiv f s c) -> finite s.
Proof.
  intros Fc N F. destruct c as [x|x| |x m e]; cbn in Fc; try tauto; [exfalso; apply N; reflexivity|].
  destruct s as [y|y| |y m' e']; try exact I; cbn in F; tauto.
Qed.

Lemma div_within f xs s : std f -> xs <> [] -> (Z.of_nat (length xs) < 2 ^ prec f)%Z -> in_format f s -> sum_within f xs s ->
  in_format f (fdiv f s (of_Z f (Z.of_nat (length xs)))) /\ mean_within f xs (fdiv f s (of_Z f (Z.of_nat (length xs)))).
Proof.
  intros S NE LT VS [A B]. destruct (std_ok f S) as [Hp He]. cbv zeta in A, B.
  assert (L1 : (1 <= Z.of_nat (length xs))%Z) by (destruct xs; [easy|cbn [length]; lia]).
  set (N := Z.of_nat (length xs)) in *. set (c := of_Z f N).
  assert (VC : in_format f c) by (unfold c, of_Z, in_format; apply (normalize_q (prec f) (emax f) Hp He N 0 false 0); [lra|unfold emin; lia]).
  destruct (rep_finite c N) as [FC QC]; [apply of_Z_rep; lia|].
  assert (NZ : 1 <= inject_Z N) by (rewrite <- (Zle_Qle 1); lia).
  assert (NC : ~ qv c == 0) by (rewrite QC; intros X; lra).
  set (q := fdiv f s c).
  assert (R : finite s -> rounds (prec f) (emax f) (tiny (prec f) (emax f)) (qv s / qv c) q).
  { intros Fs. apply div_q; auto using finite_qv. }
  assert (VQ : in_format f q).
  { destruct (finite_dec s) as [Fs|Ns]; [apply (R Fs)|]. destruct c as [x|x| |x m e]; cbn in FC; try tauto; [exfalso; apply NC; reflexivity|].
    destruct s as [y|y| |y m' e']; cbn in Ns; try tauto; unfold q, in_format; cbn; destruct (xorb _ _); reflexivity. }
  split; [exact VQ|]. unfold mean_within. cbv zeta. fold N.
  set (T := qsum (map qv xs)) in *. pose proof (qsum_abs_nonneg xs) as PM. set (M := qsum (map (fun x => Qabs (qv x)) xs)) in *.
  set (g := (1 + 2 ^ (- prec f)) ^ Z.of_nat (length xs - 1)) in *.
  assert (G1 : 1 <= g) by apply (growth_ge (prec f)).
  assert (G2 : (1 + 2 ^ (- prec f)) ^ N == (1 + 2 ^ (- prec f)) * g).
  { pose proof (growth_S (prec f) (length xs - 1)) as GS. unfold growth in GS. unfold g. rewrite <- GS. unfold N. replace (Datatypes.S (length xs - 1)) with (length xs) by lia. reflexivity. }
  pose proof (qsum_abs_le xs) as TM. fold T M in TM.
  pose proof (two_pos (- prec f)) as U0. set (u := 2 ^ (- prec f)) in *. set (n := inject_Z N) in *.
  assert (I0 : 0 < / n) by (apply Qinv_lt_0_compat; lra).
  split.
  - intros Fq. assert (Fs : finite s) by (apply (div_finite f s c FC NC), Fq). destruct (A Fs) as [FX D]. split; [exact FX|].
    destruct (R Fs) as [_ [(z & Ez & Dz)|[Ez _]]]; [|apply finite_qval in Fq as (z & Fq); congruence].
    assert (Qz : qv q == z) by (unfold qv; rewrite Ez; reflexivity). rewrite Qz. rewrite QC in Dz.
    unfold tiny, uround in Dz. fold u n in Dz. replace (emin (prec f) (emax f) - 1)%Z with (2 - emax f - prec f)%Z in Dz by (unfold emin; lia).
    rewrite G2. unfold Qdiv in *. clearbody n. set (w := / n) in *.
    setoid_replace (z - T * w) with ((z - qv s * w) + (qv s - T) * w) by ring. eapply Qle_trans; [apply Qabs_triangle|].
    rewrite Qabs_Qmult in Dz |- *. rewrite (Qabs_pos w) in * by lra.
    assert (BS : Qabs (qv s) <= g * M).
    { setoid_replace (qv s) with ((qv s - T) + T) by ring. eapply Qle_trans; [apply Qabs_triangle|]. lra. }
    assert (X1 : Qabs (qv s - T) * w <= (g - 1) * M * w) by (apply Qmult_le_compat_r; [exact D|lra]).
    assert (X2 : u * (Qabs (qv s) * w) <= u * (g * M * w)).
    { apply Qmult_le_l; [exact U0|]. apply Qmult_le_compat_r; [exact BS|lra]. }
    setoid_replace (((1 + u) * g - 1) * (M * w)) with (u * (g * M * w) + (g - 1) * M * w) by ring. lra.
  - intros FX H. assert (Fs : finite s) by (apply B; [exact FX|exact H]). destruct (A Fs) as [_ D].
    assert (BS : Qabs (qv s) <= g * M).
    { setoid_replace (qv s) with ((qv s - T) + T) by ring. eapply Qle_trans; [apply Qabs_triangle|]. lra. }
    destruct (R Fs) as [_ [(z & Ez & _)|[Ez Dz]]]; [apply finite_qval; eauto|]. exfalso. rewrite QC in Dz. fold n in Dz. unfold Qdiv in Dz. rewrite Qabs_Qmult, (Qabs_pos (/ n)) in Dz by lra.
    assert (W : / n <= 1).
    { pose proof (Qmult_inv_r n ltac:(intros X; lra)) as J. pose proof (Qmult_le_compat_r 1 n (/ n) NZ ltac:(lra)) as K. lra. }
    pose proof (Qabs_nonneg (qv s)). unfold huge in Dz. assert (Qabs (qv s) * / n <= Qabs (qv s)) by nra. lra.
Qed.

Theorem C67_mean : forall f (h : heap spec_float) blk n a vs, std f ->
  live h blk n -> chain blk n false a -> (length (a_shape a) <= MAX_DIMS)%nat -> elems h a = Ok vs -> Forall (in_format f) vs ->
  vs <> [] -> (Z.of_nat (length vs) < 2 ^ prec f)%Z ->
  exists h' r q, nd_mean (fun x y => Ok (fadd f x y)) (fun x y => Ok (fdiv f x y)) (fun n => Ok (of_Z f (Z.of_nat n))) (S754_zero false) h a = Ok (h', r) /\
    extends h h' /\ a_shape r = [] /\ get h' r [] = Ok q /\ in_format f q /\ mean_within f vs q.
Proof.
  intros f h blk n a vs S LV C MD E V NE LT.
  destruct (C22_mean_partial _ (fun x y => Ok (fadd f x y)) (fun x y => Ok (fdiv f x y)) (fun n => Ok (of_Z f (Z.of_nat n))) (S754_zero false) h blk n a vs
    (fold_left (fadd f) vs (S754_zero false)) _ _ LV C MD E (foldM_left _ _ _) eq_refl eq_refl) as (h' & r & R & X & SH & G).
  eexists h', r, _. split; [exact R|]. split; [exact X|]. split; [exact SH|]. split; [exact G|].
  destruct (fold_tree f vs (S754_zero false)) as (t & Q & Pt). rewrite <- Q.
  destruct (tree_within f t 1 vs false S V Pt) as [VT W]. now apply div_within.
Qed.
Print Assumptions C67_mean.

(** ** integers: the sum is exact, in every order, as long as the magnitudes add up to less than 2^prec *)
Definition zsum (l : list Z) : Z := fold_right Z.add 0%Z l.
Lemma zsum_app l m : zsum (l ++ m) = (zsum l + zsum m)%Z.
Proof. unfold zsum. induction l as [|x l IH]; cbn [app fold_right]; lia. Qed.
Lemma zsum_abs l : (Z.abs (zsum l) <= zsum (map Z.abs l))%Z.
Proof. unfold zsum. induction l as [|x l IH]; cbn [map fold_right]; lia. Qed.
Lemma zsum_perm l m : Permutation l m -> zsum l = zsum m.
Proof. unfold zsum. induction 1; cbn [fold_right] in *; lia. Qed.
Lemma tree_exact f t zs : std f -> Forall2 rep (leaves t) zs -> (zsum (map Z.abs zs) < 2 ^ prec f)%Z -> rep (teval (fadd f) t) (zsum zs).
Proof.
  intros S. destruct (std_ok f S) as [Hp He]. revert zs. induction t as [x|l IHl r IHr]; intros zs F L; cbn [teval leaves] in *.
  - inversion F as [|a b c d R F']; subst. inversion F'; subst. cbn. now rewrite Z.add_0_r.
  - apply Forall2_app_inv_l in F as (z1 & z2 & F1 & F2 & ->). rewrite map_app, zsum_app in L. rewrite zsum_app.
    pose proof (zsum_abs z1). pose proof (zsum_abs z2). apply add_rep; [lia..| | |lia].
    + apply IHl; [exact F1|lia].
    + apply IHr; [exact F2|lia].
Qed.
Lemma tree_exact_zeros f t k xs zs s : std f -> Forall2 rep xs zs -> Permutation (leaves t) (repeat (S754_zero s) k ++ xs) ->
  (zsum (map Z.abs zs) < 2 ^ prec f)%Z -> rep (teval (fadd f) t) (zsum zs).
Proof.
  intros S F P L.
  assert (F' : Forall2 rep (repeat (S754_zero s) k ++ xs) (repeat 0%Z k ++ zs)) by (apply Forall2_app; [clear; induction k; constructor; [reflexivity|assumption]|exact F]).
  assert (Z0 : zsum (repeat 0%Z k) = 0%Z /\ zsum (map Z.abs (repeat 0%Z k)) = 0%Z) by (clear; induction k as [|k [I1 I2]]; [split; reflexivity|]; cbn [repeat map zsum fold_right]; fold (zsum (repeat 0%Z k)) (zsum (map Z.abs (repeat 0%Z k))); rewrite I1, I2; split; reflexivity).
  destruct Z0 as [Z1 Z2].
  assert (PF : exists zs', Forall2 rep (leaves t) zs' /\ Permutation zs' (repeat 0%Z k ++ zs)).
  { generalize dependent (repeat 0%Z k ++ zs). generalize dependent (repeat (S754_zero s) k ++ xs). clear. intros l P. induction P; intros zz F.
    - inversion F; subst. exists []. split; constructor.
    - inversion F as [|? b ? d R F1]; subst. destruct (IHP _ F1) as (z' & A & B). exists (b :: z'). split; [now constructor|now constructor].
    - inversion F as [|? b ? d R F1]; subst. inversion F1 as [|? b' ? d' R' F2]; subst. exists (b' :: b :: d'). split; [now repeat constructor|apply perm_swap].
    - destruct (IHP2 _ F) as (z1 & A & B). destruct (IHP1 _ A) as (z2 & A2 & B2). exists z2. split; [exact A2|]. now transitivity z1. }
  destruct PF as (zs' & F1 & P1). rewrite <- (Z.add_0_l (zsum zs)), <- Z1, <- zsum_app, <- (zsum_perm _ _ P1). apply tree_exact; [exact S|exact F1|].
  rewrite (zsum_perm _ _ (Permutation_map Z.abs P1)), map_app, zsum_app, Z2. exact L.
Qed.

Theorem C67_integers : forall f (h : heap spec_float) blk n a vs zs, std f ->
  live h blk n -> chain blk n false a -> (length (a_shape a) <= MAX_DIMS)%nat -> elems h a = Ok vs ->
  Forall2 rep vs zs -> (zsum (map Z.abs zs) < 2 ^ prec f)%Z ->
  (exists h' r s, nd_reduce (fun x acc => Ok (fadd f acc x)) (S754_zero false) h a = Ok (h', r) /\ get h' r [] = Ok s /\ rep s (zsum zs)) /\
  (forall L, L = 2%nat \/ L = 4%nat -> exists h' r s, snd_sum L (fadd f) (S754_zero false) h a = Ok (h', r) /\ get h' r [] = Ok s /\ rep s (zsum zs)) /\
  (forall lib, sums_once (fadd f) lib -> (0 < prod (a_shape a))%nat ->
     exists h' r s, vnd_reduce lib (fun v acc => Ok (fadd f acc v)) (S754_zero false) h a = Ok (h', r) /\ get h' r [] = Ok s /\ rep s (zsum zs)).
Proof.
  intros f h blk n a vs zs S LV C MD E RZ LT. pose proof (chain_dense h blk n a LV MD (or_introl C)) as D.
  assert (FR : forall h' r s, fresh_result h h' r [] (fun _ => Ok s) -> get h' r [] = Ok s).
  { intros h' r s (_ & _ & _ & _ & _ & _ & G). apply G. constructor. }
  split; [|split].
  - destruct (C19_fold_total_partial _ (fadd f) h blk n a (S754_zero false) LV C MD) as (vs' & h' & r & E' & R & F). assert (vs' = vs) by congruence. subst vs'.
    destruct (fold_tree f vs (S754_zero false)) as (t & Q & P). rewrite <- Q in F. exists h', r, (teval (fadd f) t). split; [exact R|]. split; [now apply FR|].
    now apply (tree_exact_zeros f t 1 vs zs false).
  - intros L HL. destruct (C50_sum_partial _ L (fadd f) (S754_zero false) h a HL D) as (xs & t & k & h' & r & E' & R & _ & P & F).
    assert (xs = vs) by congruence. subst xs. exists h', r, (teval (fadd f) t). split; [exact R|]. split; [now apply FR|]. now apply (tree_exact_zeros f t k vs zs false).
  - intros lib SO P0. destruct (C53_sum_partial _ (fadd f) (S754_zero false) lib h a SO D P0) as (xs & t & k & h' & r & E' & R & _ & P & F).
    assert (xs = vs) by congruence. subst xs. exists h', r, (teval (fadd f) t). split; [exact R|]. split; [now apply FR|]. now apply (tree_exact_zeros f t k vs zs false).
Qed.
Print Assumptions C67_integers.

(** ** Examples.  A 2 x 3 array of f32 values 0.1, 0.2, ..., 0.6 (nearest floats) *)
Definition tenth (k : Z) : spec_float := fdiv f32 (of_Z f32 k) (of_Z f32 10).
Definition ex_h : heap spec_float := Eval vm_compute in [Some (map tenth [1; 2; 3; 4; 5; 6]%Z)].
Definition ex_a : arr := (fresh_arr 0 6 [2; 3])%nat.
Definition ex_vs : list spec_float := Eval vm_compute in map tenth [1; 2; 3; 4; 5; 6]%Z.
Example C67_ex : std f32 /\ live ex_h 0 6%nat /\ chain 0 6%nat false ex_a /\ elems ex_h ex_a = Ok ex_vs /\ Forall (in_format f32) ex_vs /\
  (exists h' r s, nd_reduce (fun x acc => Ok (fadd f32 acc x)) (S754_zero false) ex_h ex_a = Ok (h', r) /\ get h' r [] = Ok s /\
     (* not exact *) ~ qv s == qsum (map qv ex_vs) /\ finite s) /\
  (exists h' r s, nd_reduce_along (fun x acc => Ok (fadd f32 acc x)) (S754_zero false) ex_h ex_a [-1]%Z = Ok (h', r) /\ get h' r [1%nat] = Ok s /\ finite s).
Proof.
  split; [now left|]. split; [eexists; split; reflexivity|]. split; [apply Ch_new; cbn; lia|]. split; [vm_compute; reflexivity|].
  split; [repeat constructor|]. split.
  - eexists _, _, _. split; [vm_compute; reflexivity|]. split; [vm_compute; reflexivity|]. split; [vm_compute; discriminate|exact I].
  - eexists _, _, _. split; [vm_compute; reflexivity|]. split; [vm_compute; reflexivity|exact I].
Qed.
(** 2^53 and seven ones in f64: the SIMD build and the portable build return different floats, both within the bound *)
Example C67_simd_ex : exists vs h1 r1 s h2 r2 t, let a := (fresh_arr 0 8 [8])%nat in
  elems exf a = Ok vs /\ Forall (in_format f64) vs /\ dense exf a /\
  snd_sum 2%nat (fadd f64) (S754_zero false) exf a = Ok (h1, r1) /\ get h1 r1 [] = Ok s /\
  nd_reduce (fun x acc => Ok (fadd f64 acc x)) (S754_zero false) exf a = Ok (h2, r2) /\ get h2 r2 [] = Ok t /\
  ~ qv s == qv t /\ sum_within f64 vs s /\ sum_within f64 vs t.
Proof.
  set (a := (fresh_arr 0 8 [8])%nat). assert (LV : live exf 0 8%nat) by (eexists; split; reflexivity).
  assert (C : chain 0 8%nat false a) by (apply Ch_new; cbn; lia).
  assert (D : dense exf a) by (apply (chain_dense exf 0 8%nat); [exact LV|cbn; unfold MAX_DIMS; lia|now left]).
  assert (SF : std f64) by now right. set (vs := f64_two53 :: repeat f64_one 7).
  assert (E : elems exf a = Ok vs) by (vm_compute; reflexivity). assert (V : Forall (in_format f64) vs) by (unfold vs; cbn [repeat]; repeat constructor).
  destruct (C67_sum_simd f64 2%nat exf a vs SF (or_introl eq_refl) D E V) as (h1 & r1 & s & R1 & F1 & _ & W1).
  destruct (C67_sum f64 exf 0%nat 8%nat a vs SF LV C ltac:(cbn; unfold MAX_DIMS; lia) E V) as (h2 & r2 & t & R2 & F2 & _ & W2).
  assert (G1 : get h1 r1 [] = Ok s) by (destruct F1 as (_ & _ & _ & _ & _ & _ & G); apply G; constructor).
  assert (G2 : get h2 r2 [] = Ok t) by (destruct F2 as (_ & _ & _ & _ & _ & _ & G); apply G; constructor).
  exists vs, h1, r1, s, h2, r2, t. cbv zeta. split; [exact E|]. split; [exact V|]. split; [exact D|]. split; [exact R1|]. split; [exact G1|]. split; [exact R2|]. split; [exact G2|].
  split; [|split; assumption]. vm_compute in R1, R2. injection R1 as <- <-. injection R2 as <- <-. vm_compute in G1, G2. injection G1 as <-. injection G2 as <-. vm_compute. discriminate.
Qed.
Example C67_integers_ex : exists vs, vs = map (of_Z f32) [7; -3; 100; 16777000]%Z /\ Forall2 rep vs [7; -3; 100; 16777000]%Z /\
  (zsum (map Z.abs [7; -3; 100; 16777000]) < 2 ^ prec f32)%Z.
Proof.
  eexists. split; [reflexivity|]. split; [|vm_compute; reflexivity]. cbn [map]. repeat (constructor; [apply of_Z_rep; cbn; lia|]). constructor.
Qed.
