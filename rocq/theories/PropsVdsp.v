(** PropsVdsp.v: properties of the code that calls vDSP (Vdsp.v). *)
From Coq Require Import List Arith Lia Bool ZArith Permutation.
From Coq Require SpecFloat.
From Verif Require Import Base Spec Layout SpecFacts LayoutFacts Views ViewsFacts ViewsFacts2 ViewsFacts3
  Kernels Access HeapFacts KernelFacts OpFacts AccessFacts Chain ChainFacts ViewsFacts4 Reduce ReduceFacts
  Simd SimdFacts SimdOps SimdRed Vdsp VdspFacts PropsViews PropsOps PropsReduce PropsSimd.
Import ListNotations.
Open Scope res_scope.


(** ** C53 elementwise operators.  f is the operation of the library, which wraps on overflow;
    pf is the operator of the language, which may panic.  They agree on floats, and on i32 and
    u32 as long as nothing overflows. *)
Theorem C53_binary_partial : forall T f k pf dflt (h : heap T) a b sh, (k = VAddMul -> forall x y, f x y = f y x) ->
  valid h a -> valid h b -> join_shape (a_shape a) (a_shape b) sh -> length sh <= MAX_DIMS -> 0 < prod sh ->
  (forall idx x y, in_range idx sh -> get h a (bidx (a_shape a) idx) = Ok x -> get h b (bidx (a_shape b) idx) = Ok y -> pf x y = Ok (f x y)) ->
  exists h' r, vnd_binary f k pf dflt h a b = Ok (h', r) /\
    fresh_result h h' r sh (fun idx => x <- get h a (bidx (a_shape a) idx) ;; y <- get h b (bidx (a_shape b) idx) ;; pf x y).
Proof.
  intros T f k pf dflt h a b sh CM Va Vb J MD P AG.
  assert (G : forall idx, in_range idx sh -> exists x y, get h a (bidx (a_shape a) idx) = Ok x /\ get h b (bidx (a_shape b) idx) = Ok y).
  { intros idx I. destruct (valid_get_bidx h a sh idx Va (join_shape_broadcastable_l _ _ _ J) I) as (x & Ex).
    destruct (valid_get_bidx h b sh idx Vb (join_shape_broadcastable_r _ _ _ J) I) as (y & Ey). eauto. }
  destruct (vnd_binary_cases f k CM pf dflt h a b sh Va Vb J P) as [-> | ->].
  - destruct (proj1 (C12_binary T (fun x y => Ok (f x y)) dflt h a b sh Va Vb J MD P)) as (h' & r & E & F).
    + intros idx I. destruct (G idx I) as (x & y & -> & ->). cbn [bind]. eauto.
    + exists h', r. split; [exact E|]. eapply fresh_result_ext; [|exact F]. intros idx I. cbn beta.
      destruct (G idx I) as (x & y & Ex & Ey). rewrite Ex, Ey. cbn [bind]. symmetry. eapply AG; eauto.
  - apply (C12_binary T pf dflt h a b sh Va Vb J MD P). intros idx I. destruct (G idx I) as (x & y & Ex & Ey). rewrite Ex, Ey. cbn [bind]. exists (f x y). eapply AG; eauto.
Qed.
Print Assumptions C53_binary_partial.
(** on floats nothing is left to assume *)
Theorem C53_binary_float : forall T (f : T -> T -> T) k dflt (h : heap T) a b sh, (k = VAddMul -> forall x y, f x y = f y x) ->
  valid h a -> valid h b -> join_shape (a_shape a) (a_shape b) sh -> length sh <= MAX_DIMS -> 0 < prod sh ->
  vnd_binary f k (fun x y => Ok (f x y)) dflt h a b = nd_binary (fun x y => Ok (f x y)) dflt h a b.
Proof. intros T f k dflt h a b sh CM Va Vb J MD P. destruct (vnd_binary_cases f k CM (fun x y => Ok (f x y)) dflt h a b sh Va Vb J P); assumption. Qed.
Print Assumptions C53_binary_float.
Theorem C53_incompatible_shapes_panic : forall T f k pf dflt (h : heap T) a b,
  (exists k, ~ dim_compat (dim_r (a_shape a) k) (dim_r (a_shape b) k)) -> vnd_binary f k pf dflt h a b = Panic.
Proof. intros T f k pf dflt h a b. apply vnd_binary_panic. Qed.
Print Assumptions C53_incompatible_shapes_panic.
Theorem C53_scalar_op_partial : forall T f k pf dflt (h : heap T) a c, (k = VAddMul -> forall x y, f x y = f y x) ->
  valid h a -> length (a_shape a) <= MAX_DIMS -> 0 < prod (a_shape a) ->
  (forall idx x, in_range idx (a_shape a) -> get h a idx = Ok x -> pf x c = Ok (f x c)) ->
  exists h' r, vnd_scalar_op f k pf dflt h a c = Ok (h', r) /\ fresh_result h h' r (a_shape a) (fun idx => x <- get h a idx ;; pf x c).
Proof.
  intros T f k pf dflt h a c CM V MD P AG. destruct (vnd_scalar_op_cases f k CM pf dflt h a c V P) as [-> | ->].
  - destruct (proj1 (C13_scalar_op T (fun x y => Ok (f x y)) dflt h a c V MD P)) as (h' & r & E & F).
    + intros idx I. destruct (proj2 V idx I) as (x & ->). cbn [bind]. eauto.
    + exists h', r. split; [exact E|]. eapply fresh_result_ext; [|exact F]. intros idx I. cbn beta. destruct (proj2 V idx I) as (x & Ex). rewrite Ex. cbn [bind]. symmetry. eapply AG; eauto.
  - apply (C13_scalar_op T pf dflt h a c V MD P). intros idx I. destruct (proj2 V idx I) as (x & Ex). rewrite Ex. cbn [bind]. exists (f x c). eapply AG; eauto.
Qed.
Print Assumptions C53_scalar_op_partial.
(** compound assignment, with the restrictions of C14_assign_partial *)
Theorem C53_assign_partial : forall T f k pf (h : heap T) blk n a b, (k = VAddMul -> forall x y, f x y = f y x) ->
  live h blk n -> chain blk n false a -> valid h b -> f_contig (a_fl a) = true ->
  broadcastable (a_shape b) (a_shape a) -> length (a_shape a) <= MAX_DIMS -> no_feedback a b ->
  (forall idx x y, in_range idx (a_shape a) -> get h a idx = Ok x -> get h b (bidx (a_shape b) idx) = Ok y -> pf x y = Ok (f x y)) ->
  exists h', vnd_assign f k pf h a b = Ok h' /\
    (forall idx, in_range idx (a_shape a) ->
       get h' a idx = (x <- get h a idx ;; y <- get h b (bidx (a_shape b) idx) ;; pf x y)) /\
    same_elsewhere h h' (cell_of a).
Proof.
  intros T f k pf h blk n a b CM LV C Vb CT BR MD NF AG. pose proof (chain_valid _ _ _ _ _ LV C) as V. destruct (chain_tight _ _ _ C) as (_ & NB & F & W).
  pose proof (chain_inv _ _ _ _ C) as I. pose proof (proj1 (pos_prod _) (proj1 (i_nb _ _ _ _ I eq_refl))) as P.
  assert (G : forall idx, in_range idx (a_shape a) -> exists x y, get h a idx = Ok x /\ get h b (bidx (a_shape b) idx) = Ok y).
  { intros idx R. destruct (proj2 V idx R) as (x & Ex). destruct (valid_get_bidx h b (a_shape a) idx Vb BR R) as (y & Ey). eauto. }
  destruct (vnd_assign_cases f k CM pf h a b V Vb F NB CT P BR NF) as [-> | ->].
  - destruct (C14_assign_partial T (fun x y => Ok (f x y)) h blk n a b LV C Vb CT BR MD NF) as (h' & E & H & S).
    + intros idx R. destruct (G idx R) as (x & y & -> & ->). cbn [bind]. eauto.
    + exists h'. split; [exact E|]. split; [|exact S]. intros idx R. rewrite (H idx R). destruct (G idx R) as (x & y & Ex & Ey). rewrite Ex, Ey. cbn [bind]. symmetry. eapply AG; eauto.
  - apply (C14_assign_partial T pf h blk n a b LV C Vb CT BR MD NF). intros idx R. destruct (G idx R) as (x & y & Ex & Ey). rewrite Ex, Ey. cbn [bind]. exists (f x y). eapply AG; eauto.
Qed.
Print Assumptions C53_assign_partial.
Theorem C53_assign_scalar_partial : forall T f k pf (h : heap T) blk n a c, (k = VAddMul -> forall x y, f x y = f y x) ->
  live h blk n -> chain blk n false a -> f_contig (a_fl a) = true -> length (a_shape a) <= MAX_DIMS ->
  (forall idx x, in_range idx (a_shape a) -> get h a idx = Ok x -> pf x c = Ok (f x c)) ->
  exists h', vnd_assign_scalar f k pf h a c = Ok h' /\
    (forall idx, in_range idx (a_shape a) -> get h' a idx = (x <- get h a idx ;; pf x c)) /\
    same_elsewhere h h' (cell_of a).
Proof.
  intros T f k pf h blk n a c CM LV C CT MD AG. pose proof (chain_valid _ _ _ _ _ LV C) as V. destruct (chain_tight _ _ _ C) as (_ & NB & F & W).
  pose proof (chain_inv _ _ _ _ C) as I. pose proof (proj1 (pos_prod _) (proj1 (i_nb _ _ _ _ I eq_refl))) as P.
  destruct (vnd_assign_scalar_cases f k CM pf h a c V F NB CT P) as [-> | ->].
  - destruct (C14_assign_scalar_partial T (fun x y => Ok (f x y)) h blk n a c LV C CT MD) as (h' & E & H & S).
    + intros idx R. destruct (proj2 V idx R) as (x & ->). cbn [bind]. eauto.
    + exists h'. split; [exact E|]. split; [|exact S]. intros idx R. rewrite (H idx R). destruct (proj2 V idx R) as (x & Ex). rewrite Ex. cbn [bind]. symmetry. eapply AG; eauto.
  - apply (C14_assign_scalar_partial T pf h blk n a c LV C CT MD). intros idx R. destruct (proj2 V idx R) as (x & Ex). rewrite Ex. cbn [bind]. exists (f x c). eapply AG; eauto.
Qed.
Print Assumptions C53_assign_scalar_partial.

(** i32: addition of the library wraps, addition of a debug build panics *)
Definition wrap32 (x : Z) : Z := ((x + 2 ^ 31) mod 2 ^ 32 - 2 ^ 31)%Z.
Definition i32_add (x y : Z) : res Z := if ((- 2 ^ 31 <=? x + y) && (x + y <? 2 ^ 31))%Z then Ok (x + y)%Z else Panic.
Lemma wrap32_add_comm x y : wrap32 (x + y) = wrap32 (y + x). Proof. now rewrite Z.add_comm. Qed.
Lemma i32_add_wrap x y v : i32_add x y = Ok v -> i32_add x y = Ok (wrap32 (x + y)).
Proof.
  unfold i32_add, wrap32. destruct ((_ <=? _) && (_ <? _))%Z eqn:E; [|discriminate]. intros _. f_equal. apply andb_true_iff in E as [A B]. apply Z.leb_le in A. apply Z.ltb_lt in B.
  rewrite Z.mod_small by lia. lia.
Qed.
(** i32 addition: whenever the portable code gives an answer, so does vDSP, the same *)
Theorem C53_i32_add_partial : forall (h : heap Z) a b sh,
  valid h a -> valid h b -> join_shape (a_shape a) (a_shape b) sh -> length sh <= MAX_DIMS -> 0 < prod sh ->
  (forall idx x y, in_range idx sh -> get h a (bidx (a_shape a) idx) = Ok x -> get h b (bidx (a_shape b) idx) = Ok y -> (- 2 ^ 31 <= x + y < 2 ^ 31)%Z) ->
  exists h' r, vnd_binary (fun x y => wrap32 (x + y)) VAddMul i32_add 0%Z h a b = Ok (h', r) /\
    fresh_result h h' r sh (fun idx => x <- get h a (bidx (a_shape a) idx) ;; y <- get h b (bidx (a_shape b) idx) ;; Ok (x + y)%Z).
Proof.
  intros h a b sh Va Vb J MD P B.
  assert (AD : forall x y, (- 2 ^ 31 <= x + y < 2 ^ 31)%Z -> i32_add x y = Ok (x + y)%Z).
  { intros x y H. unfold i32_add. now rewrite (proj2 (Z.leb_le _ _) (proj1 H)), (proj2 (Z.ltb_lt _ _) (proj2 H)). }
  destruct (C53_binary_partial Z (fun x y => wrap32 (x + y)) VAddMul i32_add 0%Z h a b sh) as (h' & r & E & F); auto using wrap32_add_comm.
  - intros idx x y I Ex Ey. eapply i32_add_wrap. apply AD. eauto.
  - exists h', r. split; [exact E|]. eapply fresh_result_ext; [|exact F]. intros idx I. cbn beta.
    destruct (valid_get_bidx h a sh idx Va (join_shape_broadcastable_l _ _ _ J) I) as (x & Ex).
    destruct (valid_get_bidx h b sh idx Vb (join_shape_broadcastable_r _ _ _ J) I) as (y & Ey). rewrite Ex, Ey. cbn [bind]. apply AD. eauto.
Qed.
Print Assumptions C53_i32_add_partial.
(** u32 is passed as i32 and read back as u32 (binary_op_add.rs 93-121): addition modulo 2^32 *)
Theorem C53_u32_as_i32 : forall x y, (0 <= x < 2 ^ 32)%Z -> (0 <= y < 2 ^ 32)%Z ->
  (wrap32 (wrap32 x + wrap32 y) mod 2 ^ 32 = (x + y) mod 2 ^ 32)%Z.
Proof.
  intros x y X Y. assert (W : forall z, (wrap32 z mod 2 ^ 32 = z mod 2 ^ 32)%Z).
  { intros z. unfold wrap32. rewrite Zminus_mod_idemp_l. f_equal. lia. }
  rewrite W, Z.add_mod, !W, <- Z.add_mod by lia. reflexivity.
Qed.
Print Assumptions C53_u32_as_i32.
(** Overflow: the portable code panics; vDSP returns a wrapped sum, but only for layouts with a
    uniform stride: the transposed matrix still panics. *)
Theorem C53_i32_overflow_refuted : exists (h : heap Z) a b c t h' r, live h 0 4 /\ live h 1 4 /\ chain 0 4 false a /\ chain 1 4 false b /\
  chain 0 4 false t /\ nd_T ByRef a = Ok t /\ c = b /\
  nd_binary i32_add 0%Z h a b = Panic /\ vnd_binary (fun x y => wrap32 (x + y)) VAddMul i32_add 0%Z h a b = Ok (h', r) /\
  get h' r [0; 0] = Ok (- 2 ^ 31)%Z /\ vnd_binary (fun x y => wrap32 (x + y)) VAddMul i32_add 0%Z h t c = Panic.
Proof.
  exists [Some [2147483647; 1; 1; 1]; Some [1; 1; 1; 1]]%Z, (fresh_arr 0 4 [2; 2]), (fresh_arr 1 4 [2; 2]), (fresh_arr 1 4 [2; 2]). eexists _, _, _.
  assert (C : chain 0 4 false (fresh_arr 0 4 [2; 2])) by (apply Ch_new; cbn; lia).
  split; [eexists; split; reflexivity|]. split; [eexists; split; reflexivity|]. split; [exact C|]. split; [apply Ch_new; cbn; lia|].
  split; [refine (Ch_transpose 0 4 false _ ByRef 0 1 _ C _); vm_compute; reflexivity|]. split; [vm_compute; reflexivity|]. split; [reflexivity|].
  split; [vm_compute; reflexivity|]. split; [vm_compute; reflexivity|]. split; vm_compute; reflexivity.
Qed.
Print Assumptions C53_i32_overflow_refuted.

(** ** C53 reductions.  The library may add in any order: its sum is some bracketing of some
    permutation of the elements. *)
Definition sums_once {T} (add : T -> T -> T) (lib : list T -> T) : Prop :=
  forall xs, xs <> [] -> exists t, Permutation (leaves t) xs /\ lib xs = teval add t.
Lemma elems_ne {T} (h : heap T) a xs : 0 < prod (a_shape a) -> elems h a = Ok xs -> xs <> [].
Proof. intros P E -> . unfold elems in E. apply mapM_length in E. rewrite indices_length in E. cbn in E. lia. Qed.
Lemma foldM_left {T} (op : T -> T -> T) xs : forall d, foldM (fun v acc => Ok (op acc v)) xs d = Ok (fold_left op xs d).
Proof. induction xs as [|x xs IH]; intros d; cbn [foldM fold_left bind]; [reflexivity|]. apply IH. Qed.
Theorem C53_sum_partial : forall T (add : T -> T -> T) zero lib (h : heap T) a, sums_once add lib -> dense h a -> 0 < prod (a_shape a) ->
  exists xs t k h' r, elems h a = Ok xs /\ vnd_reduce lib (fun v acc => Ok (add acc v)) zero h a = Ok (h', r) /\ k <= 1 /\
    Permutation (leaves t) (repeat zero k ++ xs) /\ fresh_result h h' r [] (fun _ => Ok (teval add t)).
Proof.
  intros T add zero lib h a SO (V & MD & D) P. destruct (valid_elems h a V) as (xs & E).
  rewrite (vnd_reduce_cases lib (fun v acc => Ok (add acc v)) zero h a xs V D MD E).
  destruct (has_uniform_stride (a_shape a) (a_stride a)).
  - destruct (SO xs (elems_ne h a xs P E)) as (t & Q & ->). destruct (scalar_result h (teval add t)) as (h' & r & S & F).
    exists xs, t, 0, h', r. cbn [repeat app]. auto.
  - rewrite foldM_left. cbn [bind]. destruct (tree_fold add xs (Leaf zero)) as (t & Q & LV). cbn [teval leaves] in Q, LV. rewrite Q.
    destruct (scalar_result h (teval add t)) as (h' & r & S & F). exists xs, t, 1, h', r. cbn [repeat]. rewrite LV. auto.
Qed.
Print Assumptions C53_sum_partial.
Theorem C53_sum_monoid_partial : forall T (add : T -> T -> T) zero lib (h : heap T) a, sums_once add lib -> dense h a -> 0 < prod (a_shape a) ->
  (forall x y z, add (add x y) z = add x (add y z)) -> (forall x y, add x y = add y x) -> (forall x, add zero x = x) ->
  exists xs h' r, elems h a = Ok xs /\ vnd_reduce lib (fun v acc => Ok (add acc v)) zero h a = Ok (h', r) /\
    fresh_result h h' r [] (fun _ => Ok (fold_left add xs zero)).
Proof.
  intros T add zero lib h a SO D P A C U.
  destruct (C53_sum_partial T add zero lib h a SO D P) as (xs & t & k & h' & r & E & S & _ & Q & F).
  rewrite (tree_units add zero A C U t k xs Q) in F. exists xs, h', r. auto.
Qed.
Print Assumptions C53_sum_monoid_partial.

(** max, min, max_magnitude, min_magnitude on floats without NaN.  R w v reads "v is at least
    as extreme as w"; key is the identity or the absolute value. *)
Import SpecFloat.
Definition fge (x y : spec_float) : Prop := fle y x.
Definition picks_bound (R : spec_float -> spec_float -> Prop) (key : spec_float -> spec_float) (lib : list spec_float -> spec_float) : Prop :=
  forall xs, xs <> [] -> Forall (fun x => nan x = false) xs ->
    (exists x, In x xs /\ lib xs = key x) /\ forall x, In x xs -> R (key x) (lib xs).
Definition bound_by (R : spec_float -> spec_float -> Prop) (key : spec_float -> spec_float) g : Prop :=
  forall (lib : list spec_float -> spec_float) start (h : heap spec_float) a, picks_bound R key lib -> dense h a -> 0 < prod (a_shape a) -> nan start = false ->
  exists xs, elems h a = Ok xs /\ (Forall (fun x => nan x = false) xs ->
    (has_uniform_stride (a_shape a) (a_stride a) = None -> exists x, In x xs /\ R start (key x)) ->
    exists v h' r, vnd_reduce lib g start h a = Ok (h', r) /\ fresh_result h h' r [] (fun _ => Ok v) /\
      (exists x, In x xs /\ SFeqb v (key x) = true) /\ forall x, In x xs -> R (key x) v).
Lemma fle_antisym x y : fle x y -> fle y x -> SFeqb x y = true.
Proof.
  unfold fle, SFleb, SFeqb. intros H1 H2. destruct (SFcompare x y) as [[| |]|] eqn:C; try discriminate; [reflexivity|].
  exfalso. assert (NX : nan x = false) by (destruct x; try reflexivity; discriminate C).
  assert (NY : nan y = false) by (destruct y; try reflexivity; destruct x; discriminate C).
  pose proof (flt_le x y NX NY) as Q. unfold SFltb, SFleb in Q. rewrite C in Q. destruct (SFcompare y x) as [[| |]|]; discriminate.
Qed.
Lemma bound_by_of (R : spec_float -> spec_float -> Prop) key g step :
  (forall x, nan x = false -> R x x) -> (forall x y z, nan x = false -> nan y = false -> nan z = false -> R x y -> R y z -> R x z) ->
  (forall x y, R x y -> R y x -> SFeqb y x = true) -> (forall x, nan x = false -> nan (key x) = false) ->
  (forall x y, nan x = false -> nan y = false -> (step x y = x \/ step x y = y) /\ R x (step x y) /\ R y (step x y)) ->
  (forall v acc, g v acc = Ok (step acc (key v))) -> bound_by R key g.
Proof.
  intros RR RT RA KN ST G lib start h a PB (V & MD & D) P NS. destruct (valid_elems h a V) as (xs & E). exists xs. split; [exact E|]. intros NX BD.
  rewrite (vnd_reduce_cases lib g start h a xs V D MD E). destruct (has_uniform_stride (a_shape a) (a_stride a)) as [s|].
  - destruct (PB xs (elems_ne h a xs P E) NX) as [(x & I & Q) B]. destruct (scalar_result h (lib xs)) as (h' & r & S & F).
    exists (lib xs), h', r. split; [exact S|]. split; [exact F|]. split; [|exact B]. exists x. split; [exact I|]. rewrite Q.
    rewrite Forall_forall in NX. apply RA; auto.
  - clear PB. destruct (BD eq_refl) as (x0 & I0 & B0).
    assert (FM : forall l d, foldM g l d = Ok (fold_left step (map key l) d)).
    { induction l as [|x l IH]; intros d; cbn [foldM fold_left map]; [reflexivity|]. rewrite G. cbn [bind]. apply IH. }
    rewrite FM. cbn [bind]. set (v := fold_left step (map key xs) start).
    assert (LE : least (fun x y => R y x) v (start :: map key xs)).
    { apply (fold_least (fun x => nan x = false) (fun x y => R y x) RR (fun x y z X Y Z H1 H2 => RT z y x Z Y X H2 H1) step ST (map key xs) start [start]).
      - auto. - apply Forall_forall. intros y I. apply in_map_iff in I as (x & <- & I). rewrite Forall_forall in NX. auto.
      - split; [now left|]. intros y [<-|[]]. auto. }
    destruct LE as [IV LV]. destruct (scalar_result h v) as (h' & r & S & F). exists v, h', r. split; [exact S|]. split; [exact F|].
    split; [|intros x I; apply LV; right; now apply in_map].
    destruct IV as [Ev|IV].
    + exists x0. split; [exact I0|]. apply RA; [apply LV; right; now apply in_map|]. now rewrite <- Ev.
    + apply in_map_iff in IV as (x & Ex & I). exists x. split; [exact I|]. rewrite Ex. rewrite Forall_forall in NX.
      assert (nan v = false) by (rewrite <- Ex; auto). apply RA; auto.
Qed.
Lemma fge_trans x y z : nan x = false -> nan y = false -> nan z = false -> fge x y -> fge y z -> fge x z.
Proof. unfold fge. intros X Y Z H1 H2. exact (fle_trans z y x Z Y X H2 H1). Qed.
Lemma SFabs_nan x : nan x = false -> nan (SFabs x) = false. Proof. destruct x; auto. Qed.
Theorem C53_max_partial : bound_by fle (fun x => x) (partial_max SFltb).
Proof.
  apply (bound_by_of _ _ _ (pmax SFltb)); auto using fle_refl, fle_antisym, pmax_ok.
  intros x y z. apply fle_trans.
Qed.
Print Assumptions C53_max_partial.
Theorem C53_min_partial : bound_by fge (fun x => x) (partial_min SFltb).
Proof.
  apply (bound_by_of _ _ _ (pmin SFltb)); unfold fge; auto using fle_refl, fle_antisym, pmin_ok.
  intros x y z X Y Z H1 H2. exact (fge_trans x y z X Y Z H1 H2).
Qed.
Print Assumptions C53_min_partial.
Theorem C53_max_magnitude_partial : bound_by fle SFabs (partial_max_magnitude SFltb (fun x => Ok (SFabs x))).
Proof.
  apply (bound_by_of _ _ _ (fun acc w => if SFltb w acc then acc else w)); auto using fle_refl, fle_antisym, SFabs_nan.
  - intros x y z. apply fle_trans.
  - intros x y X Y. rewrite flt_le by assumption. destruct (SFleb x y) eqn:E; cbn [negb]; [|apply fle_total in E; auto]; split; auto; split; auto; now apply fle_refl.
Qed.
Print Assumptions C53_max_magnitude_partial.
Theorem C53_min_magnitude_partial : bound_by fge SFabs (partial_min_magnitude SFltb (fun x => Ok (SFabs x))).
Proof.
  apply (bound_by_of _ _ _ (fun acc w => if SFltb acc w then acc else w)); unfold fge; auto using fle_refl, fle_antisym, SFabs_nan.
  - intros x y z X Y Z H1 H2. exact (fge_trans x y z X Y Z H1 H2).
  - intros x y X Y. rewrite flt_le by assumption. destruct (SFleb y x) eqn:E; cbn [negb]; [|apply fle_total in E; auto]; split; auto; split; auto; now apply fle_refl.
Qed.
Print Assumptions C53_min_magnitude_partial.

(** Two layouts of the same four infinities: the library returns -infinity, the portable loop
    used for the other layout returns the start value, the most negative finite number. *)
Definition lib_max (xs : list spec_float) : spec_float := match xs with [] => S754_infinity true | x :: xs => fold_left (pmax SFltb) xs x end.
Theorem C53_layout_refuted : exists (h : heap spec_float) a t h1 r1 h2 r2, live h 0 9 /\ chain 0 9 false a /\ chain 0 9 false t /\
  elems h a = Ok (repeat (S754_infinity true) 9) /\ nd_slice a [ITo 2; ITo 2] = Ok t /\ elems h t = Ok (repeat (S754_infinity true) 4) /\
  vnd_reduce lib_max (partial_max SFltb) f32_min h a = Ok (h1, r1) /\ get h1 r1 [] = Ok (S754_infinity true) /\
  vnd_reduce lib_max (partial_max SFltb) f32_min h t = Ok (h2, r2) /\ get h2 r2 [] = Ok f32_min.
Proof.
  assert (C : chain 0 9 false (fresh_arr 0 9 [3; 3])) by (apply Ch_new; cbn; lia).
  destruct (nd_slice (fresh_arr 0 9 [3; 3]) [ITo 2; ITo 2]) as [t| |] eqn:E; try discriminate.
  exists [Some (repeat (S754_infinity true) 9)], (fresh_arr 0 9 [3; 3]), t. eexists _, _, _, _.
  split; [eexists; split; reflexivity|]. split; [exact C|].
  split; [eapply (Ch_slice 0 9 false); [exact C| |exact E]; split; [cbn; lia|repeat constructor]|].
  vm_compute in E. injection E as <-. split; [reflexivity|]. split; [reflexivity|]. split; [reflexivity|].
  split; [vm_compute; reflexivity|]. split; [reflexivity|]. split; [vm_compute; reflexivity|]. reflexivity.
Qed.
Print Assumptions C53_layout_refuted.

(** the contracts are met by the obvious routines, and the operators on ordinary arrays *)
Example C53_ex_lib : sums_once Nat.add (fun xs => match xs with [] => 0 | x :: xs => fold_left Nat.add xs x end) /\ picks_bound fle (fun x => x) lib_max.
Proof.
  split.
  - intros [|x xs] NE; [congruence|]. destruct (tree_fold Nat.add xs (Leaf x)) as (t & Q & LV). cbn [teval leaves] in *. exists t. rewrite LV. auto.
  - intros [|x xs] NE NX; [congruence|]. inversion NX as [|? ? X XS]; subst. cbn [lib_max].
    destruct (fold_least (fun x => nan x = false) (fun x y => fle y x) fle_refl (fun x y z X Y Z H1 H2 => fle_trans z y x Z Y X H2 H1) (pmax SFltb) pmax_ok xs x [x]) as [I L]; auto.
    + split; [now left|]. intros y [<-|[]]. now apply fle_refl.
    + split; [eexists; split; [exact I|reflexivity]|]. exact L.
Qed.
Example C53_ex : let lib := fun xs : list nat => match xs with [] => 0 | x :: xs => fold_left Nat.add xs x end in
  let out := fun x : res (heap nat * arr) => bind x (fun hr => elems (fst hr) (snd hr)) in
  out (vnd_binary Nat.add VAddMul (fun x y => Ok (x + y)) 0 exs (fresh_arr 1 33 [3; 11]) exs1) = Ok (map (fun i => 100 + i + (10 + i mod 11)) (seq 0 33)) /\
  out (vnd_binary Nat.sub VSub (fun x y => Ok (x - y)) 0 exs (fresh_arr 1 11 [11]) exs1) = Ok (repeat 90 11) /\
  out (vnd_binary Nat.div VDiv (fun x y => Ok (x / y)) 0 exs (fresh_arr 1 11 [11]) exs1) = Ok (map (fun i => (100 + i) / (10 + i)) (seq 0 11)) /\
  out (vnd_reduce lib (fun v acc => Ok (acc + v)) 0 exs exs1) = Ok [165].
Proof. vm_compute. repeat split. Qed.
