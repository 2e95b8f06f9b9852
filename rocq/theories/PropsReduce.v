(** PropsReduce.v: properties of sum, product, min, max, magnitudes, mean, whole and
    along axes. *)
From Coq Require Import List Arith Lia Bool ZArith Permutation.
From Coq Require SpecFloat.
From Verif Require Import Base Spec Layout SpecFacts LayoutFacts Views ViewsFacts ViewsFacts2 ViewsFacts3
  Kernels Access HeapFacts KernelFacts OpFacts AccessFacts Chain ChainFacts ViewsFacts4 Reduce ReduceFacts
  PropsViews PropsOps.
Import ListNotations.
Open Scope res_scope.

Lemma scalar_result {T} (h : heap T) v : exists h' r, nd_scalar h v = Ok (h', r) /\ fresh_result h h' r [] (fun _ => Ok v).
Proof.
  unfold nd_scalar, nd_full. cbn [prod fold_right repeat length Nat.eqb negb guard bind]. eexists _, _. split; [reflexivity|].
  apply (fresh_result_of h [] (fun _ => Ok v) [v]); [cbn; lia|reflexivity].
Qed.

(** ** C19 whole-array reductions: sum is g := fun x acc => acc + x from 0, product with * from 1.
    Missing: broadcast views on which has_uniform_stride wrongly answers Some (refuted). *)
Theorem C19_fold_partial : forall T (g : T -> T -> res T) (h : heap T) blk n a dflt,
  live h blk n -> chain blk n false a \/ (chain blk n true a /\ has_uniform_stride (a_shape a) (a_stride a) = None) ->
  length (a_shape a) <= MAX_DIMS ->
  exists vs, elems h a = Ok vs /\
    (forall v, foldM g vs dflt = Ok v -> exists h' r, nd_reduce g dflt h a = Ok (h', r) /\ fresh_result h h' r [] (fun _ => Ok v)) /\
    (foldM g vs dflt = Panic -> nd_reduce g dflt h a = Panic).
Proof.
  intros T g h blk n a dflt LV D MD.
  assert (V : valid h a) by (destruct D as [C|[C _]]; eapply chain_valid; eauto).
  assert (D' : no_bcast (a_shape a) (a_stride a) \/ has_uniform_stride (a_shape a) (a_stride a) = None).
  { destruct D as [C|[_ E]]; [left; now destruct (chain_tight _ _ _ C) as (_ & NB & _)|now right]. }
  destruct (valid_elems h a V) as (vs & E). exists vs. split; [exact E|]. unfold nd_reduce.
  rewrite (k_reduce_eq g h dflt a V D' MD), E. cbn [bind]. split.
  - intros v ->. cbn [bind]. apply scalar_result.
  - now intros ->.
Qed.
Print Assumptions C19_fold_partial.
(** with a total operation: the value is the left fold *)
Theorem C19_fold_total_partial : forall T (op : T -> T -> T) (h : heap T) blk n a dflt,
  live h blk n -> chain blk n false a -> length (a_shape a) <= MAX_DIMS ->
  exists vs h' r, elems h a = Ok vs /\ nd_reduce (fun x acc => Ok (op acc x)) dflt h a = Ok (h', r) /\
    fresh_result h h' r [] (fun _ => Ok (fold_left op vs dflt)).
Proof.
  intros T op h blk n a dflt LV C MD.
  destruct (C19_fold_partial T (fun x acc => Ok (op acc x)) h blk n a dflt LV (or_introl C) MD) as (vs & E & H & _).
  destruct (H (fold_left op vs dflt)) as (h' & r & E' & F).
  { clear. revert dflt. induction vs as [|x vs IH]; intros d; [reflexivity|]. apply IH. }
  eauto 6.
Qed.
Print Assumptions C19_fold_total_partial.
Example C19_ex : exists h' r, nd_reduce (fun x acc => Ok (acc + x)) 0 exh ex32 = Ok (h', r) /\ get h' r [] = Ok 75.
Proof. eexists _, _. split; vm_compute; reflexivity. Qed.
(** sum of a 3-vector broadcast to 4x3 reads outside the buffer; in a larger buffer it returns the sum of other cells *)
Theorem C19_broadcast_sum_refuted : exists a, chain 0 6 true a /\ live exh 0 6 /\ (exists vs, elems exh a = Ok vs) /\
  nd_reduce (fun x acc => Ok (acc + x)) 0 exh a = Oob.
Proof.
  exists exb. split; [apply exb_chain|]. split; [apply exh_live|]. split; [eexists; vm_compute; reflexivity|]. reflexivity.
Qed.
Print Assumptions C19_broadcast_sum_refuted.
Theorem C19_broadcast_sum_wrong_refuted : exists a h' r, let h := [Some (seq 0 12)] in chain 0 12 true a /\ live h 0 12 /\
  elems h a = Ok [0; 1; 2; 0; 1; 2] /\ nd_reduce (fun x acc => Ok (acc + x)) 0 h a = Ok (h', r) /\ get h' r [] = Ok 15.
Proof.
  destruct (nd_slice (fresh_arr 0 12 [12]) [ITo 3]) as [r1| |] eqn:E1; try discriminate.
  destruct (nd_broadcast_to r1 [2; 3]) as [r2| |] eqn:E2; [|vm_compute in E1; injection E1 as <-; discriminate..].
  exists r2. eexists _, _. split; [|split].
  - eapply (Ch_broadcast 0 12 false); [|exact E2].
    eapply (Ch_slice 0 12 false (fresh_arr 0 12 [12])); [apply Ch_new; cbn; lia| |exact E1]. split; [cbn; lia|repeat constructor].
  - eexists; split; reflexivity.
  - vm_compute in E1. injection E1 as <-. vm_compute in E2. injection E2 as <-.
    split; [vm_compute; reflexivity|]. split; vm_compute; reflexivity.
Qed.
Print Assumptions C19_broadcast_sum_wrong_refuted.

(** ** C20 reductions along axes.  [drop_axes], [fibre]: Spec.v *)
Definition axes_of (nd : nat) (axes : list Z) : list nat := map (fun k => Z.to_nat (k mod Z.of_nat nd)) axes.
Definition axes_in (nd : nat) (axes : list Z) : Prop := Forall (fun k => - Z.of_nat nd <= k < Z.of_nat nd)%Z axes.

Lemma axes_abs nd axes : axes_in nd axes -> Forall2 (fun ax k => as_absolute ax nd = Ok k) axes (axes_of nd axes).
Proof. induction 1 as [|k axes H _ IH]; constructor; [now apply as_absolute_ok|exact IH]. Qed.

Lemma drop_axes_pos A sh : 0 < prod sh -> 0 < prod (drop_axes A sh).
Proof.
  intros P. apply pos_prod in P. apply pos_prod. unfold pos, drop_axes in *. apply Forall_forall. intros x I.
  apply in_map_iff in I as ([k y] & <- & I). apply filter_In in I as [I _]. apply in_combine_r in I.
  rewrite Forall_forall in P. now apply P.
Qed.

Theorem C20_reduce_along : forall T (g : T -> T -> res T) (h : heap T) a dflt axes,
  valid h a -> length (a_shape a) <= MAX_DIMS -> 0 < prod (a_shape a) ->
  let nd := length (a_shape a) in
  axes_in nd axes -> NoDup (axes_of nd axes) ->
  let A := axes_of nd axes in
  let val o := vs <- mapM (get h a) (fibre A (a_shape a) o) ;; foldM g vs dflt in
  ((forall o, in_range o (drop_axes A (a_shape a)) -> exists v, val o = Ok v) ->
     exists h' r, nd_reduce_along g dflt h a axes = Ok (h', r) /\ fresh_result h h' r (drop_axes A (a_shape a)) val) /\
  ((exists o, in_range o (drop_axes A (a_shape a)) /\ val o = Panic) -> (forall x y, g x y <> Oob) ->
     nd_reduce_along g dflt h a axes = Panic).
Proof.
  intros T g h a dflt axes V MD P nd IN ND A val.
  destruct (nd_reduce_along_eq g h dflt a axes A V MD (axes_abs _ _ IN) ND) as [H1 H2]. split; [|exact H2].
  intros H. destruct (H1 H) as (vs & E & EV). eexists _, _. split; [exact E|].
  apply fresh_result_of; [now apply drop_axes_pos|exact EV].
Qed.
Print Assumptions C20_reduce_along.
Example C20_ex : exists h' r, nd_reduce_along (fun x acc => Ok (acc + x)) 0 exh ex32 [-2]%Z = Ok (h', r) /\
  a_shape r = [2] /\ elems h' r = Ok [33; 42] /\ fibre [0] [3; 2] [1] = [[0; 1]; [1; 1]; [2; 1]].
Proof. eexists _, _. split; [vm_compute; reflexivity|]. repeat split. Qed.
Example C20_ex_broadcast : exists h' r, nd_reduce_along (fun x acc => Ok (acc + x)) 0 exh exb [0]%Z = Ok (h', r) /\ elems h' r = Ok [40; 44; 48].
Proof. eexists _, _. split; vm_compute; reflexivity. Qed.

Theorem C20_axes_order_and_sign_irrelevant : forall T (g : T -> T -> res T) (h : heap T) a dflt axes axes',
  let nd := length (a_shape a) in
  axes_in nd axes -> axes_in nd axes' -> NoDup (axes_of nd axes) -> Permutation (axes_of nd axes) (axes_of nd axes') ->
  nd_reduce_along g dflt h a axes = nd_reduce_along g dflt h a axes'.
Proof.
  intros T g h a dflt axes axes' nd I1 I2 N P. unfold nd_reduce_along. f_equal. unfold reduced_shape_and_stride.
  rewrite <- mask_of_nil. fold nd. assert (N2 : NoDup (axes_of nd axes')) by (eapply Permutation_NoDup; eauto).
  rewrite (mask_go_ok _ _ _ _ (axes_abs _ _ I1)), (mask_go_ok _ _ _ _ (axes_abs _ _ I2)) by (rewrite app_nil_r; now apply NoDup_rev).
  cbn [bind]. assert (L : length axes = length axes').
  { apply Permutation_length in P. unfold axes_of in P. now rewrite !map_length in P. }
  rewrite L. replace (mask_of nd (rev (axes_of nd axes') ++ [])) with (mask_of nd (rev (axes_of nd axes) ++ [])); [reflexivity|].
  unfold mask_of. apply map_ext. intros k. apply Bool.eq_iff_eq_true. rewrite !existsb_In, !app_nil_r, <- !in_rev.
  split; intros I; [|apply Permutation_sym in P]; eapply Permutation_in; eauto.
Qed.
Print Assumptions C20_axes_order_and_sign_irrelevant.
Example C20_ex2 : Permutation (axes_of 3 [0; -1]%Z) (axes_of 3 [2; 0]%Z).
Proof. apply perm_swap. Qed.

Theorem C20_bad_axes_panic : forall T (g : T -> T -> res T) (h : heap T) a dflt axes,
  let nd := length (a_shape a) in
  ~ axes_in nd axes \/ ~ NoDup (axes_of nd axes) -> nd_reduce_along g dflt h a axes = Panic.
Proof.
  intros T g h a dflt axes nd H. unfold nd_reduce_along.
  assert (D : axes_in nd axes \/ exists ax, In ax axes /\ ~ (- Z.of_nat nd <= ax < Z.of_nat nd)%Z).
  { clear. unfold axes_in. induction axes as [|k axes [IH|(ax & I & IH)]]; [left; constructor| |right; exists ax; split; [now right|exact IH]].
    destruct (Z_lt_dec k (- Z.of_nat nd)); [right; exists k; split; [now left|lia]|].
    destruct (Z_lt_dec k (Z.of_nat nd)); [left; constructor; [lia|exact IH]|right; exists k; split; [now left|lia]]. }
  destruct D as [D|(ax & I & B)].
  - destruct H as [H|H]; [contradiction|]. now rewrite (reduced_panics axes _ (a_shape a) (axes_abs _ _ D) H).
  - unfold reduced_shape_and_stride. fold nd. rewrite (mask_go_bad nd axes _ ax I); [reflexivity| |apply repeat_length].
    apply as_absolute_panic. lia.
Qed.
Print Assumptions C20_bad_axes_panic.
Example C20_ex3 : nd_reduce_along (fun x acc => Ok (acc + x)) 0 exh ex32 [0; -2]%Z = Panic /\
  nd_reduce_along (fun x acc => Ok (acc + x)) 0 exh ex32 [2]%Z = Panic.
Proof. split; reflexivity. Qed.

(** ** C21 extrema *)
(** a selecting fold: its result is the start value or the image of an element, and bounds both *)
Lemma foldM_select {T} (R : T -> T -> Prop) (f : T -> res T) (sel : T -> T -> T) :
  (forall x, R x x) -> (forall x y z, R x y -> R y z -> R x z) ->
  (forall w acc, (sel w acc = w \/ sel w acc = acc) /\ R w (sel w acc) /\ R acc (sel w acc)) ->
  forall l acc, (forall x, In x l -> exists w, f x = Ok w) ->
  exists r, foldM (fun v acc => w <- f v ;; Ok (sel w acc)) l acc = Ok r /\ R acc r /\
    (r = acc \/ exists x, In x l /\ f x = Ok r) /\ (forall x w, In x l -> f x = Ok w -> R w r).
Proof.
  intros RR RT S. induction l as [|x l IH]; intros acc H.
  - exists acc. split; [reflexivity|]. split; [apply RR|]. split; [now left|]. intros x w [].
  - cbn [foldM]. destruct (H x (or_introl eq_refl)) as (w & E). rewrite E. cbn [bind].
    destruct (S w acc) as (SE & S1 & S2).
    destruct (IH (sel w acc)) as (r & Er & Ra & O & B); [intros; apply H; now right|].
    exists r. split; [exact Er|]. split; [eapply RT; eauto|]. split.
    + destruct O as [->|(y & I & Ey)]; [|right; exists y; split; [now right|exact Ey]].
      destruct SE as [->| ->]; [right; exists x; split; [now left|exact E]|now left].
    + intros y wy [<-|I] Ey; [|eapply B; eauto]. assert (wy = w) by congruence. subst wy. eapply RT; eauto.
Qed.

(** strict total order given by a boolean test *)
Definition strict_total {T} (ltb : T -> T -> bool) : Prop :=
  (forall x, ltb x x = false) /\
  (forall x y z, ltb x y = true -> ltb y z = true -> ltb x z = true) /\
  (forall x y, ltb x y = true \/ x = y \/ ltb y x = true).

Section Order.
  Context {T : Type}.
  Variable ltb : T -> T -> bool.
  Hypothesis ST : strict_total ltb.
  Definition leq (x y : T) : Prop := ltb y x = false.
  Lemma leq_refl x : leq x x. Proof. apply ST. Qed.
  Lemma lt_asym x y : ltb x y = true -> ltb y x = false.
  Proof. destruct ST as (I & Tr & _). intros H. destruct (ltb y x) eqn:E; [|reflexivity]. rewrite <- (I x). symmetry. eapply Tr; eauto. Qed.
  Lemma leq_trans x y z : leq x y -> leq y z -> leq x z.
  Proof.
    destruct ST as (I & Tr & To). unfold leq. intros H1 H2. destruct (ltb z x) eqn:E; [|reflexivity].
    destruct (ltb x y) eqn:E2.
    - rewrite <- H2. symmetry. eapply Tr; eauto.
    - destruct (To x y) as [Q|[->|Q]]; congruence.
  Qed.
  Lemma leq_antisym x y : leq x y -> leq y x -> x = y.
  Proof. unfold leq. intros H1 H2. destruct ST as (_ & _ & To). destruct (To x y) as [Q|[Q|Q]]; congruence. Qed.
End Order.

(** [v] is attained among the images [f] of the elements of [a] at [idxs] and bounds them w.r.t. [R] *)
Definition attained_bound {T} (R : T -> T -> Prop) (f : T -> res T) (h : heap T) (a : arr) (idxs : list (list nat)) (v : T) : Prop :=
  (exists idx x, In idx idxs /\ get h a idx = Ok x /\ f x = Ok v) /\
  forall idx x w, In idx idxs -> get h a idx = Ok x -> f x = Ok w -> R w v.

(** the reduction of the elements at [idxs] by a selecting step *)
Lemma select_bound {T} (R : T -> T -> Prop) (f : T -> res T) (sel : T -> T -> T) (h : heap T) a idxs dflt vs :
  (forall x, R x x) -> (forall x y z, R x y -> R y z -> R x z) -> (forall x y, R x y -> R y x -> x = y) ->
  (forall w acc, (sel w acc = w \/ sel w acc = acc) /\ R w (sel w acc) /\ R acc (sel w acc)) ->
  mapM (get h a) idxs = Ok vs -> idxs <> [] ->
  (forall idx x, In idx idxs -> get h a idx = Ok x -> exists w, f x = Ok w /\ R dflt w) ->
  exists v, foldM (fun v acc => w <- f v ;; Ok (sel w acc)) vs dflt = Ok v /\ attained_bound R f h a idxs v.
Proof.
  intros RR RT RA S E NE H.
  assert (IV : forall x, In x vs -> exists idx, In idx idxs /\ get h a idx = Ok x).
  { clear - E. revert vs E. induction idxs as [|i l IH]; intros vs E x I; cbn [mapM] in E; [injection E as <-; destruct I|].
    apply bind_Ok_inv in E as (y & Ey & E). apply bind_Ok_inv in E as (ys & Eys & E). injection E as <-.
    destruct I as [<-|I]; [exists i; split; [now left|exact Ey]|]. destruct (IH _ Eys _ I) as (j & J & G). exists j. split; [now right|exact G]. }
  destruct (foldM_select R f sel RR RT S vs dflt) as (r & Er & Rd & O & B).
  { intros x I. destruct (IV x I) as (idx & J & G). destruct (H idx x J G) as (w & Ew & _). eauto. }
  exists r. split; [exact Er|].
  assert (BB : forall idx x w, In idx idxs -> get h a idx = Ok x -> f x = Ok w -> R w r).
  { intros idx x w I G Ew. destruct (mapM_Ok_inv _ _ _ _ E I) as (y & Gy & Iy). assert (y = x) by congruence. subst y. eapply B; eauto. }
  split; [|exact BB]. destruct O as [->|(x & I & Ex)].
  - destruct idxs as [|i l]; [congruence|]. destruct (mapM_Ok_inv _ _ _ _ E (or_introl eq_refl)) as (x & Gx & _).
    destruct (H i x (or_introl eq_refl) Gx) as (w & Ew & Rw). exists i, x. split; [now left|]. split; [exact Gx|].
    rewrite Ew. f_equal. apply RA; [|exact Rw]. apply (BB i x w); auto. now left.
  - destruct (IV x I) as (idx & J & G). exists idx, x. auto.
Qed.

Definition le_of {T} (ltb : T -> T -> bool) (x y : T) : Prop := ltb y x = false.
Definition ge_of {T} (ltb : T -> T -> bool) (x y : T) : Prop := ltb x y = false.

Lemma indices_ne sh : 0 < prod sh -> indices sh <> [].
Proof. intros P E. apply (f_equal (@length _)) in E. rewrite indices_length in E. cbn in E. lia. Qed.

(** what "the reduction g from dflt is an attained bound" means for whole arrays and along axes *)
Definition extremum {T} (g : T -> T -> res T) (dflt : T) (R : T -> T -> Prop) (f : T -> res T) : Prop :=
  forall (h : heap T) blk n a, live h blk n -> chain blk n false a -> length (a_shape a) <= MAX_DIMS ->
  (forall idx x, in_range idx (a_shape a) -> get h a idx = Ok x -> exists w, f x = Ok w /\ R dflt w) ->
  (exists h' r v, nd_reduce g dflt h a = Ok (h', r) /\ fresh_result h h' r [] (fun _ => Ok v) /\
     attained_bound R f h a (indices (a_shape a)) v) /\
  (forall axes, let nd := length (a_shape a) in axes_in nd axes -> NoDup (axes_of nd axes) ->
     let A := axes_of nd axes in
     exists h' r val, nd_reduce_along g dflt h a axes = Ok (h', r) /\ fresh_result h h' r (drop_axes A (a_shape a)) val /\
       forall o, in_range o (drop_axes A (a_shape a)) ->
         exists v, val o = Ok v /\ attained_bound R f h a (fibre A (a_shape a) o) v).

Lemma extremum_of {T} (R : T -> T -> Prop) (f : T -> res T) (sel : T -> T -> T) g dflt :
  (forall x, R x x) -> (forall x y z, R x y -> R y z -> R x z) -> (forall x y, R x y -> R y x -> x = y) ->
  (forall w acc, (sel w acc = w \/ sel w acc = acc) /\ R w (sel w acc) /\ R acc (sel w acc)) ->
  (forall v acc, g v acc = (w <- f v ;; Ok (sel w acc))) -> extremum g dflt R f.
Proof.
  intros RR RT RA S G h blk n a LV C MD H. pose proof (chain_valid _ _ _ _ _ LV C) as V.
  pose proof (chain_inv _ _ _ _ C) as I. destruct (i_nb _ _ _ _ I eq_refl) as (PO & _). apply pos_prod in PO.
  assert (GE : forall l acc, foldM g l acc = foldM (fun v acc => w <- f v ;; Ok (sel w acc)) l acc).
  { induction l as [|x l IH]; intros acc; [reflexivity|]. cbn [foldM]. rewrite G. apply bind_ext. intros; apply IH. }
  split.
  - destruct (C19_fold_partial T g h blk n a dflt LV (or_introl C) MD) as (vs & E & K & _).
    destruct (select_bound R f sel h a (indices (a_shape a)) dflt vs RR RT RA S E (indices_ne _ PO)) as (v & Ev & B).
    { intros idx x J. apply H. now apply in_indices. }
    destruct (K v) as (h' & r & Er & F); [now rewrite GE|]. eauto 6.
  - intros axes nd IN ND A.
    assert (VAL : forall o, in_range o (drop_axes A (a_shape a)) -> exists v,
       (vs <- mapM (get h a) (fibre A (a_shape a) o) ;; foldM g vs dflt) = Ok v /\ attained_bound R f h a (fibre A (a_shape a) o) v).
    { intros o Ro. assert (SUB : forall idx, In idx (fibre A (a_shape a) o) -> in_range idx (a_shape a)).
      { intros idx J. unfold fibre in J. apply filter_In in J as [J _]. now apply in_indices. }
      destruct (mapM_Ok (get h a) (fibre A (a_shape a) o)) as (vs & E); [intros idx J; apply V; auto|].
      rewrite E. cbn [bind]. rewrite GE. apply select_bound; auto.
      - intros Z. apply (fibre_ne A (a_shape a) o PO Ro Z).
      - intros idx x J. apply H. auto. }
    destruct (C20_reduce_along T g h a dflt axes V MD PO IN ND) as [K _].
    destruct K as (h' & r & E & F).
    { intros o Ro. destruct (VAL o Ro) as (v & Ev & _). eauto. }
    eexists h', r, _. split; [exact E|]. split; [exact F|]. exact VAL.
Qed.

(** The four pairs (whole array and along axes).  Hypotheses: a strict total order, and a
    start value beyond the elements (or their magnitudes), which is what min_value /
    max_value / 0 are for the integer types. *)
Theorem C21_max_partial : forall T (ltb : T -> T -> bool) min_value, strict_total ltb ->
  extremum (partial_max ltb) min_value (le_of ltb) (fun x => Ok x).
Proof.
  intros T ltb mv ST. apply (extremum_of _ _ (fun w acc => if ltb acc w then w else acc)); try apply (leq_refl ltb ST).
  - apply (leq_trans ltb ST).
  - apply (leq_antisym ltb ST).
  - intros w acc. unfold le_of. destruct (ltb acc w) eqn:E.
    + split; [now left|]. split; [apply ST|now apply lt_asym].
    + split; [now right|]. split; [exact E|apply ST].
  - reflexivity.
Qed.
Print Assumptions C21_max_partial.
Theorem C21_min_partial : forall T (ltb : T -> T -> bool) max_value, strict_total ltb ->
  extremum (partial_min ltb) max_value (ge_of ltb) (fun x => Ok x).
Proof.
  intros T ltb mv ST. apply (extremum_of _ _ (fun w acc => if ltb w acc then w else acc)); try apply (leq_refl ltb ST).
  - intros x y z H1 H2. exact (leq_trans ltb ST z y x H2 H1).
  - intros x y H1 H2. symmetry. exact (leq_antisym ltb ST y x H1 H2).
  - intros w acc. unfold ge_of. destruct (ltb w acc) eqn:E.
    + split; [now left|]. split; [apply ST|now apply lt_asym].
    + split; [now right|]. split; [exact E|apply ST].
  - reflexivity.
Qed.
Print Assumptions C21_min_partial.
Theorem C21_max_magnitude_partial : forall T (ltb : T -> T -> bool) abs start, strict_total ltb ->
  extremum (partial_max_magnitude ltb abs) start (le_of ltb) abs.
Proof.
  intros T ltb abs mv ST. apply (extremum_of _ _ (fun w acc => if ltb w acc then acc else w)); try apply (leq_refl ltb ST).
  - apply (leq_trans ltb ST).
  - apply (leq_antisym ltb ST).
  - intros w acc. unfold le_of. destruct (ltb w acc) eqn:E.
    + split; [now right|]. split; [now apply lt_asym|apply ST].
    + split; [now left|]. split; [apply ST|exact E].
  - reflexivity.
Qed.
Print Assumptions C21_max_magnitude_partial.
Theorem C21_min_magnitude_partial : forall T (ltb : T -> T -> bool) abs start, strict_total ltb ->
  extremum (partial_min_magnitude ltb abs) start (ge_of ltb) abs.
Proof.
  intros T ltb abs mv ST. apply (extremum_of _ _ (fun w acc => if ltb acc w then acc else w)); try apply (leq_refl ltb ST).
  - intros x y z H1 H2. exact (leq_trans ltb ST z y x H2 H1).
  - intros x y H1 H2. symmetry. exact (leq_antisym ltb ST y x H1 H2).
  - intros w acc. unfold ge_of. destruct (ltb acc w) eqn:E.
    + split; [now right|]. split; [now apply lt_asym|apply ST].
    + split; [now left|]. split; [apply ST|exact E].
  - reflexivity.
Qed.
Print Assumptions C21_min_magnitude_partial.
(** an 8-bit signed type, where abs(-128) panics *)
Definition abs8 (x : Z) : res Z := if (x =? -128)%Z then Panic else Ok (Z.abs x).
Definition exz : heap Z := [Some [-1; 3; -7; 5]%Z].
Example C21_ex_order : strict_total Z.ltb.
Proof. split; [apply Z.ltb_irrefl|]. split; intros *; rewrite ?Z.ltb_lt; lia. Qed.
Example C21_ex : let a := fresh_arr 0 4 [2; 2] in
  (exists h' r, nd_reduce (partial_max Z.ltb) (-128)%Z exz a = Ok (h', r) /\ get h' r [] = Ok 5%Z) /\
  (exists h' r, nd_reduce (partial_min Z.ltb) 127%Z exz a = Ok (h', r) /\ get h' r [] = Ok (-7)%Z) /\
  (exists h' r, nd_reduce (partial_max_magnitude Z.ltb abs8) (-128)%Z exz a = Ok (h', r) /\ get h' r [] = Ok 7%Z) /\
  (exists h' r, nd_reduce_along (partial_min_magnitude Z.ltb abs8) 127%Z exz a [1]%Z = Ok (h', r) /\ elems h' r = Ok [1; 5]%Z).
Proof. repeat split; eexists _, _; split; vm_compute; reflexivity. Qed.

(** f32: max of [-inf] is the most negative finite number, not an element *)
Definition f32_min : SpecFloat.spec_float := SpecFloat.S754_finite true 16777215 104.
Definition f32_max : SpecFloat.spec_float := SpecFloat.S754_finite false 16777215 104.
Theorem C21_max_infinity_refuted : exists (h : heap SpecFloat.spec_float) a h' r, live h 0 1 /\ chain 0 1 false a /\
  elems h a = Ok [SpecFloat.S754_infinity true] /\
  nd_reduce (partial_max SpecFloat.SFltb) f32_min h a = Ok (h', r) /\ get h' r [] = Ok f32_min.
Proof.
  exists [Some [SpecFloat.S754_infinity true]], (fresh_arr 0 1 [1]). eexists _, _.
  split; [eexists; split; reflexivity|]. split; [apply Ch_new; cbn; lia|]. split; [reflexivity|]. split; vm_compute; reflexivity.
Qed.
Print Assumptions C21_max_infinity_refuted.
Theorem C21_min_infinity_refuted : exists (h : heap SpecFloat.spec_float) a h' r, live h 0 1 /\ chain 0 1 false a /\
  elems h a = Ok [SpecFloat.S754_infinity false] /\
  nd_reduce (partial_min SpecFloat.SFltb) f32_max h a = Ok (h', r) /\ get h' r [] = Ok f32_max.
Proof.
  exists [Some [SpecFloat.S754_infinity false]], (fresh_arr 0 1 [1]). eexists _, _.
  split; [eexists; split; reflexivity|]. split; [apply Ch_new; cbn; lia|]. split; [reflexivity|]. split; vm_compute; reflexivity.
Qed.
Print Assumptions C21_min_infinity_refuted.
(** max over a broadcast row looks at cells that are not elements *)
Theorem C21_broadcast_refuted : exists a h' r, let h := [Some (seq 0 12)] in chain 0 12 true a /\ live h 0 12 /\
  elems h a = Ok [0; 1; 2; 0; 1; 2] /\ nd_reduce (partial_max Nat.ltb) 0 h a = Ok (h', r) /\ get h' r [] = Ok 5.
Proof.
  destruct (nd_slice (fresh_arr 0 12 [12]) [ITo 3]) as [r1| |] eqn:E1; try discriminate.
  destruct (nd_broadcast_to r1 [2; 3]) as [r2| |] eqn:E2; [|vm_compute in E1; injection E1 as <-; discriminate..].
  exists r2. eexists _, _. split; [|split].
  - eapply (Ch_broadcast 0 12 false); [|exact E2].
    eapply (Ch_slice 0 12 false (fresh_arr 0 12 [12])); [apply Ch_new; cbn; lia| |exact E1]. split; [cbn; lia|repeat constructor].
  - eexists; split; reflexivity.
  - vm_compute in E1. injection E1 as <-. vm_compute in E2. injection E2 as <-.
    split; [vm_compute; reflexivity|]. split; vm_compute; reflexivity.
Qed.
Print Assumptions C21_broadcast_refuted.

(** ** C22 means *)
Lemma extends_trans {T} (h1 h2 h3 : heap T) : extends h1 h2 -> extends h2 h3 -> extends h1 h3.
Proof. intros [L1 H1] [L2 H2]. split; [lia|]. intros b o B. rewrite H2 by lia. now apply H1. Qed.

(** the divisor is the number of elements *)
Theorem C22_mean_partial : forall T (add div : T -> T -> res T) of_nat zero (h : heap T) blk n a vs s c q,
  live h blk n -> chain blk n false a -> length (a_shape a) <= MAX_DIMS ->
  elems h a = Ok vs -> foldM (fun x acc => add acc x) vs zero = Ok s -> of_nat (length vs) = Ok c -> div s c = Ok q ->
  exists h' r, nd_mean add div of_nat zero h a = Ok (h', r) /\ extends h h' /\ a_shape r = [] /\ get h' r [] = Ok q.
Proof.
  intros T add div of_nat zero h blk n a vs s c q LV C MD E Es Ec Eq. unfold nd_mean.
  assert (L : length vs = prod (a_shape a)) by (apply mapM_length in E; now rewrite indices_length in E).
  rewrite <- L, Ec. cbn [bind].
  destruct (C19_fold_partial T (fun x acc => add acc x) h blk n a zero LV (or_introl C) MD) as (vs' & E' & K & _).
  assert (vs' = vs) by congruence. subst vs'. destruct (K s Es) as (h1 & r1 & -> & X1 & B1 & SH1 & V1 & C1 & _ & G1). cbn [bind].
  destruct (C13_scalar_op T div zero h1 r1 c V1) as [S _]; [rewrite SH1; cbn; unfold MAX_DIMS; lia|rewrite SH1; cbn; lia|].
  destruct S as (h2 & r2 & E2 & X2 & B2 & SH2 & V2 & C2 & _ & G2).
  { rewrite SH1. intros idx R. rewrite G1 by exact R. cbn [bind]. eauto. }
  rewrite SH1 in *. exists h2, r2. split; [exact E2|]. split; [eapply extends_trans; eauto using grows_extends|]. split; [exact SH2|].
  rewrite G2 by constructor. rewrite G1 by constructor. exact Eq.
Qed.
Print Assumptions C22_mean_partial.

(** along non-negative axes: the divisor is the number of elements of the fibre *)
Theorem C22_mean_along_partial : forall T (add div : T -> T -> res T) of_nat zero (h : heap T) a axes c,
  valid h a -> length (a_shape a) <= MAX_DIMS -> 0 < prod (a_shape a) ->
  let nd := length (a_shape a) in
  Forall (fun k => 0 <= k < Z.of_nat nd)%Z axes -> NoDup axes ->
  let A := map Z.to_nat axes in
  (forall o, in_range o (drop_axes A (a_shape a)) -> of_nat (length (fibre A (a_shape a) o)) = Ok c) ->
  let val o := vs <- mapM (get h a) (fibre A (a_shape a) o) ;; s <- foldM (fun x acc => add acc x) vs zero ;; div s c in
  (forall o, in_range o (drop_axes A (a_shape a)) -> exists v, val o = Ok v) ->
  exists h' r, nd_mean_along add div of_nat zero h a axes = Ok (h', r) /\ extends h h' /\
    a_shape r = drop_axes A (a_shape a) /\ forall o, in_range o (drop_axes A (a_shape a)) -> get h' r o = val o.
Proof.
  intros T add div of_nat zero h a axes c V MD P nd F N A HC val HV.
  assert (AX : axes_of nd axes = A).
  { unfold axes_of, A. apply map_ext_in. intros k I. rewrite Forall_forall in F. rewrite Z.mod_small; auto. }
  assert (IN : axes_in nd axes) by (unfold axes_in; eapply Forall_impl; [|exact F]; cbv beta; lia).
  assert (NA : NoDup A).
  { unfold A. clear - N F. induction N as [|k axes NI N IH]; [constructor|]. inversion F as [|? ? Hk F']; subst. cbn [map]. constructor.
    - intros I. apply in_map_iff in I as (j & E & J). rewrite Forall_forall in F'. specialize (F' j J). assert (j = k) by lia. congruence.
    - now apply IH. }
  assert (LA : forall k, In k A -> k < nd).
  { unfold A. intros k I. apply in_map_iff in I as (j & <- & J). rewrite Forall_forall in F. specialize (F j J). lia. }
  unfold nd_mean_along.
  assert (MC : forall m, mean_count (a_shape a) axes m = Ok (m * prod (map (fun k => nth k (a_shape a) 0) A))).
  { unfold A. clear - F. induction F as [|k axes H F IH]; intros m; cbn [mean_count map]; [cbn; f_equal; lia|].
    destruct (Z.leb_spec 0 k); [|lia]. cbn [guard bind]. rewrite (@vget_nth _ (a_shape a) (Z.to_nat k) 0) by (unfold nd in H; lia).
    cbn [bind]. rewrite IH. rewrite prod_cons. f_equal. lia. }
  rewrite MC. cbn [bind]. rewrite Nat.mul_1_l.
  pose proof (drop_axes_pos A _ P) as PO.
  assert (Z0 := in_range_zeros _ PO). pose proof (HC _ Z0) as HC0. rewrite (fibre_length A _ _ NA LA Z0) in HC0. rewrite HC0. cbn [bind].
  destruct (C20_reduce_along T (fun v acc => add acc v) h a zero axes V MD P IN) as [K _]; [fold nd; now rewrite AX|].
  fold nd in K. rewrite AX in K. destruct K as (h1 & r1 & -> & X1 & B1 & SH1 & V1 & C1 & _ & G1).
  { intros o R. destruct (HV o R) as (v & E). unfold val in E. apply bind_Ok_inv in E as (vs & Evs & E).
    apply bind_Ok_inv in E as (s & Es & _). exists s. now rewrite Evs. }
  cbn [bind].
  assert (VE : forall o, in_range o (drop_axes A (a_shape a)) -> (x <- get h1 r1 o ;; div x c) = val o).
  { intros o R. rewrite G1 by exact R. unfold val. rewrite bind_assoc. reflexivity. }
  destruct (C13_scalar_op T div zero h1 r1 c V1) as [S _].
  - rewrite SH1. etransitivity; [|exact MD]. unfold drop_axes. rewrite map_length.
    etransitivity; [apply filter_length_le|]. rewrite combine_length, seq_length. lia.
  - rewrite SH1. exact PO.
  - rewrite SH1 in S. destruct S as (h2 & r2 & E2 & X2 & B2 & SH2 & V2 & C2 & _ & G2).
    { intros o R. rewrite VE by exact R. now apply HV. }
    exists h2, r2. split; [exact E2|]. split; [eapply extends_trans; eauto using grows_extends|]. split; [exact SH2|].
    intros o R. rewrite G2 by exact R. now apply VE.
Qed.
Print Assumptions C22_mean_along_partial.
Example C22_ex : let dv x y := if y =? 0 then Panic else Ok (x / y) in
  (exists h' r, nd_mean (fun x y => Ok (x + y)) dv (fun n => Ok n) 0 exh ex32 = Ok (h', r) /\ get h' r [] = Ok 12) /\
  (exists h' r, nd_mean_along (fun x y => Ok (x + y)) dv (fun n => Ok n) 0 exh ex23 [0]%Z = Ok (h', r) /\ elems h' r = Ok [11; 12; 13]).
Proof. split; eexists _, _; split; vm_compute; reflexivity. Qed.
(** negative axes, accepted by sum_along, are rejected *)
Theorem C22_negative_axis_refuted : exists a, live exh 0 6 /\ chain 0 6 false a /\ axes_in (length (a_shape a)) [-1]%Z /\
  (exists x, nd_reduce_along (fun v acc => Ok (acc + v)) 0 exh a [-1]%Z = Ok x) /\
  nd_mean_along (fun x y => Ok (x + y)) (fun x y => Ok (x / y)) (fun n => Ok n) 0 exh a [-1]%Z = Panic.
Proof.
  exists ex23. split; [apply exh_live|]. split; [apply ex23_chain|]. split; [repeat constructor; cbn; lia|].
  split; [eexists; vm_compute; reflexivity|reflexivity].
Qed.
Print Assumptions C22_negative_axis_refuted.
