(** PropsViews.v: properties about layouts, constructors and views.
    Vocabulary: Spec.v (get, elems, valid, views, index maps), Chain.v (reachable
    arrays, live blocks).  Each theorem is followed by an instance that meets its
    hypotheses and by its assumptions. *)
From Coq Require Import List Arith Lia Bool ZArith Sorted.
From Verif Require Import Base Spec Layout SpecFacts LayoutFacts Views ViewsFacts ViewsFacts2 ViewsFacts3
  Kernels Access HeapFacts KernelFacts OpFacts AccessFacts Chain ChainFacts ViewsFacts4.
Import ListNotations.
Open Scope res_scope.

(** ** common example data: a 2x3 array over a block of six cells *)
Definition exh : heap nat := [Some [10; 11; 12; 13; 14; 15]].
Definition ex23 : arr := fresh_arr 0 6 [2; 3].
Example exh_live : live exh 0 6.
Proof. eexists; split; reflexivity. Qed.
Example ex23_chain : chain 0 6 false ex23.
Proof. apply Ch_new; cbn; lia. Qed.
(** its transpose, 3x2 with strides 1, 3 *)
Definition ex32 : arr := mkArr 0 0 6 6 [3; 2] [1; 3] (mkFlags false false false true false false).
Example ex32_chain : chain 0 6 false ex32.
Proof. apply (Ch_transpose 0 6 false ex23 ByRef 0 1); [apply ex23_chain|vm_compute; reflexivity]. Qed.
(** first row broadcast to 4x3 *)
Definition exb : arr := mkArr 0 0 12 3 [4; 3] [0; 1] (mkFlags false true true false false false).
Example exb_chain : chain 0 6 true exb.
Proof.
  apply (Ch_broadcast 0 6 false (mkArr 0 0 3 3 [3] [1] (mkFlags false true true true false false)) [4; 3]).
  - apply (Ch_slice_along 0 6 false ex23 0 0 (IUsize 0)); [apply ex23_chain|reflexivity|cbn; lia|vm_compute; reflexivity].
  - vm_compute. reflexivity.
Qed.

(** ** C01 flatiter.  [valid] says that the cells of the elements are live, nothing
    more, so [Ok] also means that no other cell is read. *)
Theorem C01_flatiter_row_major : forall T (h : heap T) a,
  valid h a -> length (a_shape a) <= MAX_DIMS ->
  exists vs, nd_flatiter h a = Ok vs /\ length vs = prod (a_shape a) /\
    forall idx, in_range idx (a_shape a) ->
      exists v, nth_error vs (rank idx (a_shape a)) = Some v /\ get h a idx = Ok v.
Proof.
  intros T h a V MD. rewrite nd_flatiter_eq by (try assumption; apply V).
  destruct (valid_elems h a V) as (vs & E). exists vs. split; [exact E|]. split.
  - apply mapM_length in E. now rewrite indices_length in E.
  - intros idx R. now apply nth_error_of_indices_get.
Qed.
Print Assumptions C01_flatiter_row_major.
Example C01_ex : valid exh ex32 /\ nd_flatiter exh ex32 = Ok [10; 13; 11; 14; 12; 15].
Proof. split; [apply (chain_valid _ _ _ _ _ exh_live ex32_chain)|vm_compute; reflexivity]. Qed.
Example C01_ex_broadcast : nd_flatiter exh exb = Ok [10; 11; 12; 10; 11; 12; 10; 11; 12; 10; 11; 12].
Proof. vm_compute. reflexivity. Qed.

(** the 32-axis limit applies to the collapsed layout: within it the generator yields
    the address of every index in order, beyond it construction panics *)
Theorem C01_flat_indices : forall sh st, length st = length sh ->
  (length (fst (collapse sh st)) <= MAX_DIMS ->
     fig_list sh st = Ok (map (fun idx => dot idx st) (indices sh))) /\
  (MAX_DIMS < length (fst (collapse sh st)) -> fig_list sh st = Panic).
Proof. intros sh st L. split; [exact (fig_list_ok sh st L)|exact (fig_list_panic sh st L)]. Qed.
Print Assumptions C01_flat_indices.

(** ** C02 collapsing axes *)
Theorem C02_collapse_same_addresses : forall sh st, length st = length sh ->
  map (fun idx => dot idx (snd (collapse sh st))) (indices (fst (collapse sh st)))
    = map (fun idx => dot idx st) (indices sh) /\
  length (fst (collapse sh st)) = length (snd (collapse sh st)) /\
  length (fst (collapse sh st)) <= length sh.
Proof.
  intros sh st L. destruct (collapse sh st) as [a b] eqn:E. cbn [fst snd].
  exact (collapse_offsets sh st a b (eq_sym L) E).
Qed.
Print Assumptions C02_collapse_same_addresses.
Example C02_ex : collapse [2; 3; 4; 5] [0; 20; 5; 1] = ([2; 60], [0; 1]).
Proof. reflexivity. Qed.

(** ** C03 constructors *)
Theorem C03_buffer_row_major : forall T (h : heap T) sh (data : list T) h' a,
  length data = prod sh -> from_buffer h sh data = (h', a) ->
  a_shape a = sh /\ valid h' a /\ distinct a /\
  (forall idx, in_range idx sh -> exists v, nth_error data (rank idx sh) = Some v /\ get h' a idx = Ok v) /\
  (forall k, k < length data -> exists idx, in_range idx sh /\ a_off a + dot idx (a_stride a) = k) /\
  (forall b o, b < length h -> load h' b o = load h b o) /\ a_blk a = length h.
Proof.
  intros T h sh data h' a L E. unfold from_buffer, alloc in E. injection E as <- <-.
  split; [reflexivity|]. split; [now apply fresh_valid|]. split.
  { intros i j Ri Rj Q. cbn in *. rewrite stride_from_shape_rm, <- !rank_dot in Q. eapply rank_inj; eauto. }
  split; [intros idx R; now apply fresh_get|]. split.
  - intros k K. rewrite L in K. destruct (unrank_in_range k sh K) as [R Q]. exists (unrank k sh). split; [exact R|].
    cbn. rewrite stride_from_shape_rm, <- rank_dot. exact Q.
  - split; [|reflexivity]. intros b o Hb. now apply load_app_old.
Qed.
Print Assumptions C03_buffer_row_major.
Example C03_ex : let '(h', a) := from_buffer exh [2; 2] [1; 2; 3; 4] in get h' a [1; 0] = Ok 3.
Proof. reflexivity. Qed.

(** full/zeros/ones/scalar: every element is the given value; zero-size requests panic *)
Theorem C03_full : forall T (h : heap T) (x : T) sh,
  (prod sh = 0 -> nd_full h x sh = Panic) /\
  (prod sh <> 0 -> exists h' a, nd_full h x sh = Ok (h', a) /\ a_shape a = sh /\
     forall idx, in_range idx sh -> get h' a idx = Ok x).
Proof.
  intros T h x sh. unfold nd_full. rewrite repeat_length. split; intros P.
  - now rewrite P.
  - apply Nat.eqb_neq in P. rewrite P. cbn [negb guard bind]. unfold from_buffer, alloc. eexists _, _. split; [reflexivity|].
    split; [reflexivity|]. intros idx R.
    destruct (fresh_get h sh (repeat x (prod sh)) (length (repeat x (prod sh))) idx (repeat_length _ _) R) as (v & N & ->).
    apply nth_error_In, repeat_spec in N. now subst.
Qed.
Print Assumptions C03_full.
Example C03_full_ex : exists h' a, nd_full exh 7 [3; 2] = Ok (h', a) /\ get h' a [2; 1] = Ok 7.
Proof. eexists _, _. split; reflexivity. Qed.

(** ** C05 reshape.  Full statement: for EVERY array, success gives the same row-major
    sequence, and every uniformly strided array of the right size can be reshaped.
    Proved for chains without broadcasting; the two refutations below are the rest. *)
Theorem C05_reshape_partial : forall b n a m sh, chain b n false a ->
  (forall r, nd_reshape m a sh = Ok r ->
     a_shape r = sh /\ prod sh = prod (a_shape a) /\
     views r a (fun idx => unrank (rank idx sh) (a_shape a)) /\
     forall T (h : heap T), elems h r = elems h a) /\
  (prod (a_shape a) <> prod sh -> nd_reshape m a sh = Panic) /\
  (f_unif (a_fl a) = true -> prod (a_shape a) = prod sh -> a_shape a <> [] -> exists r, nd_reshape m a sh = Ok r).
Proof.
  intros b n a m sh C. pose proof (chain_tight _ _ _ C) as (_ & NB & F & W).
  split; [|split].
  - intros r E. destruct (nd_reshape_shape _ _ _ _ E) as [SH P].
    assert (V : views r a (fun idx => unrank (rank idx sh) (a_shape a))).
    { assert (E' := E). unfold nd_reshape in E'. destruct (list_eqb sh (a_shape a)) eqn:Q.
      - apply list_eqb_spec in Q. injection E' as <-. subst sh. apply reshaped_view_views; [exact W|].
        intros idx R. cbv beta. rewrite ?Q. now rewrite unrank_rank.
      - apply bind_Ok_inv in E' as ([] & G1 & E'). apply bind_Ok_inv in E' as ([] & G2 & E').
        apply bind_Ok_inv in E' as (d & G3 & E').
        assert (U : f_unif (a_fl a) = true) by (destruct (f_unif (a_fl a)); [reflexivity|discriminate]).
        assert (NE : a_shape a <> []) by (intros Z; rewrite Z in G3; discriminate).
        destruct (nd_reshape_ok m a sh W F NB U P (or_introl NE)) as (r' & Er & _ & V & _).
        rewrite E in Er. now injection Er as <-. }
    split; [exact SH|]. split; [auto|]. split; [exact V|]. intros T h.
    apply (views_elems h r a _ V); rewrite SH; [auto|]. intros idx R.
    apply unrank_in_range. rewrite P. now apply rank_lt.
  - apply nd_reshape_size_panic.
  - intros U P NE. destruct (nd_reshape_ok m a sh W F NB U P (or_introl NE)) as (r & E & _). eauto.
Qed.
Print Assumptions C05_reshape_partial.
Example C05_ex : chain 0 6 false ex23 /\ exists r, nd_reshape ByRef ex23 [3; 1; 2] = Ok r /\ elems exh r = Ok [10; 11; 12; 13; 14; 15].
Proof. split; [apply ex23_chain|]. eexists. split; vm_compute; reflexivity. Qed.

(** reshaping a broadcast view reads outside the buffer: [3] broadcast to [4,3], then reshape to [12] *)
Theorem C05_reshape_refuted : exists (a r : arr), chain 0 3 true a /\ live ([Some [1; 2; 3]] : heap nat) 0 3 /\
  nd_reshape ByRef a [12] = Ok r /\
  elems [Some [1; 2; 3]] a = Ok [1; 2; 3; 1; 2; 3; 1; 2; 3; 1; 2; 3] /\ elems [Some [1; 2; 3]] r = Oob.
Proof.
  eexists _, _. split; [|split; [|split; [|split]]].
  - eapply (Ch_broadcast 0 3 false (fresh_arr 0 3 [3]) [4; 3]); [apply Ch_new; cbn; lia|vm_compute; reflexivity].
  - eexists; split; reflexivity.
  - vm_compute. reflexivity.
  - vm_compute. reflexivity.
  - vm_compute. reflexivity.
Qed.
Print Assumptions C05_reshape_refuted.

(** a scalar is contiguous and has one element, yet reshaping it to [1] panics *)
Theorem C05_scalar_reshape_refuted : exists a, chain 0 1 false a /\ f_contig (a_fl a) = true /\ f_unif (a_fl a) = true /\
  prod (a_shape a) = prod [1] /\ nd_reshape ByRef a [1] = Panic.
Proof. exists (fresh_arr 0 1 []). split; [apply Ch_new; cbn; lia|]. repeat split. Qed.
Print Assumptions C05_scalar_reshape_refuted.

(** ** C06 transpose *)
Theorem C06_transpose : forall b n bc a m k1 k2, chain b n bc a ->
  let nd := length (a_shape a) in
  (- Z.of_nat nd <= k1 < Z.of_nat nd)%Z -> (- Z.of_nat nd <= k2 < Z.of_nat nd)%Z ->
  let i := Z.to_nat (k1 mod Z.of_nat nd) in let j := Z.to_nat (k2 mod Z.of_nat nd) in
  exists r, nd_transpose m a k1 k2 = Ok r /\
    a_shape r = swap_at i j (a_shape a) /\ views r a (swap_at i j) /\
    forall m', exists r', nd_transpose m' r k1 k2 = Ok r' /\
      a_shape r' = a_shape a /\ a_stride r' = a_stride a /\ views r' a (fun idx => idx).
Proof.
  intros b n bc a m k1 k2 C nd H1 H2 i j. pose proof (chain_inv _ _ _ _ C) as I.
  assert (E1 := as_absolute_ok _ _ H1). assert (E2 := as_absolute_ok _ _ H2). fold i in E1. fold j in E2.
  destruct (nd_transpose_ok m a k1 k2 i j (i_wf _ _ _ _ I) E1 E2) as (r & E & SH & V & F & ST).
  exists r. split; [exact E|]. split; [exact SH|]. split; [exact V|]. intros m'.
  pose proof E1 as B1. pose proof E2 as B2. apply as_absolute_inv in B1 as [B1 _], B2 as [B2 _].
  assert (W' : wf r) by apply V.
  assert (LN : length (a_shape r) = nd) by (rewrite SH; apply swap_at_length).
  rewrite <- LN in E1, E2.
  destruct (nd_transpose_ok m' r k1 k2 i j W' E1 E2) as (r' & E' & SH' & V' & F' & ST').
  exists r'. split; [exact E'|]. unfold nd in *. pose proof (i_wf _ _ _ _ I) as W. unfold wf in W.
  rewrite SH', SH, ST', ST, !swap_at_invol by lia. split; [reflexivity|]. split; [reflexivity|].
  pose proof (views_trans _ _ _ _ _ V' V) as (VB & VL & VV). split; [exact VB|]. split; [exact VL|].
  intros idx R. destruct (VV idx R) as [R' D]. cbv beta in *. pose proof (in_range_length _ _ R) as LI.
  rewrite SH', SH, swap_at_invol in LI by lia. rewrite swap_at_invol in R', D by lia. auto.
Qed.
Print Assumptions C06_transpose.
Example C06_ex : exists r, nd_transpose ByRef ex23 (-1) 0 = Ok r /\ a_shape r = [3; 2] /\ get exh r [2; 1] = get exh ex23 [1; 2].
Proof. eexists. split; [vm_compute; reflexivity|]. split; reflexivity. Qed.

Theorem C06_transpose_panics : forall m a k1 k2,
  let nd := length (a_shape a) in
  ~ (- Z.of_nat nd <= k1 < Z.of_nat nd)%Z \/ ~ (- Z.of_nat nd <= k2 < Z.of_nat nd)%Z ->
  nd_transpose m a k1 k2 = Panic.
Proof.
  intros m a k1 k2 nd H. unfold nd_transpose. fold nd.
  destruct (Z_lt_dec k1 (- Z.of_nat nd)); [rewrite as_absolute_panic by lia; reflexivity|].
  destruct (Z_le_dec (Z.of_nat nd) k1); [rewrite as_absolute_panic by lia; reflexivity|].
  rewrite (as_absolute_ok k1) by lia. cbn [bind]. rewrite as_absolute_panic by lia. reflexivity.
Qed.
Print Assumptions C06_transpose_panics.

(** ** C07 squeeze, unsqueeze *)
Theorem C07_squeeze : forall b n bc a m, chain b n bc a ->
  let r := nd_squeeze m a in
  a_shape r = filter (fun d => negb (d =? 1)) (a_shape a) /\
  views r a (expand_unit (a_shape a)) /\ forall T (h : heap T), elems h r = elems h a.
Proof.
  intros b n bc a m C r. pose proof (chain_inv _ _ _ _ C) as I.
  destruct (nd_squeeze_ok m a (i_wf _ _ _ _ I)) as (SH & V & _). fold r in SH, V. split; [exact SH|]. split; [exact V|].
  intros T h. apply (views_elems h r a _ V); rewrite SH; [apply prod_filter|]. intros idx R. now apply rank_expand.
Qed.
Print Assumptions C07_squeeze.
Example C07_ex : let a := fresh_arr 0 6 [1; 2; 1; 3] in chain 0 6 false a /\ a_shape (nd_squeeze ByRef a) = [2; 3].
Proof. split; [apply Ch_new; cbn; lia|reflexivity]. Qed.

Theorem C07_unsqueeze : forall b n bc a m axis, chain b n bc a ->
  let nd1 := length (a_shape a) + 1 in
  ((- Z.of_nat nd1 <= axis < Z.of_nat nd1)%Z ->
   let k := Z.to_nat (axis mod Z.of_nat nd1) in
   exists r, nd_unsqueeze m a axis = Ok r /\ a_shape r = insert_at k 1 (a_shape a) /\
     views r a (delete_at k) /\ forall T (h : heap T), elems h r = elems h a) /\
  (~ (- Z.of_nat nd1 <= axis < Z.of_nat nd1)%Z -> nd_unsqueeze m a axis = Panic).
Proof.
  intros b n bc a m axis C nd1. pose proof (chain_inv _ _ _ _ C) as I. split.
  - intros H k. assert (E := as_absolute_ok _ _ H). fold k in E.
    destruct (nd_unsqueeze_ok m a axis k (i_wf _ _ _ _ I) E) as (r & Er & SH & V & _).
    exists r. split; [exact Er|]. split; [exact SH|]. split; [exact V|]. intros T h.
    apply as_absolute_inv in E as [B _]. unfold nd1 in B.
    apply (views_elems h r a _ V); rewrite SH; [apply prod_insert|]. intros idx R. apply rank_delete; [lia|exact R].
  - intros H. unfold nd_unsqueeze. fold nd1. rewrite as_absolute_panic by lia. reflexivity.
Qed.
Print Assumptions C07_unsqueeze.
Example C07_ex2 : exists r, nd_unsqueeze ByRef ex32 (-2) = Ok r /\ a_shape r = [3; 1; 2] /\ elems exh r = elems exh ex32.
Proof. eexists. split; [vm_compute; reflexivity|]. split; reflexivity. Qed.

(** ** C08 in-range slicing.  [region] reads an indexer as a position or a half-open
    interval; [pick_ok] says it lies within the axis and is not empty. *)
Theorem C08_slice : forall b n bc a ixs, chain b n bc a -> 0 < prod (a_shape a) ->
  slice_ok ixs (a_shape a) ->
  exists r, nd_slice a ixs = Ok r /\
    a_shape r = pick_shape (regions ixs (a_shape a)) (a_shape a) /\
    views r a (pick_index (regions ixs (a_shape a))).
Proof.
  intros b n bc a ixs C P OK. pose proof (chain_inv _ _ _ _ C) as I. apply pos_prod in P.
  destruct (nd_slice_ok a ixs (i_wf _ _ _ _ I) OK (proj1 (Forall_forall _ _) P)) as (r & E & SH & V & _). eauto.
Qed.
Print Assumptions C08_slice.
Example C08_ex : slice_ok [IFull; IFrom 1] (a_shape ex23) /\
  exists r, nd_slice ex23 [IFull; IFrom 1] = Ok r /\ a_shape r = [2; 2] /\ elems exh r = Ok [11; 12; 14; 15].
Proof. split; [repeat constructor|]. eexists. split; [vm_compute; reflexivity|]. split; reflexivity. Qed.

Theorem C08_slice_along : forall b n bc a axis ix, chain b n bc a -> 0 < prod (a_shape a) ->
  let nd := length (a_shape a) in
  (- Z.of_nat nd <= axis < Z.of_nat nd)%Z ->
  let k := Z.to_nat (axis mod Z.of_nat nd) in
  let p := region ix (nth k (a_shape a) 0%nat) in
  pick_ok p (nth k (a_shape a) 0) ->
  exists r, nd_slice_along a axis ix = Ok r /\ a_shape r = along_shape k p (a_shape a) /\ views r a (along_index k p).
Proof.
  intros b n bc a axis ix C P nd H k p OK. pose proof (chain_inv _ _ _ _ C) as I. apply pos_prod in P.
  destruct (nd_slice_along_ok a axis ix k (i_wf _ _ _ _ I) (as_absolute_ok _ _ H) OK (proj1 (Forall_forall _ _) P)) as (r & E & SH & V & _).
  eauto.
Qed.
Print Assumptions C08_slice_along.
Example C08_ex2 : exists r, nd_slice_along ex23 (-1) (IIncl 1 2) = Ok r /\ a_shape r = [2; 2] /\ elems exh r = Ok [11; 12; 14; 15].
Proof. eexists. split; [vm_compute; reflexivity|]. split; reflexivity. Qed.

(** ** C09 out-of-range slicing.  Full statement: every out-of-range request panics.
    What does panic: too many indexers, reversed ranges, a start beyond the axis. *)
Theorem C09_slice_rejects_partial : forall b n bc a, chain b n bc a ->
  (forall ixs, length (a_shape a) < length ixs -> nd_slice a ixs = Panic) /\
  (forall s e ixs, e < s -> nd_slice a (IRange s e :: ixs) = Panic) /\
  (forall s e ixs, e < s -> nd_slice a (IIncl s e :: ixs) = Panic) /\
  (forall s ixs, nth 0 (a_shape a) 0 < s -> nd_slice a (IFrom s :: ixs) = Panic).
Proof.
  intros b n bc a C. pose proof (i_wf _ _ _ _ (chain_inv _ _ _ _ C)) as W.
  split; [intros ixs; now apply nd_slice_too_many|]. unfold nd_slice.
  assert (W2 := W). unfold wf in W2.
  destruct (a_shape a) as [|d sh], (a_stride a) as [|s0 st]; try discriminate;
    repeat split; intros; cbn [slice_go indexed_length]; try reflexivity; unfold csub;
    match goal with |- context [if ?x <? ?y then _ else _] => destruct (Nat.ltb_spec x y) end; try reflexivity; cbn [nth] in *; lia.
Qed.
Print Assumptions C09_slice_rejects_partial.
Example C09_ex : nd_slice ex23 [IRange 2 1] = Panic.
Proof. reflexivity. Qed.

(** 0..5 on an axis of length 2 is accepted and denotes memory outside the buffer *)
Theorem C09_slice_refuted : exists a r, chain 0 6 false a /\ live exh 0 6 /\
  ~ slice_ok [IRange 0 5] (a_shape a) /\ nd_slice a [IRange 0 5] = Ok r /\
  in_range [4; 2] (a_shape r) /\ get exh r [4; 2] = Oob.
Proof.
  exists ex23. eexists. split; [apply ex23_chain|]. split; [apply exh_live|]. split; [|split; [vm_compute; reflexivity|]].
  - intros [_ H]. inversion H; subst. cbn in *. lia.
  - split; [repeat constructor|reflexivity].
Qed.
Print Assumptions C09_slice_refuted.

Theorem C09_slice_along_refuted : exists a r, chain 0 6 false a /\ live exh 0 6 /\
  nth 0 (a_shape a) 0 = 2 /\ nd_slice_along a 0 (IUsize 7) = Ok r /\ in_range [0] (a_shape r) /\ get exh r [0] = Oob.
Proof.
  exists ex23. eexists. split; [apply ex23_chain|]. split; [apply exh_live|]. split; [reflexivity|].
  split; [vm_compute; reflexivity|]. split; [repeat constructor|reflexivity].
Qed.
Print Assumptions C09_slice_along_refuted.

(** ** C10 broadcast_to *)
Theorem C10_broadcast_to : forall b n bc a sh, chain b n bc a ->
  (broadcastable (a_shape a) sh ->
   exists r, nd_broadcast_to a sh = Ok r /\ a_shape r = sh /\ views r a (bidx (a_shape a)) /\ f_write (a_fl r) = false) /\
  (~ broadcastable (a_shape a) sh -> nd_broadcast_to a sh = Panic).
Proof.
  intros b n bc a sh C. pose proof (i_wf _ _ _ _ (chain_inv _ _ _ _ C)) as W. split.
  - intros BR. destruct (nd_broadcast_to_ok a sh W BR) as (r & E & SH & V & _ & WR). eauto 6.
  - apply nd_broadcast_to_panic.
Qed.
Print Assumptions C10_broadcast_to.
Example C10_ex : exists r, nd_broadcast_to (fresh_arr 0 6 [2; 1; 3]) [5; 2; 4; 3] = Ok r /\
  get exh r [4; 1; 2; 0] = Ok 13 /\ bidx [2; 1; 3] [4; 1; 2; 0] = [1; 0; 0].
Proof. eexists. split; [vm_compute; reflexivity|]. split; reflexivity. Qed.

(** ** C11 common broadcast shape *)
Theorem C11_broadcast_shapes : forall s1 s2,
  (forall r, broadcast_shapes s1 s2 = Ok r <-> join_shape s1 s2 r) /\
  (broadcast_shapes s1 s2 = Panic <-> exists k, ~ dim_compat (dim_r s1 k) (dim_r s2 k)) /\
  (forall r, broadcast_shapes s1 s2 = Ok r -> broadcastable s1 r /\ broadcastable s2 r /\
     forall t, broadcastable s1 t -> broadcastable s2 t -> broadcastable r t).
Proof.
  intros s1 s2. split; [intros r; apply broadcast_shapes_ok_iff|]. split; [apply broadcast_shapes_panic_iff|].
  intros r E. apply broadcast_shapes_ok_iff in E.
  split; [eapply join_shape_broadcastable_l; eauto|]. split; [eapply join_shape_broadcastable_r; eauto|].
  intros t. eapply join_shape_least; eauto.
Qed.
Print Assumptions C11_broadcast_shapes.
Theorem C11_broadcast_shapes_algebra : forall a b c,
  broadcast_shapes a b = broadcast_shapes b a /\ broadcast_shapes a a = Ok a /\
  (r <- broadcast_shapes a b ;; broadcast_shapes r c) = (r <- broadcast_shapes b c ;; broadcast_shapes a r).
Proof. intros. split; [apply broadcast_shapes_comm|]. split; [apply broadcast_shapes_idem|apply broadcast_shapes_assoc]. Qed.
Print Assumptions C11_broadcast_shapes_algebra.
Example C11_ex : broadcast_shapes [3; 1] [2; 1; 4] = Ok [2; 3; 4] /\ broadcast_shapes [2] [3] = Panic.
Proof. split; reflexivity. Qed.

(** ** C25 view chains stay inside the allocation.  Missing: a reshape after a
    broadcast_to (refuted), and out-of-range slices (C09). *)
Theorem C25_view_chains_partial : forall b n bc a, chain b n bc a ->
  a_blk a = b /\ length (a_stride a) = length (a_shape a) /\
  forall idx, in_range idx (a_shape a) -> a_off a + dot idx (a_stride a) < n.
Proof.
  intros b n bc a C. apply chain_inv in C.
  split; [apply (i_blk _ _ _ _ C)|]. split; [apply (i_wf _ _ _ _ C)|apply (i_in _ _ _ _ C)].
Qed.
Print Assumptions C25_view_chains_partial.
Theorem C25_view_chains_live_partial : forall T (h : heap T) b n bc a, live h b n -> chain b n bc a -> valid h a.
Proof. exact @chain_valid. Qed.
Print Assumptions C25_view_chains_live_partial.
Example C25_ex : exists r, chain 0 6 true r /\ a_shape r = [2; 3] /\ elems exh r = Ok [12; 12; 12; 15; 15; 15].
Proof.
  destruct (nd_slice_along ex23 (-1) (IUsize 2)) as [r1| |] eqn:E1; try discriminate.
  destruct (nd_broadcast_to r1 [3; 2]) as [r2| |] eqn:E2; [|vm_compute in E1; injection E1 as <-; discriminate..].
  destruct (nd_transpose ByRef r2 0 1) as [r3| |] eqn:E3;
    [|vm_compute in E1; injection E1 as <-; vm_compute in E2; injection E2 as <-; discriminate..].
  exists r3. split.
  - eapply Ch_transpose; [|exact E3]. eapply Ch_broadcast; [|exact E2].
    eapply (Ch_slice_along 0 6 false ex23 (-1) 1 (IUsize 2)); [apply ex23_chain|reflexivity|cbn; lia|exact E1].
  - vm_compute in E1. injection E1 as <-. vm_compute in E2. injection E2 as <-. vm_compute in E3. injection E3 as <-.
    split; reflexivity.
Qed.
Theorem C25_reshape_after_broadcast_refuted : exists a r idx, chain 0 3 true a /\ nd_reshape ByRef a [12] = Ok r /\
  in_range idx (a_shape r) /\ ~ (a_off r + dot idx (a_stride r) < 3).
Proof.
  eexists _, _, [3]. split; [eapply (Ch_broadcast 0 3 false (fresh_arr 0 3 [3]) [4; 3]); [apply Ch_new; cbn; lia|vm_compute; reflexivity]|].
  split; [vm_compute; reflexivity|]. split; [repeat constructor|cbn; lia].
Qed.
Print Assumptions C25_reshape_after_broadcast_refuted.

(** elements of chains without broadcasting never share a cell *)
Theorem C25_distinct_cells : forall b n a, chain b n false a -> distinct a.
Proof. intros b n a C. apply chain_inv in C. apply (i_nb _ _ _ _ C eq_refl). Qed.
Print Assumptions C25_distinct_cells.

(** ** C30 diagonal (trace: PropsLinalg) *)
Theorem C30_diagonal : forall b n bc a off k1 k2, chain b n bc a ->
  let nd := length (a_shape a) in
  (- Z.of_nat nd <= k1 < Z.of_nat nd)%Z -> (- Z.of_nat nd <= k2 < Z.of_nat nd)%Z ->
  let i := Z.to_nat (k1 mod Z.of_nat nd) in let j := Z.to_nat (k2 mod Z.of_nat nd) in
  i <> j ->
  let d1 := nth i (a_shape a) 0%nat in let d2 := nth j (a_shape a) 0%nat in
  (- Z.of_nat d1 < off < Z.of_nat d2)%Z ->
  exists r, nd_offset_diagonal_along a off k1 k2 = Ok r /\
    a_shape r = drop_two 0 i j (a_shape a) ++ [Nat.min (d1 - Z.to_nat (- off)) (d2 - Z.to_nat off)] /\
    views r a (diag_index nd i j off).
Proof.
  intros b n bc a off k1 k2 C nd H1 H2 i j NE d1 d2 O. pose proof (i_wf _ _ _ _ (chain_inv _ _ _ _ C)) as W.
  destruct (nd_diagonal_ok a off k1 k2 i j W (as_absolute_ok _ _ H1) (as_absolute_ok _ _ H2) NE O) as (r & E & SH & V & _).
  eauto.
Qed.
Print Assumptions C30_diagonal.
(** [diag_index] puts d + max(-off,0) on the first axis, d + max(off,0) on the second and the
    other coordinates, in order, elsewhere *)
Theorem C30_diag_index_meaning : forall sh i j off rest d, i <> j -> i < length sh -> j < length sh ->
  length rest = length (drop_two 0 i j sh) ->
  let idx := diag_index (length sh) i j off (rest ++ [d]) in
  length idx = length sh ->
  nth i idx 0 = d + Z.to_nat (- off) /\ nth j idx 0 = d + Z.to_nat off /\ drop_two 0 i j idx = rest.
Proof.
  intros sh i j off rest d NE Hi Hj L idx LI.
  assert (E : idx = undiag 0 i j (d + Z.to_nat (- off)) (d + Z.to_nat off) (length sh) rest).
  { unfold idx, diag_index. now rewrite last_last, removelast_last. }
  rewrite E in *. split; [|split].
  - pose proof (undiag_nth1 (length sh) 0 i j (d + Z.to_nat (- off)) (d + Z.to_nat off) rest ltac:(lia) LI) as Q. now rewrite Nat.sub_0_r in Q.
  - pose proof (undiag_nth2 (length sh) 0 i j (d + Z.to_nat (- off)) (d + Z.to_nat off) rest ltac:(lia) ltac:(lia) LI) as Q. now rewrite Nat.sub_0_r in Q.
  - apply undiag_drop. rewrite L. apply drop_two_length. now rewrite repeat_length.
Qed.
Print Assumptions C30_diag_index_meaning.
Theorem C30_diagonal_panics : forall b n bc a off k1 k2 r, chain b n bc a ->
  nd_offset_diagonal_along a off k1 k2 = Ok r ->
  let nd := Z.of_nat (length (a_shape a)) in
  (- nd <= k1 < nd /\ - nd <= k2 < nd /\ k1 mod nd <> k2 mod nd)%Z /\
  ((0 <= off)%Z -> (off < Z.of_nat (nth (Z.to_nat (k2 mod nd)) (a_shape a) 0%nat))%Z) /\
  ((off < 0)%Z -> (- off < Z.of_nat (nth (Z.to_nat (k1 mod nd)) (a_shape a) 0%nat))%Z).
Proof.
  intros b n bc a off k1 k2 r C E nd. pose proof (i_wf _ _ _ _ (chain_inv _ _ _ _ C)) as W.
  destruct (diagonal_inv_args _ _ _ _ _ W E) as (i & j & Ei & Ej & NE & O1 & O2 & _).
  apply as_absolute_inv in Ei as (Bi & Mi & Ri), Ej as (Bj & Mj & Rj). fold nd in Mi, Mj, Ri, Rj.
  rewrite <- Mi, <- Mj, !Nat2Z.id. repeat split; auto; try lia.
Qed.
Print Assumptions C30_diagonal_panics.
Example C30_ex : exists r, nd_offset_diagonal_along ex23 1 0 (-1) = Ok r /\ elems exh r = Ok [11; 15].
Proof. eexists. split; [vm_compute; reflexivity|reflexivity]. Qed.

(** ** C42 contiguity information.  Missing: broadcast views (refuted). *)
Theorem C42_flags_truthful_partial : forall b n a, chain b n false a ->
  (f_contig (a_fl a) = true -> forall idx, in_range idx (a_shape a) -> dot idx (a_stride a) = rank idx (a_shape a)) /\
  (forall s, nd_has_uniform_stride a = Ok (Some s) ->
     forall idx, in_range idx (a_shape a) -> dot idx (a_stride a) = s * rank idx (a_shape a)) /\
  (forall T (h : heap T), live h b n -> nd_data_slice h a = if f_contig (a_fl a) then elems h a else Panic).
Proof.
  intros b n a C. destruct (chain_tight _ _ _ C) as (TI & NB & F & W). split; [|split].
  - intros CT idx R. now apply contig_dot.
  - intros s E idx R. rewrite (nd_has_uniform_stride_ok _ _ _ C) in E. destruct (f_unif (a_fl a)); [|discriminate].
    injection E as E. rewrite (uniform_dot (a_shape a) (a_stride a) s idx (eq_sym W) NB E R). lia.
  - intros T h LV. apply nd_data_slice_eq; auto. eapply chain_valid; eauto.
Qed.
Print Assumptions C42_flags_truthful_partial.
Example C42_ex : exists r, nd_slice_along ex23 (-1) (IUsize 1) = Ok r /\ nd_has_uniform_stride r = Ok (Some 3) /\ f_contig (a_fl r) = false.
Proof. eexists. split; [vm_compute; reflexivity|]. split; reflexivity. Qed.
Theorem C42_broadcast_flags_refuted : exists a, chain 0 6 true a /\ live exh 0 6 /\
  f_contig (a_fl a) = true /\ nd_has_uniform_stride a = Ok (Some 0) /\
  in_range [1; 1] (a_shape a) /\ dot [1; 1] (a_stride a) <> rank [1; 1] (a_shape a) /\
  nd_data_slice exh a = Oob.
Proof.
  exists exb. split; [apply exb_chain|]. split; [apply exh_live|]. repeat split; try reflexivity.
  - repeat constructor.
  - discriminate.
Qed.
Print Assumptions C42_broadcast_flags_refuted.

(** ** C43 axes *)
Theorem C43_axes : forall axis nd,
  ((- Z.of_nat nd <= axis < Z.of_nat nd)%Z -> as_absolute axis nd = Ok (Z.to_nat (axis mod Z.of_nat nd))) /\
  (~ (- Z.of_nat nd <= axis < Z.of_nat nd)%Z -> as_absolute axis nd = Panic).
Proof. intros axis nd. split; [apply as_absolute_ok|]. intros H. apply as_absolute_panic. lia. Qed.
Print Assumptions C43_axes.
Example C43_ex : as_absolute (-1) 3 = Ok 2 /\ as_absolute (-4) 3 = Panic /\ as_absolute 3 3 = Panic.
Proof. repeat split. Qed.
