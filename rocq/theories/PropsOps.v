(** PropsOps.v: properties of the elementwise operators, compound assignment, fill,
    copies, comparison, conversion and element access. *)
From Coq Require Import List Arith Lia Bool ZArith.
From Verif Require Import Base Spec Layout SpecFacts LayoutFacts Views ViewsFacts ViewsFacts2 ViewsFacts3
  Kernels Access HeapFacts KernelFacts OpFacts AccessFacts Chain ChainFacts ViewsFacts4 PropsViews.
Import ListNotations.
Open Scope res_scope.

(** everything that existed before is unchanged *)
Definition extends {T} (h h' : heap T) : Prop :=
  length h <= length h' /\ forall b o, b < length h -> load h' b o = load h b o.

Lemma extends_app {T} (h h2 : heap T) : extends h (h ++ h2).
Proof. split; [rewrite app_length; lia|]. intros. now apply load_app_old. Qed.

(** one block is added and everything that existed before is unchanged *)
Definition grows {T} (h h' : heap T) : Prop :=
  length h' = S (length h) /\ forall b o, b < length h -> load h' b o = load h b o.

Lemma grows_app {T} (h : heap T) x : grows h (h ++ [x]).
Proof. split; [rewrite app_length; cbn; lia|]. intros. now apply load_app_old. Qed.
Lemma grows_extends {T} (h h' : heap T) : grows h h' -> extends h h'.
Proof. intros [L E]. split; [lia|exact E]. Qed.

(** a result of an operator: new block, shape sh, row-major, elements given by [val] *)
Definition fresh_result {T} (h h' : heap T) (r : arr) (sh : list nat) (val : list nat -> res T) : Prop :=
  grows h h' /\ r = fresh_arr (length h) (prod sh) sh /\ a_shape r = sh /\ valid h' r /\ chain (length h) (prod sh) false r /\
  live h' (length h) (prod sh) /\
  forall idx, in_range idx sh -> get h' r idx = val idx.

Lemma fresh_result_ext {T} (h h' : heap T) r sh v w : (forall idx, in_range idx sh -> v idx = w idx) ->
  fresh_result h h' r sh v -> fresh_result h h' r sh w.
Proof. intros E (H1 & H2 & H3 & H4 & H5 & H6 & H7). repeat (split; [assumption|]). intros idx I. rewrite <- E by exact I. auto. Qed.

Lemma fresh_result_of {T} (h : heap T) sh (val : list nat -> res T) vs : 0 < prod sh ->
  mapM val (indices sh) = Ok vs ->
  fresh_result h (h ++ [Some vs]) (fresh_arr (length h) (prod sh) sh) sh val.
Proof.
  intros P E. assert (L : length vs = prod sh) by (apply mapM_length in E; now rewrite indices_length in E).
  split; [apply grows_app|]. split; [reflexivity|]. split; [reflexivity|]. split; [now apply fresh_valid|].
  split; [now apply Ch_new|]. split; [exists vs; split; [rewrite nth_error_app2 by lia; now rewrite Nat.sub_diag|exact L]|].
  intros idx R. destruct (fresh_get h sh vs (prod sh) idx L R) as (v & N & ->).
  destruct (mapM_nth _ _ _ _ _ E (nth_indices_rank _ _ R)) as (v' & N' & ->). congruence.
Qed.

Lemma mapM_panics {A B} (f : A -> res B) l x : In x l -> f x = Panic -> (forall y, In y l -> f y <> Oob) -> mapM f l = Panic.
Proof.
  induction l as [|y l IH]; [intros []|]. intros [->|I] P N; cbn [mapM].
  - now rewrite P.
  - destruct (f y) eqn:E; cbn [bind]; [|reflexivity|exfalso; exact (N y (or_introl eq_refl) E)].
    rewrite IH; auto. intros z Z. apply N. now right.
Qed.

Lemma valid_get_bidx {T} (h : heap T) a sh idx : valid h a -> broadcastable (a_shape a) sh -> in_range idx sh ->
  exists v, get h a (bidx (a_shape a) idx) = Ok v.
Proof.
  intros V BR R. destruct (nd_broadcast_to_ok a sh (proj1 V) BR) as (r & _ & SH & (_ & _ & VV) & _).
  rewrite <- SH in R. apply V. now apply VV.
Qed.

(** ** C12 binary operators *)
Theorem C12_binary : forall T (f : T -> T -> res T) dflt (h : heap T) a b sh,
  valid h a -> valid h b -> join_shape (a_shape a) (a_shape b) sh -> length sh <= MAX_DIMS -> 0 < prod sh ->
  let val idx := x <- get h a (bidx (a_shape a) idx) ;; y <- get h b (bidx (a_shape b) idx) ;; f x y in
  ((forall idx, in_range idx sh -> exists v, val idx = Ok v) ->
     exists h' r, nd_binary f dflt h a b = Ok (h', r) /\ fresh_result h h' r sh val) /\
  ((exists idx, in_range idx sh /\ val idx = Panic) -> (forall x y, f x y <> Oob) -> nd_binary f dflt h a b = Panic).
Proof.
  intros T f dflt h a b sh Va Vb J MD P val. rewrite (nd_binary_eq f dflt h a b sh Va Vb J MD). fold val. split.
  - intros H. destruct (mapM_Ok val (indices sh)) as (vs & E).
    { intros idx I. apply H. now apply in_indices. }
    rewrite E. cbn [bind]. eexists _, _. split; [reflexivity|]. now apply fresh_result_of.
  - intros (idx & R & Q) NO. rewrite (mapM_panics val (indices sh) idx); auto; [now apply in_indices|].
    intros j I. apply in_indices in I. unfold val.
    destruct (valid_get_bidx h a sh j Va (join_shape_broadcastable_l _ _ _ J) I) as (x & ->).
    destruct (valid_get_bidx h b sh j Vb (join_shape_broadcastable_r _ _ _ J) I) as (y & ->). cbn [bind]. apply NO.
Qed.
Print Assumptions C12_binary.
Theorem C12_incompatible_shapes_panic : forall T (f : T -> T -> res T) dflt (h : heap T) a b,
  (exists k, ~ dim_compat (dim_r (a_shape a) k) (dim_r (a_shape b) k)) -> nd_binary f dflt h a b = Panic.
Proof. exact @nd_binary_panic. Qed.
Print Assumptions C12_incompatible_shapes_panic.
Example C12_ex : exists h' r, nd_binary (fun x y => csub x y) 0 exh ex32 (mkArr 0 0 2 2 [2] [1] (mkFlags true true true true true false)) = Ok (h', r) /\
  a_shape r = [3; 2] /\ elems h' r = Ok [0; 2; 1; 3; 2; 4].
Proof. eexists _, _. split; [vm_compute; reflexivity|]. split; reflexivity. Qed.
Example C12_ex_hyp : valid exh ex32 /\ valid exh exb /\ join_shape [4; 3] [3] [4; 3].
Proof.
  split; [apply (chain_valid _ _ _ _ _ exh_live ex32_chain)|]. split; [apply (chain_valid _ _ _ _ _ exh_live exb_chain)|].
  apply broadcast_shapes_ok_iff. reflexivity.
Qed.

(** ** C13 scalar operators, negation, conversion *)
Theorem C13_scalar_op : forall T (f : T -> T -> res T) dflt (h : heap T) a c,
  valid h a -> length (a_shape a) <= MAX_DIMS -> 0 < prod (a_shape a) ->
  let val idx := x <- get h a idx ;; f x c in
  ((forall idx, in_range idx (a_shape a) -> exists v, val idx = Ok v) ->
     exists h' r, nd_scalar_op f dflt h a c = Ok (h', r) /\ fresh_result h h' r (a_shape a) val) /\
  ((exists idx, in_range idx (a_shape a) /\ val idx = Panic) -> (forall x y, f x y <> Oob) -> nd_scalar_op f dflt h a c = Panic).
Proof.
  intros T f dflt h a c V MD P val. rewrite (nd_scalar_op_eq f dflt h a c V MD). fold val. split.
  - intros H. destruct (mapM_Ok val (indices (a_shape a))) as (vs & E).
    { intros idx I. apply H. now apply in_indices. }
    rewrite E. cbn [bind]. eexists _, _. split; [reflexivity|]. now apply fresh_result_of.
  - intros (idx & R & Q) NO. rewrite (mapM_panics val _ idx); auto; [now apply in_indices|].
    intros j I. apply in_indices in I. unfold val. destruct (proj2 V j I) as (x & ->). apply NO.
Qed.
Print Assumptions C13_scalar_op.
Example C13_ex : exists h' r, nd_scalar_op (fun x y => csub x y) 0 exh ex32 10 = Ok (h', r) /\ elems h' r = Ok [0; 3; 1; 4; 2; 5].
Proof. eexists _, _. split; [vm_compute; reflexivity|reflexivity]. Qed.
Theorem C13_negation : forall T (g : T -> res T) dflt (h : heap T) a,
  valid h a -> length (a_shape a) <= MAX_DIMS -> 0 < prod (a_shape a) ->
  let val idx := x <- get h a idx ;; g x in
  ((forall idx, in_range idx (a_shape a) -> exists v, val idx = Ok v) ->
     exists h' r, nd_unary g dflt h a = Ok (h', r) /\ fresh_result h h' r (a_shape a) val) /\
  ((exists idx, in_range idx (a_shape a) /\ val idx = Panic) -> (forall x, g x <> Oob) -> nd_unary g dflt h a = Panic).
Proof.
  intros T g dflt h a V MD P val. rewrite (nd_unary_eq dflt g h a V MD). fold val. split.
  - intros H. destruct (mapM_Ok val (indices (a_shape a))) as (vs & E).
    { intros idx I. apply H. now apply in_indices. }
    rewrite E. cbn [bind]. eexists _, _. split; [reflexivity|]. now apply fresh_result_of.
  - intros (idx & R & Q) NO. rewrite (mapM_panics val _ idx); auto; [now apply in_indices|].
    intros j I. apply in_indices in I. unfold val. destruct (proj2 V j I) as (x & ->). apply NO.
Qed.
Print Assumptions C13_negation.
Example C13_ex2 : exists h' r, nd_unary (fun x => csub 20 x) 0 exh exb = Ok (h', r) /\ a_shape r = [4; 3] /\ get h' r [3; 1] = Ok 9.
Proof. eexists _, _. split; [vm_compute; reflexivity|]. split; reflexivity. Qed.
(** astype: the same with a conversion into another element type *)
Theorem C13_astype : forall T F (conv : T -> res F) (h : heap T) (hF : heap F) a,
  valid h a -> length (a_shape a) <= MAX_DIMS -> 0 < prod (a_shape a) ->
  let val idx := x <- get h a idx ;; conv x in
  (forall idx, in_range idx (a_shape a) -> exists v, val idx = Ok v) ->
  exists h' r, nd_astype conv h hF a = Ok (h', r) /\ fresh_result hF h' r (a_shape a) val.
Proof.
  intros T F conv h hF a V MD P val H. rewrite (nd_astype_eq conv h hF a V MD). fold val.
  destruct (mapM_Ok val (indices (a_shape a))) as (vs & E).
  { intros idx I. apply H. now apply in_indices. }
  rewrite E. cbn [bind]. eexists _, _. split; [reflexivity|]. now apply fresh_result_of.
Qed.
Print Assumptions C13_astype.

(** ** C14 compound assignment.  Full statement: for EVERY writeable a.  Proved for
    contiguous a and for right-hand sides that do not feed back (no element of b is
    an element of a that was already overwritten); both restrictions are needed, see
    the two refutations. *)
Theorem C14_assign_partial : forall T (f : T -> T -> res T) (h : heap T) blk n a b,
  live h blk n -> chain blk n false a -> valid h b -> f_contig (a_fl a) = true ->
  broadcastable (a_shape b) (a_shape a) -> length (a_shape a) <= MAX_DIMS -> no_feedback a b ->
  (forall idx, in_range idx (a_shape a) -> exists v,
     (x <- get h a idx ;; y <- get h b (bidx (a_shape b) idx) ;; f x y) = Ok v) ->
  exists h', nd_assign f h a b = Ok h' /\
    (forall idx, in_range idx (a_shape a) ->
       get h' a idx = (x <- get h a idx ;; y <- get h b (bidx (a_shape b) idx) ;; f x y)) /\
    same_elsewhere h h' (cell_of a).
Proof.
  intros T f h blk n a b LV C Vb CT BR MD NF H. pose proof (chain_inv _ _ _ _ C) as I.
  destruct (chain_tight _ _ _ C) as (_ & NB & F & W).
  pose proof (nd_assign_ok f h a b (chain_valid _ _ _ _ _ LV C) Vb F NB CT (i_wr _ _ _ _ I) BR MD NF) as A.
  unfold assign_values in A. destruct (mapM_Ok (fun idx => x <- get h a idx ;; y <- get h b (bidx (a_shape b) idx) ;; f x y) (indices (a_shape a))) as (vs & E).
  { intros idx J. apply H. now apply in_indices. }
  rewrite E in A. destruct A as (h' & Eq & EL & SE). exists h'. split; [exact Eq|]. split; [|exact SE].
  intros idx R. destruct (nth_error_of_indices_get _ _ _ _ EL R) as (y & N & ->).
  destruct (mapM_nth _ _ _ _ _ E (nth_indices_rank _ _ R)) as (v' & N' & ->). congruence.
Qed.
Print Assumptions C14_assign_partial.
(** right-hand sides in another allocation, and a itself, never feed back *)
Theorem C14_no_feedback : forall blk n a b, chain blk n false a ->
  a_blk b <> a_blk a \/ b = a -> no_feedback a b.
Proof.
  intros blk n a b C [D| ->] i j Ri Rj B Q; [congruence|].
  rewrite bidx_same in Q by exact Rj. apply chain_inv in C. destruct (i_nb _ _ _ _ C eq_refl) as (_ & _ & DI & _).
  rewrite (DI j i Rj Ri) by lia. lia.
Qed.
Print Assumptions C14_no_feedback.
Example C14_ex : exists h', nd_assign (fun x y => Ok (x + y)) exh ex23 (fresh_arr 0 3 [3]) = Ok h' /\ elems h' ex23 = Ok [20; 22; 24; 33; 36; 39].
Proof. eexists. split; [vm_compute; reflexivity|reflexivity]. Qed.
Theorem C14_assign_scalar_partial : forall T (f : T -> T -> res T) (h : heap T) blk n a c,
  live h blk n -> chain blk n false a -> f_contig (a_fl a) = true -> length (a_shape a) <= MAX_DIMS ->
  (forall idx, in_range idx (a_shape a) -> exists v, (x <- get h a idx ;; f x c) = Ok v) ->
  exists h', nd_assign_scalar f h a c = Ok h' /\
    (forall idx, in_range idx (a_shape a) -> get h' a idx = (x <- get h a idx ;; f x c)) /\
    same_elsewhere h h' (cell_of a).
Proof.
  intros T f h blk n a c LV C CT MD H. pose proof (chain_inv _ _ _ _ C) as I.
  destruct (chain_tight _ _ _ C) as (_ & NB & F & W).
  pose proof (nd_assign_scalar_ok f h a c (chain_valid _ _ _ _ _ LV C) F NB CT (i_wr _ _ _ _ I) MD) as A.
  destruct (mapM_Ok (fun idx => x <- get h a idx ;; f x c) (indices (a_shape a))) as (vs & E).
  { intros idx J. apply H. now apply in_indices. }
  rewrite E in A. destruct A as (h' & Eq & EL & SE). exists h'. split; [exact Eq|]. split; [|exact SE].
  intros idx R. destruct (nth_error_of_indices_get _ _ _ _ EL R) as (y & N & ->).
  destruct (mapM_nth _ _ _ _ _ E (nth_indices_rank _ _ R)) as (v' & N' & ->). congruence.
Qed.
Print Assumptions C14_assign_scalar_partial.
Example C14_ex2 : exists h', nd_assign_scalar (fun x y => Ok (x * y)) exh ex23 2 = Ok h' /\ elems h' ex23 = Ok [20; 22; 24; 26; 28; 30].
Proof. eexists. split; [vm_compute; reflexivity|reflexivity]. Qed.
(** shapes that do not broadcast to the left side panic *)
Theorem C14_assign_shape_panics : forall T (f : T -> T -> res T) (h : heap T) a b,
  ~ broadcastable (a_shape b) (a_shape a) -> nd_assign f h a b = Panic.
Proof. exact @nd_assign_panic_shape. Qed.
Print Assumptions C14_assign_shape_panics.

(** first column of a 2x3 array += 1: writes cell 1, which is not an element, and not cell 3, which is *)
Theorem C14_strided_refuted : exists a h', chain 0 6 false a /\ live exh 0 6 /\ elems exh a = Ok [10; 13] /\
  nd_assign_scalar (fun x y => Ok (x + y)) exh a 1 = Ok h' /\
  elems h' a = Ok [11; 13] /\ load h' 0 1 = Ok 14 /\ load exh 0 1 = Ok 11 /\ ~ cell_of a 0 1.
Proof.
  destruct (nd_slice_along ex23 1 (IUsize 0)) as [r1| |] eqn:E1; try discriminate.
  exists r1. eexists. split; [|split].
  - eapply (Ch_slice_along 0 6 false ex23 1 1 (IUsize 0)); [apply ex23_chain|reflexivity|cbn; lia|exact E1].
  - apply exh_live.
  - vm_compute in E1. injection E1 as <-. split; [reflexivity|]. split; [vm_compute; reflexivity|].
    repeat (split; [reflexivity|]). intros (idx & R & _ & Q). inversion R as [|i ? idx' ? H R']; subst. inversion R'; subst.
    cbn in Q. lia.
Qed.
Print Assumptions C14_strided_refuted.

(** x[1..] += x[..5]: every element should be old+old, later ones see updated values *)
Theorem C14_overlap_refuted : exists a b h', chain 0 6 false a /\ chain 0 6 false b /\ live exh 0 6 /\
  f_contig (a_fl a) = true /\ elems exh a = Ok [11; 12; 13; 14; 15] /\ elems exh b = Ok [10; 11; 12; 13; 14] /\
  nd_assign (fun x y => Ok (x + y)) exh a b = Ok h' /\ elems h' a = Ok [21; 33; 46; 60; 75].
Proof.
  destruct (nd_slice (fresh_arr 0 6 [6]) [IFrom 1]) as [r1| |] eqn:E1; try discriminate.
  destruct (nd_slice (fresh_arr 0 6 [6]) [ITo 5]) as [r2| |] eqn:E2; try discriminate.
  exists r1, r2. eexists. split; [|split; [|split]].
  - eapply (Ch_slice 0 6 false (fresh_arr 0 6 [6])); [apply Ch_new; cbn; lia| |exact E1]. split; [cbn; lia|repeat constructor].
  - eapply (Ch_slice 0 6 false (fresh_arr 0 6 [6])); [apply Ch_new; cbn; lia| |exact E2]. split; [cbn; lia|repeat constructor].
  - apply exh_live.
  - vm_compute in E1. injection E1 as <-. vm_compute in E2. injection E2 as <-.
    do 3 (split; [reflexivity|]). split; [vm_compute; reflexivity|reflexivity].
Qed.
Print Assumptions C14_overlap_refuted.

(** ** C15 read-only views.  The operators check the flag; fill and element assignment do not. *)
Theorem C15_assign_readonly_partial : forall T (f : T -> T -> res T) (h : heap T) blk n a,
  chain blk n true a -> (forall b, nd_assign f h a b = Panic) /\ (forall c, nd_assign_scalar f h a c = Panic).
Proof.
  intros T f h blk n a C. apply chain_inv in C. pose proof (i_wr _ _ _ _ C) as W. cbn in W.
  split; intros; unfold nd_assign, nd_assign_scalar; now rewrite W.
Qed.
Print Assumptions C15_assign_readonly_partial.
Theorem C15_fill_readonly_refuted : exists a h', chain 0 6 true a /\ live exh 0 6 /\ nd_fill exh a 99 = Ok h' /\ load h' 0 4 = Ok 99 /\ load exh 0 4 = Ok 14.
Proof.
  destruct (nd_slice_along ex23 1 (IUsize 1)) as [r1| |] eqn:E1; try discriminate.
  destruct (nd_broadcast_to r1 [2]) as [r2| |] eqn:E2; [|vm_compute in E1; injection E1 as <-; discriminate..].
  exists r2. eexists. split.
  - eapply (Ch_broadcast 0 6 false); [|exact E2].
    eapply (Ch_slice_along 0 6 false ex23 1 1 (IUsize 1)); [apply ex23_chain|reflexivity|cbn; lia|exact E1].
  - vm_compute in E1. injection E1 as <-. vm_compute in E2. injection E2 as <-. split; [apply exh_live|].
    split; [vm_compute; reflexivity|]. split; reflexivity.
Qed.
Print Assumptions C15_fill_readonly_refuted.
Theorem C15_index_set_readonly_refuted : exists a h', chain 0 6 true a /\ live exh 0 6 /\
  nd_index_set exh a [2; 1] 99 = Ok h' /\ get h' a [0; 1] = Ok 99 /\ get exh a [0; 1] = Ok 11.
Proof.
  exists exb. eexists. split; [apply exb_chain|]. split; [apply exh_live|]. split; [vm_compute; reflexivity|]. split; reflexivity.
Qed.
Print Assumptions C15_index_set_readonly_refuted.
(** fill on a row broadcast to 4x3 even writes outside the row *)
Theorem C15_fill_outside_refuted : exists a h', chain 0 6 true a /\ live exh 0 6 /\
  nd_fill (exh ++ [Some [0]]) a 99 = Oob /\ nd_fill [Some (seq 0 20)] a 99 = Ok h' /\ load h' 0 11 = Ok 99 /\ ~ cell_of a 0 11.
Proof.
  exists exb. eexists. split; [apply exb_chain|]. split; [apply exh_live|]. split; [reflexivity|]. split; [vm_compute; reflexivity|].
  split; [reflexivity|]. intros (idx & R & _ & Q).
  inversion R as [|i ? idx' ? H R']; subst. inversion R' as [|j ? idx2 ? H2 R2]; subst. inversion R2; subst. cbn in Q, H, H2. lia.
Qed.
Print Assumptions C15_fill_outside_refuted.

(** ** C16 fill and zero.  Full statement: for every view.  Proved for every view that is
    not broadcast; refuted for broadcast ones. *)
Theorem C16_fill_partial : forall T (h : heap T) blk n a v, live h blk n -> chain blk n false a ->
  exists h', nd_fill h a v = Ok h' /\
    (forall idx, in_range idx (a_shape a) -> get h' a idx = Ok v) /\ same_elsewhere h h' (cell_of a).
Proof.
  intros T h blk n a v LV C. destruct (chain_tight _ _ _ C) as (TI & NB & F & W).
  pose proof (chain_inv _ _ _ _ C) as I. destruct (i_nb _ _ _ _ I eq_refl) as (P & NZ & _).
  apply nd_fill_ok; [eapply chain_valid; eauto|exact NZ|]. intros U. apply TI. now apply uniform1_contig.
Qed.
Print Assumptions C16_fill_partial.
Example C16_ex : exists r h', nd_slice ex23 [IFull; IFrom 1] = Ok r /\ nd_fill exh r 0 = Ok h' /\ h' = [Some [10; 0; 0; 13; 0; 0]].
Proof. eexists _, _. split; [vm_compute; reflexivity|]. split; vm_compute; reflexivity. Qed.

(** [2,1,3] broadcast to [2,2,3], then fill: no element is written *)
Theorem C16_fill_broadcast_refuted : exists a, chain 0 6 true a /\ live exh 0 6 /\
  a_shape a = [2; 2; 3] /\ nd_fill exh a 99 = Ok exh /\ get exh a [0; 0; 0] = Ok 10.
Proof.
  destruct (nd_broadcast_to (fresh_arr 0 6 [2; 1; 3]) [2; 2; 3]) as [r1| |] eqn:E1; try discriminate.
  exists r1. split; [|split].
  - eapply (Ch_broadcast 0 6 false (fresh_arr 0 6 [2; 1; 3])); [apply Ch_new; cbn; lia|exact E1].
  - apply exh_live.
  - vm_compute in E1. injection E1 as <-. split; [reflexivity|]. split; reflexivity.
Qed.
Print Assumptions C16_fill_broadcast_refuted.

(** ** C17 clone and flatten.  Missing: broadcast views flagged contiguous (refuted). *)
Theorem C17_clone_partial : forall T (h : heap T) blk n bc a, live h blk n -> chain blk n bc a ->
  bc = false \/ f_contig (a_fl a) = false -> length (a_shape a) <= MAX_DIMS -> 0 < prod (a_shape a) ->
  exists h' r r', nd_clone h a = Ok (h', r) /\ fresh_result h h' r (a_shape a) (get h a) /\ elems h' r = elems h a /\
    nd_flatten h a = Ok (h', r') /\ fresh_result h h' r' [prod (a_shape a)] (fun idx => get h a (unrank (rank idx [prod (a_shape a)]) (a_shape a))) /\
    elems h' r' = elems h a.
Proof.
  intros T h blk n bc a LV C D MD P. pose proof (chain_valid _ _ _ _ _ LV C) as V.
  assert (A : flags_ok a /\ tight a /\ (f_contig (a_fl a) = true -> no_bcast (a_shape a) (a_stride a))).
  { destruct D as [-> | D]; [destruct (chain_tight _ _ _ C) as (? & ? & ? & ?); auto|].
    split; [apply (i_fl _ _ _ _ (chain_inv _ _ _ _ C))|]. split; [intros Q|intros Q]; congruence. }
  destruct A as (F & TI & NB). destruct (nd_clone_ok h a V F TI NB MD) as (vs & E & L & -> & ->).
  eexists _, _, _. split; [reflexivity|].
  assert (P1 : prod [prod (a_shape a)] = prod (a_shape a)) by (cbn; lia).
  split; [now apply fresh_result_of|]. split; [rewrite fresh_elems; auto|]. split; [reflexivity|]. split.
  - pose proof (fresh_result_of h [prod (a_shape a)] (fun idx => get h a (unrank (rank idx [prod (a_shape a)]) (a_shape a))) vs) as FR.
    rewrite P1 in FR. apply FR; [exact P|]. transitivity (mapM (get h a) (map (fun idx => unrank (rank idx [prod (a_shape a)]) (a_shape a)) (indices [prod (a_shape a)]))).
    { symmetry. apply mapM_map. }
    replace (map _ _) with (indices (a_shape a)); [exact E|].
    apply (nth_ext _ _ [] []); [now rewrite map_length, !indices_length|]. rewrite indices_length. intros k K.
    set (g := fun idx => unrank (rank idx [prod (a_shape a)]) (a_shape a)).
    assert (IR : in_range [k] [prod (a_shape a)]) by (repeat constructor; exact K).
    pose proof (nth_indices_rank _ _ IR) as N. cbn [rank] in N. change (prod []) with 1 in N. rewrite Nat.mul_1_r, Nat.add_0_r in N.
    rewrite (nth_error_nth (map g _) k (x := g [k]) []); [|now apply map_nth_error]. unfold g, unrank. cbn [rank].
    change (prod []) with 1. now rewrite Nat.mul_1_r, Nat.add_0_r.
  - rewrite fresh_elems; [auto|]. now rewrite P1.
Qed.
Print Assumptions C17_clone_partial.
Example C17_ex : exists h' r, nd_clone exh ex32 = Ok (h', r) /\ h' = exh ++ [Some [10; 13; 11; 14; 12; 15]].
Proof. eexists _, _. split; vm_compute; reflexivity. Qed.
Theorem C17_clone_broadcast_refuted : exists a, chain 0 6 true a /\ live exh 0 6 /\
  (exists vs, elems exh a = Ok vs) /\ nd_clone exh a = Oob /\ nd_flatten exh a = Oob.
Proof.
  exists exb. split; [apply exb_chain|]. split; [apply exh_live|]. split; [|split; reflexivity].
  eexists. vm_compute. reflexivity.
Qed.
Print Assumptions C17_clone_broadcast_refuted.
(** with a longer buffer the clone silently has other elements *)
Theorem C17_clone_broadcast_wrong_refuted : exists a h' r, let h := [Some (seq 0 12)] in chain 0 12 true a /\ live h 0 12 /\
  nd_clone h a = Ok (h', r) /\ elems h a = Ok [0; 1; 2; 0; 1; 2] /\ elems h' r = Ok [0; 1; 2; 3; 4; 5].
Proof.
  destruct (nd_slice (fresh_arr 0 12 [12]) [ITo 3]) as [r1| |] eqn:E1; try discriminate.
  destruct (nd_broadcast_to r1 [2; 3]) as [r2| |] eqn:E2; [|vm_compute in E1; injection E1 as <-; discriminate..].
  exists r2. eexists _, _. split; [|split].
  - eapply (Ch_broadcast 0 12 false); [|exact E2].
    eapply (Ch_slice 0 12 false (fresh_arr 0 12 [12])); [apply Ch_new; cbn; lia| |exact E1]. split; [cbn; lia|repeat constructor].
  - eexists; split; reflexivity.
  - vm_compute in E1. injection E1 as <-. vm_compute in E2. injection E2 as <-.
    split; [vm_compute; reflexivity|]. split; reflexivity.
Qed.
Print Assumptions C17_clone_broadcast_wrong_refuted.

(** ** C18 equality *)
Theorem C18_equality : forall T (eqb : T -> T -> bool) (h : heap T) a b,
  valid h a -> valid h b -> length (a_shape a) <= MAX_DIMS ->
  exists r, nd_eq eqb h a b = Ok r /\
    (r = true <-> a_shape a = a_shape b /\
       forall idx, in_range idx (a_shape a) -> exists x y, get h a idx = Ok x /\ get h b idx = Ok y /\ eqb x y = true).
Proof. exact @nd_eq_ok. Qed.
Print Assumptions C18_equality.
Example C18_ex : nd_eq Nat.eqb exh ex32 ex32 = Ok true /\ nd_eq Nat.eqb exh ex23 ex32 = Ok false /\
  nd_eq Nat.eqb (exh ++ [Some [10; 13; 11; 14; 12; 15]]) ex32 (fresh_arr 1 6 [3; 2]) = Ok true.
Proof. repeat split; vm_compute; reflexivity. Qed.
Theorem C18_equivalence : forall T (eqb : T -> T -> bool) (h : heap T),
  (forall x, eqb x x = true) -> (forall x y, eqb x y = true -> eqb y x = true) ->
  (forall x y z, eqb x y = true -> eqb y z = true -> eqb x z = true) ->
  forall a b c, valid h a -> valid h b -> valid h c -> length (a_shape a) <= MAX_DIMS ->
  length (a_shape b) <= MAX_DIMS ->
  nd_eq eqb h a a = Ok true /\ (nd_eq eqb h a b = Ok true -> nd_eq eqb h b a = Ok true) /\
  (nd_eq eqb h a b = Ok true -> nd_eq eqb h b c = Ok true -> nd_eq eqb h a c = Ok true).
Proof.
  intros T eqb h Re Sy Tr a b c Va Vb Vc Ma Mb.
  assert (K : forall a b, valid h a -> valid h b -> length (a_shape a) <= MAX_DIMS ->
     (nd_eq eqb h a b = Ok true <-> a_shape a = a_shape b /\
       forall idx, in_range idx (a_shape a) -> exists x y, get h a idx = Ok x /\ get h b idx = Ok y /\ eqb x y = true)).
  { clear. intros a b Va Vb M. destruct (nd_eq_ok eqb h a b Va Vb M) as (r & -> & H). rewrite <- H.
    split; [congruence|intros ->; reflexivity]. }
  split; [|split].
  - apply K; auto. split; [reflexivity|]. intros idx R. destruct (proj2 Va idx R) as (x & E). exists x, x. auto.
  - intros E. apply K in E; auto. destruct E as [S E]. apply K; auto. split; [auto|]. intros idx R. rewrite <- S in R.
    destruct (E idx R) as (x & y & ? & ? & ?). exists y, x. auto.
  - intros E1 E2. apply K in E1, E2; auto. destruct E1 as [S1 E1], E2 as [S2 E2]. apply K; auto. split; [congruence|].
    intros idx R. destruct (E1 idx R) as (x & y & Gx & Gy & Q). rewrite S1 in R. destruct (E2 idx R) as (y' & z & Gy' & Gz & Q').
    assert (y' = y) by congruence. subst y'. exists x, z. eauto.
Qed.
Print Assumptions C18_equivalence.

(** ** C23 reading an element.  Missing: non-contiguous views whose recorded length is
    shorter than their address range (refuted). *)
Theorem C23_index_partial : forall T (h : heap T) blk n a idx, live h blk n -> chain blk n false a ->
  f_contig (a_fl a) = true -> in_range idx (a_shape a) -> nd_index h a idx = get h a idx /\ exists v, get h a idx = Ok v.
Proof.
  intros T h blk n a idx LV C CT R. split; [apply nd_index_eq; [exact R|]; now apply (chain_covers _ _ _ C)|].
  now apply (chain_valid _ _ _ _ _ LV C).
Qed.
Print Assumptions C23_index_partial.
(** results of in-range slicing are indexable even when they are not contiguous *)
Theorem C23_index_slice_partial : forall T (h : heap T) blk n a ixs r idx, live h blk n -> chain blk n false a ->
  slice_ok ixs (a_shape a) -> nd_slice a ixs = Ok r -> in_range idx (a_shape r) ->
  nd_index h r idx = get h a (pick_index (regions ixs (a_shape a)) idx).
Proof.
  intros T h blk n a ixs r idx LV C OK E R. pose proof (i_wf _ _ _ _ (chain_inv _ _ _ _ C)) as W.
  destruct (slice_views _ _ _ W OK E) as (SH & (VB & _ & V) & _ & _ & _ & _ & CO & _).
  rewrite nd_index_eq by (auto; now apply CO). unfold get. destruct (V idx R) as [_ ->]. now rewrite VB.
Qed.
Print Assumptions C23_index_slice_partial.
Example C23_ex : nd_index exh ex23 [1; 2] = Ok 15.
Proof. reflexivity. Qed.
(** the diagonal of a 3x3 array has 3 elements, strides 4 and length 3: reading [1] panics *)
Theorem C23_diagonal_refuted : exists r, let h := [Some (seq 0 9)] in chain 0 9 false r /\ live h 0 9 /\
  in_range [1] (a_shape r) /\ get h r [1] = Ok 4 /\ nd_index h r [1] = Panic.
Proof.
  destruct (nd_offset_diagonal_along (fresh_arr 0 9 [3; 3]) 0 0 1) as [r1| |] eqn:E1; try discriminate.
  exists r1. split; [|split].
  - eapply (Ch_diagonal 0 9 false (fresh_arr 0 9 [3; 3])); [apply Ch_new; cbn; lia|exact E1].
  - eexists; split; reflexivity.
  - vm_compute in E1. injection E1 as <-. split; [repeat constructor|]. split; reflexivity.
Qed.
Print Assumptions C23_diagonal_refuted.
(** view() of a non-contiguous slice records the element count as its length, too *)
Theorem C23_view_of_slice_refuted : exists r, chain 0 6 false r /\ live exh 0 6 /\
  in_range [1; 1] (a_shape r) /\ get exh r [1; 1] = Ok 15 /\ nd_index exh r [1; 1] = Panic.
Proof.
  destruct (nd_slice ex23 [IFull; IFrom 1]) as [r1| |] eqn:E1; try discriminate.
  exists (nd_view ByRef r1). split; [|split].
  - apply Ch_view. eapply (Ch_slice 0 6 false ex23); [apply ex23_chain| |exact E1]. split; [cbn; lia|repeat constructor].
  - apply exh_live.
  - vm_compute in E1. injection E1 as <-. split; [repeat constructor|]. split; reflexivity.
Qed.
Print Assumptions C23_view_of_slice_refuted.

(** ** C24 invalid indices *)
Theorem C24_index_rejects_partial : forall T (h : heap T) blk n a idx, chain blk n false a ->
  (length idx <> length (a_shape a) -> nd_index h a idx = Panic) /\
  (length (a_shape a) = 1 -> f_contig (a_fl a) = true -> ~ in_range idx (a_shape a) -> nd_index h a idx = Panic) /\
  (length (a_shape a) < length idx -> forall v, nd_index_set h a idx v = Panic).
Proof.
  intros T h blk n a idx C. split; [apply nd_index_rank_panic|]. split.
  - intros L CT NR. destruct (Nat.eq_dec (length idx) (length (a_shape a))) as [E|E]; [|now apply nd_index_rank_panic].
    destruct (chain_tight _ _ _ C) as (TI & NB & F & W). specialize (TI CT).
    destruct (a_shape a) as [|d [|? ?]] eqn:SH; try discriminate. unfold wf in W.
    destruct (a_stride a) as [|s [|? ?]] eqn:ST; rewrite SH in W; try discriminate.
    destruct idx as [|i [|? ?]]; try discriminate. unfold nd_index. rewrite SH, ST. cbn [length Nat.eqb guard bind index_offset].
    assert (d <= i) by (destruct (le_lt_dec d i); [auto|exfalso; apply NR; repeat constructor; auto]).
    assert (PO : 0 < d).
    { pose proof (chain_inv _ _ _ _ C) as I. destruct (i_nb _ _ _ _ I eq_refl) as (P & _). rewrite SH in P. now inversion P. }
    assert (NZ : s <> 0).
    { pose proof (chain_inv _ _ _ _ C) as I. destruct (i_nb _ _ _ _ I eq_refl) as (_ & N & _). rewrite ST in N. now inversion N. }
    destruct (Nat.ltb_spec (i * s + 0) (a_len a)); [|reflexivity]. rewrite TI in *. cbn in *. nia.
  - intros L v. unfold nd_index_set. destruct (Nat.leb_spec (length idx) (length (a_shape a))); [lia|reflexivity].
Qed.
Print Assumptions C24_index_rejects_partial.
Example C24_ex : nd_index exh ex23 [1] = Panic /\ nd_index exh (fresh_arr 0 6 [6]) [6] = Panic.
Proof. split; reflexivity. Qed.
(** [0,5] on a 2x3 array reads element [1,2] *)
Theorem C24_index_refuted : exists a, chain 0 6 false a /\ live exh 0 6 /\ ~ in_range [0; 5] (a_shape a) /\
  nd_index exh a [0; 5] = Ok 15 /\ get exh a [1; 2] = Ok 15.
Proof.
  exists ex23. split; [apply ex23_chain|]. split; [apply exh_live|]. split; [|split; reflexivity].
  intros R. inversion R as [|? ? ? ? _ R2]; subst. inversion R2; subst. lia.
Qed.
Print Assumptions C24_index_refuted.
(** writing with a single index into a 2x3 array is accepted *)
Theorem C24_index_set_refuted : exists a h', chain 0 6 false a /\ live exh 0 6 /\ length [1] <> length (a_shape a) /\
  nd_index_set exh a [1] 99 = Ok h' /\ get h' a [1; 0] = Ok 99.
Proof. exists ex23. eexists. split; [apply ex23_chain|]. split; [apply exh_live|]. split; [discriminate|]. split; vm_compute; reflexivity. Qed.
Print Assumptions C24_index_set_refuted.
(** on a broadcast view an invalid index can even leave the buffer *)
Theorem C24_index_outside_refuted : exists a, chain 0 6 true a /\ live exh 0 6 /\ ~ in_range [0; 7] (a_shape a) /\ nd_index exh a [0; 7] = Oob.
Proof.
  exists exb. split; [apply exb_chain|]. split; [apply exh_live|]. split; [|reflexivity].
  intros R. inversion R as [|? ? ? ? _ R2]; subst. inversion R2; subst. lia.
Qed.
Print Assumptions C24_index_outside_refuted.

(** value(): the element of a one-element array, panic otherwise *)
Theorem C23_value : forall T (h : heap T) a,
  (prod (a_shape a) = 1 -> nd_value h a = get h a (repeat 0 (length (a_shape a)))) /\
  (prod (a_shape a) <> 1 -> nd_value h a = Panic).
Proof. intros T h a. split; [apply nd_value_eq|apply nd_value_panic]. Qed.
Print Assumptions C23_value.

(** ** C44 element writes *)
Theorem C44_write_local : forall T (h : heap T) blk n a idx v, live h blk n -> chain blk n false a ->
  in_range idx (a_shape a) -> dot idx (a_stride a) < a_len a ->
  exists h', nd_index_set h a idx v = Ok h' /\ get h' a idx = Ok v /\
    (forall idx', in_range idx' (a_shape a) -> idx' <> idx -> get h' a idx' = get h a idx') /\
    (forall b o, (b, o) <> (a_blk a, a_off a + dot idx (a_stride a)) -> load h' b o = load h b o).
Proof.
  intros T h blk n a idx v LV C R L.
  destruct (nd_index_set_ok h a idx v (chain_valid _ _ _ _ _ LV C) R L) as (h' & E & G & SE & S).
  assert (O : forall b o, (b, o) <> (a_blk a, a_off a + dot idx (a_stride a)) -> load h' b o = load h b o).
  { intros b o N. apply S. intros [-> ->]. congruence. }
  exists h'. split; [exact E|]. split; [exact G|]. split; [|exact O].
  intros idx' R' N. apply O. intros Q. injection Q as Q. apply N.
  pose proof (chain_inv _ _ _ _ C) as I. destruct (i_nb _ _ _ _ I eq_refl) as (_ & _ & D & _). apply D; auto. lia.
Qed.
Print Assumptions C44_write_local.
(** the length premise holds for every contiguous chain *)
Theorem C44_contiguous_in_length : forall blk n a idx, chain blk n false a -> f_contig (a_fl a) = true ->
  in_range idx (a_shape a) -> dot idx (a_stride a) < a_len a.
Proof. intros blk n a idx C CT. now apply (chain_covers _ _ _ C). Qed.
Print Assumptions C44_contiguous_in_length.
Example C44_ex : nd_index_set exh ex23 [1; 0] 99 = Ok [Some [10; 11; 12; 99; 14; 15]].
Proof. reflexivity. Qed.

(** ** C46 aliasing *)
Theorem C46_views_alias : forall T (h : heap T) blk n r a f idx v, live h blk n -> chain blk n false a -> chain blk n false r ->
  views r a f -> in_range idx (a_shape r) -> dot idx (a_stride r) < a_len r ->
  (exists h', nd_index_set h r idx v = Ok h' /\ get h' a (f idx) = Ok v /\
     forall j, in_range j (a_shape a) -> j <> f idx -> get h' a j = get h a j) /\
  (dot (f idx) (a_stride a) < a_len a ->
   exists h', nd_index_set h a (f idx) v = Ok h' /\ get h' r idx = Ok v).
Proof.
  intros T h blk n r a f idx v LV Ca Cr V R L. pose proof V as (VB & _ & VV). destruct (VV idx R) as [Rf Q]. split.
  - destruct (C44_write_local T h blk n r idx v LV Cr R L) as (h' & E & G & _ & O). exists h'. split; [exact E|].
    split; [unfold get in *; now rewrite <- Q, <- VB|]. intros j Rj N. apply O. intros P. injection P as P1 P2. apply N.
    pose proof (chain_inv _ _ _ _ Ca) as I. destruct (i_nb _ _ _ _ I eq_refl) as (_ & _ & D & _). apply D; auto. lia.
  - intros La. destruct (C44_write_local T h blk n a (f idx) v LV Ca Rf La) as (h' & E & G & _).
    exists h'. split; [exact E|]. unfold get in *. now rewrite Q, VB.
Qed.
Print Assumptions C46_views_alias.
Example C46_ex : exists r h', nd_slice ex23 [IUsize 1] = Ok r /\ nd_index_set exh r [2] 99 = Ok h' /\ get h' ex23 [1; 2] = Ok 99.
Proof. eexists _, _. split; [vm_compute; reflexivity|]. split; vm_compute; reflexivity. Qed.
Theorem C46_clone_independent : forall T (h : heap T) blk n a h' r, live h blk n -> chain blk n false a ->
  length (a_shape a) <= MAX_DIMS -> nd_clone h a = Ok (h', r) ->
  (forall idx v h'', nd_index_set h' r idx v = Ok h'' -> elems h'' a = elems h a) /\
  (forall idx v h'', nd_index_set h' a idx v = Ok h'' -> elems h'' r = elems h a).
Proof.
  intros T h blk n a h' r LV C MD E. pose proof (chain_valid _ _ _ _ _ LV C) as V.
  destruct (chain_tight _ _ _ C) as (TI & NB & F & W).
  destruct (nd_clone_ok h a V F TI (fun _ => NB) MD) as (vs & EL & L & E' & _). rewrite E in E'. injection E' as -> ->.
  assert (LT : a_blk a <> length h).
  { rewrite (i_blk _ _ _ _ (chain_inv _ _ _ _ C)). destruct LV as (l & N & _). assert (blk < length h) by (apply nth_error_Some; congruence). lia. }
  assert (K : forall (h1 h2 : heap T) x y idx v, nd_index_set h1 x idx v = Ok h2 -> a_blk y <> a_blk x -> elems h2 y = elems h1 y).
  { intros h1 h2 x y idx v S N. unfold nd_index_set in S. apply bind_Ok_inv in S as ([] & _ & S). apply bind_Ok_inv in S as ([] & _ & S).
    unfold elems. apply mapM_ext. intros j _. eapply store_other_block; [exact S|exact N]. }
  split; intros idx v h'' S.
  - rewrite (K _ _ _ a _ _ S); [now apply elems_app|exact LT].
  - rewrite (K _ _ _ (fresh_arr (length h) (prod (a_shape a)) (a_shape a)) _ _ S); [|cbn; auto].
    now rewrite fresh_elems.
Qed.
Print Assumptions C46_clone_independent.
