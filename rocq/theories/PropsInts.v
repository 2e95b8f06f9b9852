(** PropsInts.v: arrays of integers in builds with and without overflow checks. *)
From Coq Require Import List Arith Lia Bool ZArith.
From Verif Require PropsFloatDot.
From Verif Require Import Base Spec Layout SpecFacts LayoutFacts Views ViewsFacts Kernels Access HeapFacts KernelFacts OpFacts
  AccessFacts ViewsFacts2 ViewsFacts3 Chain ChainFacts Reduce ReduceFacts PropsOps PropsReduce Einsum EinsumFacts EinsumFacts2 EinsumFacts3 EinsumFacts7 Numeric Prog PropsEinsum Param Exact
  Ints IntsFacts IntsGrow IntsProg IntsFacts2.
Import PropsFloatDot(einsum_ok, big).
Import ListNotations.
Open Scope res_scope.
Local Open Scope Z_scope.

(** ** C77.  [lo] and [hi] are the smallest and the largest value of the type. *)
Definition int_range (lo hi : Z) : Prop := 1 <= hi /\ (lo = 0 \/ lo = - hi - 1).
Definition fits (lo hi v : Z) : Prop := lo <= v <= hi.
(** every cell of the memory holds a value of the type *)
Definition int_heap (lo hi : Z) (h : heap Z) : Prop := forall c o x, load h c o = Ok x -> fits lo hi x.

Lemma range_le lo hi : int_range lo hi -> lo <= 0 /\ 1 <= hi /\ lo <= hi. Proof. intros [A [B|B]]; lia. Qed.
Lemma fits_dec lo hi v : {fits lo hi v} + {~ fits lo hi v}.
Proof. unfold fits. destruct (Z_le_dec lo v), (Z_le_dec v hi); [left; lia|right; lia..]. Qed.

(** without checks every operation wraps: the value of the type congruent to the exact one *)
Theorem C77_wrap : forall lo hi v, int_range lo hi ->
  fits lo hi (wrap lo hi v) /\ (exists k, wrap lo hi v = v + k * (hi - lo + 1)) /\
  (forall w k, fits lo hi w -> w = v + k * (hi - lo + 1) -> w = wrap lo hi v) /\
  (fits lo hi v -> wrap lo hi v = v).
Proof.
  intros lo hi v H. apply range_le in H as (_ & _ & L). split; [now apply wrap_in|]. split; [now apply wrap_cong|]. split; [|apply wrap_id].
  intros w k F E. now apply wrap_unique with k.
Qed.
Print Assumptions C77_wrap.

(** programs: with checks the program panics, or it computes what exact arithmetic computes,
    and the build without checks computes the same *)
Theorem C77_programs : forall lo hi cs s, let run A := iexec_all lo hi A cs s in
  run (type_arith Checks lo hi) = Panic \/
  (run (type_arith Checks lo hi) = run exact_arith /\ run (type_arith NoChecks lo hi) = run exact_arith).
Proof.
  intros lo hi cs s run. destruct (iexec_all_ref lo hi _ _ cs (checks_exact lo hi) s) as [H|H]; [now left|].
  destruct (iexec_all_ref lo hi _ _ cs (checks_wrap lo hi) s) as [H'|H']; [now left|]. right. unfold run. split; congruence.
Qed.
Print Assumptions C77_programs.

(** elementwise operations *)
Definition zop (o : iop) : Z -> Z -> Z := match o with OAdd => Z.add | OSub => Z.sub | OMul => Z.mul end.
Lemma op_mk p lo hi o x y : op_of (type_arith p lo hi) o x y = imk p lo hi (zop o x y). Proof. now destruct o. Qed.
Lemma imk_oob p lo hi v : imk p lo hi v <> Oob. Proof. unfold imk, checked. destruct p; [destruct (_ && _)|]; discriminate. Qed.
Lemma chk_fits lo hi v : fits lo hi v -> imk Checks lo hi v = Ok v. Proof. apply checked_ok. Qed.
Lemma chk_not lo hi v : ~ fits lo hi v -> imk Checks lo hi v = Panic.
Proof. intros H. destruct (checked_cases lo hi v) as [E|[F _]]; [exact E|contradiction]. Qed.

Theorem C77_elementwise : forall lo hi o (h : heap Z) a b sh va vb,
  valid h a -> valid h b -> join_shape (a_shape a) (a_shape b) sh -> (length sh <= MAX_DIMS)%nat -> (0 < prod sh)%nat ->
  (forall idx, in_range idx sh -> get h a (bidx (a_shape a) idx) = Ok (va idx) /\ get h b (bidx (a_shape b) idx) = Ok (vb idx)) ->
  let run p := nd_binary (op_of (type_arith p lo hi) o) 0 h a b in
  let val idx := zop o (va idx) (vb idx) in
  ((forall idx, in_range idx sh -> fits lo hi (val idx)) -> exists h' r, run Checks = Ok (h', r) /\ fresh_result h h' r sh (fun idx => Ok (val idx))) /\
  ((exists idx, in_range idx sh /\ ~ fits lo hi (val idx)) -> run Checks = Panic) /\
  exists h' r, run NoChecks = Ok (h', r) /\ fresh_result h h' r sh (fun idx => Ok (wrap lo hi (val idx))).
Proof.
  intros lo hi o h a b sh va vb VA VB J MD P G run val.
  assert (V : forall p idx, in_range idx sh -> (x <- get h a (bidx (a_shape a) idx) ;; y <- get h b (bidx (a_shape b) idx) ;; op_of (type_arith p lo hi) o x y) = imk p lo hi (val idx)).
  { intros p idx I. destruct (G idx I) as [-> ->]. cbn [bind]. now rewrite op_mk. }
  assert (B := fun p => C12_binary Z (op_of (type_arith p lo hi) o) 0 h a b sh VA VB J MD P). cbv zeta in B.
  split; [|split].
  - intros F. destruct (B Checks) as [B1 _]. destruct B1 as (h' & r & E & FR).
    + intros idx I. rewrite V by exact I. rewrite chk_fits by now apply F. eauto.
    + exists h', r. split; [exact E|]. eapply fresh_result_ext; [|exact FR]. intros idx I. cbv beta. rewrite V by exact I. apply chk_fits. now apply F.
  - intros (idx & I & N). apply (proj2 (B Checks)).
    + exists idx. split; [exact I|]. rewrite V by exact I. now apply chk_not.
    + intros x y. rewrite op_mk. apply imk_oob.
  - destruct (B NoChecks) as [B1 _]. destruct B1 as (h' & r & E & FR).
    + intros idx I. rewrite V by exact I. cbn [imk]. eauto.
    + exists h', r. split; [exact E|]. eapply fresh_result_ext; [|exact FR]. intros idx I. cbv beta. now rewrite V by exact I.
Qed.
Print Assumptions C77_elementwise.

Theorem C77_scalar_op : forall lo hi o (h : heap Z) a c va,
  valid h a -> (length (a_shape a) <= MAX_DIMS)%nat -> (0 < prod (a_shape a))%nat -> holds h a va ->
  let run p := nd_scalar_op (op_of (type_arith p lo hi) o) 0 h a c in
  let val idx := zop o (va idx) c in
  ((forall idx, in_range idx (a_shape a) -> fits lo hi (val idx)) -> exists h' r, run Checks = Ok (h', r) /\ fresh_result h h' r (a_shape a) (fun idx => Ok (val idx))) /\
  ((exists idx, in_range idx (a_shape a) /\ ~ fits lo hi (val idx)) -> run Checks = Panic) /\
  exists h' r, run NoChecks = Ok (h', r) /\ fresh_result h h' r (a_shape a) (fun idx => Ok (wrap lo hi (val idx))).
Proof.
  intros lo hi o h a c va VA MD P [_ G] run val.
  assert (V : forall p idx, in_range idx (a_shape a) -> (x <- get h a idx ;; op_of (type_arith p lo hi) o x c) = imk p lo hi (val idx)).
  { intros p idx I. rewrite (G idx I). cbn [bind]. now rewrite op_mk. }
  assert (B := fun p => C13_scalar_op Z (op_of (type_arith p lo hi) o) 0 h a c VA MD P). cbv zeta in B.
  split; [|split].
  - intros F. destruct (B Checks) as [B1 _]. destruct B1 as (h' & r & E & FR).
    + intros idx I. rewrite V by exact I. rewrite chk_fits by now apply F. eauto.
    + exists h', r. split; [exact E|]. eapply fresh_result_ext; [|exact FR]. intros idx I. cbv beta. rewrite V by exact I. apply chk_fits. now apply F.
  - intros (idx & I & N). apply (proj2 (B Checks)).
    + exists idx. split; [exact I|]. rewrite V by exact I. now apply chk_not.
    + intros x y. rewrite op_mk. apply imk_oob.
  - destruct (B NoChecks) as [B1 _]. destruct B1 as (h' & r & E & FR).
    + intros idx I. rewrite V by exact I. cbn [imk]. eauto.
    + exists h', r. split; [exact E|]. eapply fresh_result_ext; [|exact FR]. intros idx I. cbv beta. now rewrite V by exact I.
Qed.
Print Assumptions C77_scalar_op.

(** negation: on a signed type only the smallest value overflows, and it wraps to itself *)
Theorem C77_negation : forall hi (h : heap Z) a va, let lo := - hi - 1 in
  1 <= hi -> valid h a -> (length (a_shape a) <= MAX_DIMS)%nat -> (0 < prod (a_shape a))%nat -> holds h a va ->
  (forall idx, in_range idx (a_shape a) -> fits lo hi (va idx)) ->
  ((forall idx, in_range idx (a_shape a) -> va idx <> lo) -> exists h' r, int_neg Checks lo hi h a = Ok (h', r) /\ fresh_result h h' r (a_shape a) (fun idx => Ok (- va idx))) /\
  ((exists idx, in_range idx (a_shape a) /\ va idx = lo) -> int_neg Checks lo hi h a = Panic) /\
  exists h' r, int_neg NoChecks lo hi h a = Ok (h', r) /\
    fresh_result h h' r (a_shape a) (fun idx => Ok (if va idx =? lo then lo else - va idx)).
Proof.
  intros hi h a va lo HI VA MD P [_ G] F.
  assert (V : forall p idx, in_range idx (a_shape a) -> (x <- get h a idx ;; ineg p lo hi x) = imk p lo hi (- va idx)).
  { intros p idx I. rewrite (G idx I). reflexivity. }
  assert (B := fun p => C13_negation Z (ineg p lo hi) 0 h a VA MD P). cbv zeta in B.
  assert (FN : forall x, fits lo hi x -> x <> lo -> fits lo hi (- x)) by (unfold fits, lo; intros; lia).
  split; [|split].
  - intros N. destruct (B Checks) as [B1 _]. destruct B1 as (h' & r & E & FR).
    + intros idx I. rewrite V by exact I. rewrite chk_fits by (apply FN; auto). eauto.
    + exists h', r. split; [exact E|]. eapply fresh_result_ext; [|exact FR]. intros idx I. cbv beta. rewrite V by exact I. apply chk_fits. apply FN; auto.
  - intros (idx & I & N). apply (proj2 (B Checks)).
    + exists idx. split; [exact I|]. rewrite V by exact I. apply chk_not. rewrite N. unfold fits, lo. lia.
    + intros x. apply imk_oob.
  - destruct (B NoChecks) as [B1 _]. destruct B1 as (h' & r & E & FR).
    + intros idx I. rewrite V by exact I. cbn [imk]. eauto.
    + exists h', r. split; [exact E|]. eapply fresh_result_ext; [|exact FR]. intros idx I. cbv beta. rewrite V by exact I. cbn [imk]. f_equal.
      specialize (F idx I). destruct (Z.eqb_spec (va idx) lo) as [Q|Q]; [|apply wrap_id; now apply FN]. rewrite Q. symmetry. apply (wrap_unique lo hi) with (-1); unfold fits, lo in *; lia.
Qed.
Print Assumptions C77_negation.

(** sums and products of all elements: the elements are taken in order, and every partial
    result has to fit.  [fold_left op (firstn k vs) e] is the result after k elements. *)
Lemma fold_cases lo hi (op : Z -> Z -> Z) e vs : fits lo hi e ->
  (forall k, (k <= length vs)%nat -> fits lo hi (fold_left op (firstn k vs) e)) \/ (exists k, (k <= length vs)%nat /\ ~ fits lo hi (fold_left op (firstn k vs) e)).
Proof.
  intros _. assert (H : forall n, (forall k, (k < n)%nat -> fits lo hi (fold_left op (firstn k vs) e)) \/ (exists k, (k < n)%nat /\ ~ fits lo hi (fold_left op (firstn k vs) e))).
  { induction n as [|n [IH|(k & K & H)]]; [left; lia| |right; exists k; split; [lia|exact H]].
    destruct (fits_dec lo hi (fold_left op (firstn n vs) e)) as [D|D]; [left|right; exists n; split; [lia|exact D]].
    intros k K. destruct (Nat.eq_dec k n) as [->|]; [exact D|]. apply IH. lia. }
  destruct (H (S (length vs))) as [A|(k & K & A)]; [left|right; exists k; split; [lia|exact A]]. intros k K. apply A. lia.
Qed.

Definition reduction (p : profile) (lo hi : Z) (op : iop) : Z -> Z -> res Z := fun x acc => op_of (type_arith p lo hi) op acc x.
Definition unit_of (op : iop) : Z := match op with OMul => 1 | _ => 0 end.

Section Fold.
  Variables (lo hi : Z) (op : iop).
  Hypothesis RG : int_range lo hi.
  Hypothesis OP : op = OAdd \/ op = OMul.
  Let e := unit_of op.
  Let f := zop op.
  Lemma unit_fits : fits lo hi e. Proof. apply range_le in RG. unfold fits, e. destruct OP as [-> | ->]; cbn; lia. Qed.
  Lemma red_ok vs : (forall k, (k <= length vs)%nat -> fits lo hi (fold_left f (firstn k vs) e)) -> foldM (reduction Checks lo hi op) vs e = Ok (fold_left f vs e).
  Proof.
    intros H. rewrite <- (fold_checked lo hi f vs e) by (intros k K; apply H; lia). unfold reduction, f. destruct op; reflexivity.
  Qed.
  Lemma red_bad vs : (exists k, (k <= length vs)%nat /\ ~ fits lo hi (fold_left f (firstn k vs) e)) -> foldM (reduction Checks lo hi op) vs e = Panic.
  Proof.
    intros (k & K & H). rewrite <- (fold_overflows lo hi f vs e).
    - unfold reduction, f. destruct op; reflexivity.
    - exists k. split; [|exact H]. destruct k; [|lia]. exfalso. apply H. cbn [firstn fold_left]. apply unit_fits.
  Qed.
  Lemma red_wrap vs : foldM (reduction NoChecks lo hi op) vs e = Ok (wrap lo hi (fold_left f vs e)).
  Proof.
    pose proof (range_le _ _ RG) as (_ & _ & L).
    rewrite <- (fold_wrap lo hi f vs); [|intros a x; unfold f; destruct OP as [-> | ->]; cbn [zop]; [now apply wrap_add_l|now apply wrap_mul_l]].
    rewrite (wrap_id lo hi e) by apply unit_fits. unfold reduction, f. destruct op; reflexivity.
  Qed.
  Lemma red_oob p x y : reduction p lo hi op x y <> Oob. Proof. unfold reduction. rewrite op_mk. apply imk_oob. Qed.
End Fold.

Theorem C77_sum_product : forall lo hi op (h : heap Z) blk n a,
  int_range lo hi -> op = OAdd \/ op = OMul -> live h blk n -> chain blk n false a -> (length (a_shape a) <= MAX_DIMS)%nat ->
  let run p := match op with OMul => int_product p lo hi h a | _ => int_sum p lo hi h a end in
  let after k vs := fold_left (zop op) (firstn k vs) (unit_of op) in
  exists vs, elems h a = Ok vs /\
    ((forall k, (k <= length vs)%nat -> fits lo hi (after k vs)) ->
       exists h' r, run Checks = Ok (h', r) /\ fresh_result h h' r [] (fun _ => Ok (fold_left (zop op) vs (unit_of op)))) /\
    ((exists k, (k <= length vs)%nat /\ ~ fits lo hi (after k vs)) -> run Checks = Panic) /\
    exists h' r, run NoChecks = Ok (h', r) /\ fresh_result h h' r [] (fun _ => Ok (wrap lo hi (fold_left (zop op) vs (unit_of op)))).
Proof.
  intros lo hi op h blk n a RG OP LV CH MD run after.
  assert (RUN : forall p, run p = nd_reduce (reduction p lo hi op) (unit_of op) h a) by (intros p; unfold run, reduction; destruct OP as [-> | ->]; reflexivity).
  assert (C := fun p => C19_fold_partial Z (reduction p lo hi op) h blk n a (unit_of op) LV (or_introl CH) MD).
  destruct (C Checks) as (vs & EV & C1 & C2). destruct (C NoChecks) as (vs' & EV' & C3 & _). rewrite EV in EV'. injection EV' as <-.
  exists vs. split; [exact EV|]. rewrite !RUN. split; [|split].
  - intros H. apply C1. now apply red_ok.
  - intros H. apply C2. now apply red_bad.
  - apply C3. now apply red_wrap.
Qed.
Print Assumptions C77_sum_product.

(** along axes: each result is the fold of its own elements *)
Theorem C77_sum_product_along : forall lo hi op (h : heap Z) a axes va,
  int_range lo hi -> op = OAdd \/ op = OMul -> valid h a -> (length (a_shape a) <= MAX_DIMS)%nat -> (0 < prod (a_shape a))%nat ->
  let nd := length (a_shape a) in
  axes_in nd axes -> NoDup (axes_of nd axes) -> holds h a va ->
  let run p := match op with OMul => int_product_along p lo hi h a axes | _ => int_sum_along p lo hi h a axes end in
  let sh := drop_axes (axes_of nd axes) (a_shape a) in
  let vs o := map va (fibre (axes_of nd axes) (a_shape a) o) in
  let after k o := fold_left (zop op) (firstn k (vs o)) (unit_of op) in
  ((forall o k, in_range o sh -> (k <= length (vs o))%nat -> fits lo hi (after k o)) ->
     exists h' r, run Checks = Ok (h', r) /\ fresh_result h h' r sh (fun o => Ok (fold_left (zop op) (vs o) (unit_of op)))) /\
  ((exists o k, in_range o sh /\ (k <= length (vs o))%nat /\ ~ fits lo hi (after k o)) -> run Checks = Panic) /\
  exists h' r, run NoChecks = Ok (h', r) /\ fresh_result h h' r sh (fun o => Ok (wrap lo hi (fold_left (zop op) (vs o) (unit_of op)))).
Proof.
  intros lo hi op h a axes va RG OP V MD P nd IN ND [_ G] run sh vs after.
  assert (RUN : forall p, run p = nd_reduce_along (reduction p lo hi op) (unit_of op) h a axes) by (intros p; unfold run, reduction; destruct OP as [-> | ->]; reflexivity).
  assert (C := fun p => C20_reduce_along Z (reduction p lo hi op) h a (unit_of op) axes V MD P IN ND). cbv zeta in C. fold nd sh in C.
  assert (VAL : forall g o, (l <- mapM (get h a) (fibre (axes_of nd axes) (a_shape a) o) ;; foldM g l (unit_of op)) = foldM g (vs o) (unit_of op)).
  { intros g o. assert (E : mapM (get h a) (fibre (axes_of nd axes) (a_shape a) o) = Ok (vs o)).
    { unfold vs. assert (Q : forall l, (forall i, In i l -> in_range i (a_shape a)) -> mapM (get h a) l = Ok (map va l)).
      { induction l as [|i l IH]; intros H; cbn [mapM map]; [reflexivity|]. rewrite G by (apply H; now left). cbn [bind]. rewrite IH by (intros; apply H; now right). reflexivity. }
      apply Q. intros i I. unfold fibre in I. apply filter_In in I as [I _]. now apply in_indices. }
    now rewrite E. }
  rewrite !RUN. split; [|split].
  - intros H. destruct (C Checks) as [C1 _]. destruct C1 as (h' & r & E & FR).
    + intros o I. rewrite VAL, red_ok by (first [exact RG|exact OP|intros k K; now apply (H o k)]). eauto.
    + exists h', r. split; [exact E|]. eapply fresh_result_ext; [|exact FR]. intros o I. cbv beta. rewrite VAL, red_ok by (first [exact RG|exact OP|intros k K; now apply (H o k)]). reflexivity.
  - intros (o & k & I & K & H). apply (proj2 (C Checks)).
    + exists o. split; [exact I|]. rewrite VAL. apply red_bad; auto. exists k. auto.
    + apply red_oob.
  - destruct (C NoChecks) as [C1 _]. destruct C1 as (h' & r & E & FR).
    + intros o I. rewrite VAL, red_wrap by (first [exact RG|exact OP]). eauto.
    + exists h', r. split; [exact E|]. eapply fresh_result_ext; [|exact FR]. intros o I. cbv beta. rewrite VAL, red_wrap by (first [exact RG|exact OP]). reflexivity.
Qed.
Print Assumptions C77_sum_product_along.

(** the trace along a diagonal, by the same rule *)
Theorem C77_trace : forall lo hi (h : heap Z) b n bc a off k1 k2 va,
  int_range lo hi -> live h b n -> chain b n bc a -> (length (a_shape a) <= MAX_DIMS)%nat -> (0 < prod (a_shape a))%nat ->
  let nd := length (a_shape a) in
  - Z.of_nat nd <= k1 < Z.of_nat nd -> - Z.of_nat nd <= k2 < Z.of_nat nd ->
  let i := Z.to_nat (k1 mod Z.of_nat nd) in let j := Z.to_nat (k2 mod Z.of_nat nd) in
  i <> j ->
  let d1 := nth i (a_shape a) 0%nat in let d2 := nth j (a_shape a) 0%nat in
  - Z.of_nat d1 < off < Z.of_nat d2 ->
  let len := Nat.min (d1 - Z.to_nat (- off)) (d2 - Z.to_nat off) in
  let sh := drop_two 0 i j (a_shape a) in
  let vs rest := map (fun d => va (diag_index nd i j off (rest ++ [d]))) (seq 0 len) in
  let after k rest := fold_left Z.add (firstn k (vs rest)) 0 in
  (forall rest d, in_range rest sh -> (d < len)%nat -> get h a (diag_index nd i j off (rest ++ [d])) = Ok (va (diag_index nd i j off (rest ++ [d])))) ->
  ((forall rest k, in_range rest sh -> (k <= len)%nat -> fits lo hi (after k rest)) ->
     exists h' r, int_trace Checks lo hi h a off k1 k2 = Ok (h', r) /\ fresh_result h h' r sh (fun rest => Ok (fold_left Z.add (vs rest) 0))) /\
  ((exists rest k, in_range rest sh /\ (k <= len)%nat /\ ~ fits lo hi (after k rest)) -> int_trace Checks lo hi h a off k1 k2 = Panic) /\
  exists h' r, int_trace NoChecks lo hi h a off k1 k2 = Ok (h', r) /\ fresh_result h h' r sh (fun rest => Ok (wrap lo hi (fold_left Z.add (vs rest) 0))).
Proof.
  intros lo hi h b n bc a off k1 k2 va RG LV CH MD P nd B1 B2 i j NE d1 d2 O len sh vs after G.
  assert (C := fun p => C30_trace Z 0 (iadd p lo hi) h b n bc a off k1 k2 LV CH MD P B1 B2 NE O). cbv zeta in C. fold nd in C. fold i j in C. fold d1 d2 in C. fold len sh in C.
  assert (VAL : forall p rest, in_range rest sh -> (l <- mapM (fun d => get h a (diag_index nd i j off (rest ++ [d]))) (seq 0 len) ;; foldM (fun x acc => iadd p lo hi acc x) l 0)
    = foldM (reduction p lo hi OAdd) (vs rest) (unit_of OAdd)).
  { intros p rest I. assert (E : mapM (fun d => get h a (diag_index nd i j off (rest ++ [d]))) (seq 0 len) = Ok (vs rest)).
    { unfold vs. assert (Q : forall l, (forall d, In d l -> (d < len)%nat) -> mapM (fun d => get h a (diag_index nd i j off (rest ++ [d]))) l = Ok (map (fun d => va (diag_index nd i j off (rest ++ [d]))) l)).
      { induction l as [|d l IH]; intros H; cbn [mapM map]; [reflexivity|]. rewrite G by (auto; apply H; now left). cbn [bind]. rewrite IH by (intros; apply H; now right). reflexivity. }
      apply Q. intros d D. apply in_seq in D. lia. }
    now rewrite E. }
  assert (LN : forall rest, length (vs rest) = len) by (intros; unfold vs; now rewrite map_length, seq_length).
  assert (OP : OAdd = OAdd \/ OAdd = OMul) by now left.
  split; [|split].
  - intros H. assert (RO : forall o, in_range o sh -> foldM (reduction Checks lo hi OAdd) (vs o) (unit_of OAdd) = Ok (fold_left Z.add (vs o) 0)).
    { intros o I. apply (red_ok lo hi OAdd OP). intros k K. apply (H o k I). now rewrite <- (LN o). }
    destruct (C Checks) as [C1 _]. destruct C1 as (h' & r & E & FR).
    + intros o I. rewrite VAL, RO by exact I. eauto.
    + exists h', r. split; [exact E|]. eapply fresh_result_ext; [|exact FR]. intros o I. cbv beta. now rewrite VAL, RO by exact I.
  - intros (o & k & I & K & H). apply (proj2 (C Checks)).
    + exists o. split; [exact I|]. rewrite VAL by exact I. apply red_bad; auto. exists k. rewrite LN. auto.
    + intros x y. apply imk_oob.
  - destruct (C NoChecks) as [C1 _]. destruct C1 as (h' & r & E & FR).
    + intros o I. rewrite VAL, red_wrap by auto. eauto.
    + exists h', r. split; [exact E|]. eapply fresh_result_ext; [|exact FR]. intros o I. cbv beta. rewrite VAL, red_wrap by auto. reflexivity.
Qed.
Print Assumptions C77_trace.

(** magnitudes: with checks the smallest value of a signed type panics; without them its
    absolute value is itself *)
Definition magnitude (lo x : Z) : Z := if (lo <? 0) && (x =? lo) then lo else Z.abs x.
Section Magnitudes.
  Variables lo hi : Z.
  Hypothesis RG : int_range lo hi.
  Lemma abs_no x : fits lo hi x -> iabs NoChecks lo hi x = Ok (magnitude lo x).
  Proof.
    intros F. unfold iabs, magnitude, fits in *. destruct (Z.ltb_spec x 0) as [N|N].
    - unfold ineg. cbn [imk]. destruct (Z.ltb_spec lo 0); [|lia]. cbn [andb]. destruct (Z.eqb_spec x lo) as [->|D]; f_equal.
      + symmetry. destruct RG as [? [?|?]]; [lia|]. apply (wrap_unique lo hi) with (-1); lia.
      + destruct RG as [? [?|?]]; [lia|]. rewrite wrap_id by lia. lia.
    - destruct (Z.ltb_spec lo 0); cbn [andb]; [|f_equal; lia]. destruct (Z.eqb_spec x lo); [lia|]. f_equal. lia.
  Qed.
  Lemma abs_ok x : fits lo hi x -> ~ (lo < 0 /\ x = lo) -> iabs Checks lo hi x = Ok (Z.abs x).
  Proof.
    intros F N. unfold iabs, fits in *. destruct (Z.ltb_spec x 0); [|f_equal; lia]. unfold ineg. destruct RG as [? [?|?]]; [lia|]. rewrite chk_fits by (unfold fits; lia). f_equal. lia.
  Qed.
  Lemma abs_bad x : lo < 0 -> x = lo -> iabs Checks lo hi x = Panic.
  Proof. intros N ->. unfold iabs. destruct (Z.ltb_spec lo 0); [|lia]. apply chk_not. destruct RG as [? [?|?]]; unfold fits; lia. Qed.
  Definition pick (mx : bool) : Z -> Z -> Z := if mx then Z.max else Z.min.
  Definition mag (mx : bool) p : Z -> Z -> res Z := if mx then partial_max_magnitude Z.ltb (iabs p lo hi) else partial_min_magnitude Z.ltb (iabs p lo hi).
  Lemma mag_step mx p x v acc : iabs p lo hi x = Ok v -> mag mx p x acc = Ok (pick mx acc v).
  Proof.
    intros E. unfold mag, pick. destruct mx; unfold partial_max_magnitude, partial_min_magnitude; rewrite E; cbn [bind]; f_equal.
    - destruct (Z.ltb_spec v acc); lia.
    - destruct (Z.ltb_spec acc v); lia.
  Qed.
  Lemma mag_no mx vs : Forall (fits lo hi) vs -> forall e, foldM (mag mx NoChecks) vs e = Ok (fold_left (pick mx) (map (magnitude lo) vs) e).
  Proof. induction 1 as [|x vs F _ IH]; intros e; [reflexivity|]. cbn [foldM map fold_left]. rewrite (mag_step mx _ x _ e (abs_no x F)). apply IH. Qed.
  Lemma mag_ok mx vs : Forall (fits lo hi) vs -> ~ (lo < 0 /\ In lo vs) -> forall e, foldM (mag mx Checks) vs e = Ok (fold_left (pick mx) (map Z.abs vs) e).
  Proof.
    induction 1 as [|x vs F _ IH]; intros N e; [reflexivity|]. cbn [foldM map fold_left]. rewrite (mag_step mx _ x (Z.abs x) e).
    - apply IH. intros [A B]. apply N. split; [exact A|now right].
    - apply abs_ok; [exact F|]. intros [A B]. apply N. split; [exact A|now left].
  Qed.
  Lemma mag_bad mx vs : Forall (fits lo hi) vs -> lo < 0 -> In lo vs -> forall e, foldM (mag mx Checks) vs e = Panic.
  Proof.
    intros F L. induction F as [|x vs F Fs IH]; intros I e; [contradiction|]. cbn [foldM].
    destruct (Z.eq_dec x lo) as [->|D].
    - unfold mag. destruct mx; unfold partial_max_magnitude, partial_min_magnitude; rewrite abs_bad by auto; reflexivity.
    - rewrite (mag_step mx _ x (Z.abs x) e) by (apply abs_ok; [exact F|tauto]). cbn [bind]. apply IH. destruct I as [E|I]; [congruence|exact I].
  Qed.
End Magnitudes.

Theorem C77_magnitudes : forall lo hi (h : heap Z) blk n a (mx : bool),
  int_range lo hi -> int_heap lo hi h -> live h blk n -> chain blk n false a -> (length (a_shape a) <= MAX_DIMS)%nat ->
  let run p := if mx then int_max_magnitude p lo hi h a else int_min_magnitude p lo hi h a in
  let start := if mx then lo else hi in
  exists vs, elems h a = Ok vs /\
    (~ (lo < 0 /\ In lo vs) -> exists h' r, run Checks = Ok (h', r) /\ fresh_result h h' r [] (fun _ => Ok (fold_left (pick mx) (map Z.abs vs) start))) /\
    (lo < 0 -> In lo vs -> run Checks = Panic) /\
    exists h' r, run NoChecks = Ok (h', r) /\ fresh_result h h' r [] (fun _ => Ok (fold_left (pick mx) (map (magnitude lo) vs) start)).
Proof.
  intros lo hi h blk n a mx RG IH LV CH MD run start.
  assert (RUN : forall p, run p = nd_reduce (mag lo hi mx p) start h a) by (intros p; unfold run, start, mag; destruct mx; reflexivity).
  assert (C := fun p => C19_fold_partial Z (mag lo hi mx p) h blk n a start LV (or_introl CH) MD).
  destruct (C Checks) as (vs & EV & C1 & C2). destruct (C NoChecks) as (vs' & EV' & C3 & _). rewrite EV in EV'. injection EV' as <-.
  assert (F : Forall (fits lo hi) vs).
  { unfold elems in EV. clear - EV IH. revert vs EV. induction (indices (a_shape a)) as [|i l IHl]; intros vs EV; cbn [mapM] in EV; [injection EV as <-; constructor|].
    destruct (get h a i) as [x| |] eqn:E; cbn [bind] in EV; try discriminate. destruct (mapM (get h a) l) as [ws| |] eqn:Q; cbn [bind] in EV; try discriminate. injection EV as <-.
    constructor; [unfold get in E; exact (IH _ _ _ E)|now apply IHl]. }
  exists vs. split; [exact EV|]. rewrite !RUN. split; [|split].
  - intros H. apply C1. now apply mag_ok.
  - intros L I. apply C2. now apply mag_bad.
  - apply C3. now apply mag_no.
Qed.
Print Assumptions C77_magnitudes.

(** ** the sum-of-products family *)
Lemma Z_csr : is_csr 0 1 Z.add Z.mul.
Proof. constructor; intros; ring. Qed.

(** without checks: the exact sum of products, wrapped once *)
Section Wraps.
  Variables (lo hi : Z) (h : heap Z).
  Hypothesis RG : int_range lo hi.
  Hypothesis IH : int_heap lo hi h.
  Let L : lo <= hi. Proof. pose proof (range_le _ _ RG). lia. Qed.
  Definition Rw (lo hi x a : Z) : Prop := x = wrap lo hi a.
  Definition Gw (a : Z) : Prop := True.
  Definition wadd (lo hi x y : Z) : Z := wrap lo hi (x + y).
  Definition wmul (lo hi x y : Z) : Z := wrap lo hi (x * y).
  Definition wfma (lo hi x y z : Z) : Z := wrap lo hi (wrap lo hi (x * y) + z).
  Lemma w0 : Rw lo hi 0 0. Proof. symmetry. apply wrap_id. pose proof (range_le _ _ RG). lia. Qed.
  Lemma w1 : Rw lo hi 1 1. Proof. symmetry. apply wrap_id. pose proof (range_le _ _ RG). lia. Qed.
  Lemma wA x a y b : Rw lo hi x a -> Rw lo hi y b -> Rw lo hi (wadd lo hi x y) (a + b).
  Proof. intros -> ->. unfold Rw, wadd. now rewrite wrap_add_l, wrap_add_r. Qed.
  Lemma wM x a y b : Rw lo hi x a -> Gw a -> Rw lo hi y b -> Gw b -> Rw lo hi (wmul lo hi x y) (a * b).
  Proof. intros -> _ -> _. unfold Rw, wmul. now rewrite wrap_mul_l, wrap_mul_r. Qed.
  Lemma wF x a y b z c : Rw lo hi x a -> Gw a -> Rw lo hi y b -> Gw b -> Rw lo hi z c -> Rw lo hi (wfma lo hi x y z) (a * b + c).
  Proof. intros X _ Y _ Zz. apply wA; [now apply wM|exact Zz]. Qed.
  Lemma wC : cells (Rw lo hi) Gw h h.
  Proof.
    split; [reflexivity|]. intros c o. destruct (load h c o) as [x| |] eqn:E; cbn; auto. split; [|exact I]. symmetry. apply wrap_id. exact (IH _ _ _ E).
  Qed.
  Lemma w_move sh val x y : (0 < prod sh)%nat -> rres (top (Rw lo hi) Gw h) x y ->
    (exists h2 r, y = Ok (h2, r) /\ fresh_result h h2 r sh (fun idx => Ok (val idx))) ->
    exists h2 r, x = Ok (h2, r) /\ fresh_result h h2 r sh (fun idx => Ok (wrap lo hi (val idx))).
  Proof.
    intros P X Y. destruct (transfer (Rw lo hi) Gw 0 Z.add Z.mul (fun x _ _ => x) 0 Z.add Z.mul h h sh val x y wC P X Y) as (h2 & r & v & E & FR & H).
    exists h2, r. split; [exact E|]. eapply fresh_result_ext; [|exact FR]. intros idx I. cbv beta. f_equal. now apply H.
  Qed.
  Let t_e := t_einsum (Rw lo hi) Gw 0 1 (wadd lo hi) (wmul lo hi) (wfma lo hi) 0 1 Z.add Z.mul w0 w1 wA (fun _ _ _ => I) wM (fun _ _ _ _ => I)
    (fun y b Y _ => wM 1 1 y b w1 I Y I) (fun _ _ => I) wF h h.
  Let t_m := t_matmul (Rw lo hi) Gw 0 1 (wadd lo hi) (wmul lo hi) (wfma lo hi) 0 1 Z.add Z.mul w0 w1 wA (fun _ _ _ => I) wM (fun _ _ _ _ => I)
    (fun y b Y _ => wM 1 1 y b w1 I Y I) (fun _ _ => I) wF h h.
  Let t_b := t_bmm (Rw lo hi) Gw 0 1 (wadd lo hi) (wmul lo hi) (wfma lo hi) 0 1 Z.add Z.mul w0 w1 wA (fun _ _ _ => I) wM (fun _ _ _ _ => I)
    (fun y b Y _ => wM 1 1 y b w1 I Y I) (fun _ _ => I) wF h h.
  Let t_d := t_dot (Rw lo hi) Gw 0 (wadd lo hi) (wmul lo hi) (wfma lo hi) 0 Z.add Z.mul w0 wA wM h h.

  Section Two.
    Variables (a b : arr) (va vb : list nat -> Z).
    Hypothesis HA : holds h a va.
    Hypothesis HB : holds h b vb.
    Ltac live H SH := eapply holds_live_elem; [rewrite SH; repeat constructor; assumption|exact H].
    Lemma w_dot n : a_shape a = [n] -> a_shape b = [n] -> (0 < n)%nat -> exists h2 r, int_dot NoChecks lo hi h a b = Ok (h2, r) /\
      fresh_result h h2 r [] (fun _ => Ok (wrap lo hi (bigsum Z.add 0 (map (fun k => va [k] * vb [k]) (seq 0 n))))).
    Proof. intros SA SB N. eapply w_move; [cbn; lia|exact (t_d a b wC ltac:(live HA SA) ltac:(live HB SB))|]. exact (C26_dot Z 0 1 Z.add Z.mul Z_csr h a b va vb n SA SB N HA HB). Qed.
    Lemma w_matvec n k : a_shape a = [n; k] -> a_shape b = [k] -> (0 < n)%nat -> (0 < k)%nat -> exists h2 r, int_matmul NoChecks lo hi h a b = Ok (h2, r) /\
      fresh_result h h2 r [n] (fun idx => Ok (wrap lo hi (bigsum Z.add 0 (map (fun t => va [hd 0%nat idx; t] * vb [t]) (seq 0 k))))).
    Proof. intros SA SB N K. eapply w_move; [cbn; lia|exact (t_m a b wC ltac:(live HA SA) ltac:(live HB SB))|]. exact (C26_matvec Z 0 1 Z.add Z.mul Z_csr h a b va vb n k SA SB N K HA HB). Qed.
    Lemma w_matmul n k m : a_shape a = [n; k] -> a_shape b = [k; m] -> (0 < n)%nat -> (0 < k)%nat -> (0 < m)%nat -> exists h2 r, int_matmul NoChecks lo hi h a b = Ok (h2, r) /\
      fresh_result h h2 r [n; m] (fun idx => Ok (wrap lo hi (bigsum Z.add 0 (map (fun t => va [nth 0 idx 0%nat; t] * vb [t; nth 1 idx 0%nat]) (seq 0 k))))).
    Proof. intros SA SB N K M. eapply w_move; [cbn; nia|exact (t_m a b wC ltac:(live HA SA) ltac:(live HB SB))|]. exact (C26_matmul Z 0 1 Z.add Z.mul Z_csr h a b va vb n k m SA SB N K M HA HB). Qed.
    Lemma w_bmm q n k m : a_shape a = [q; n; k] -> a_shape b = [q; k; m] -> (0 < q)%nat -> (0 < n)%nat -> (0 < k)%nat -> (0 < m)%nat -> exists h2 r, int_bmm NoChecks lo hi h a b = Ok (h2, r) /\
      fresh_result h h2 r [q; n; m] (fun idx => Ok (wrap lo hi (bigsum Z.add 0 (map (fun t => va [nth 0 idx 0%nat; nth 1 idx 0%nat; t] * vb [nth 0 idx 0%nat; t; nth 2 idx 0%nat]) (seq 0 k))))).
    Proof.
      intros SA SB Q N K M. eapply w_move; [cbn; rewrite Nat.mul_1_r; apply Nat.mul_pos_pos; [exact Q|now apply Nat.mul_pos_pos]|exact (t_b a b wC ltac:(live HA SA) ltac:(live HB SB))|].
      exact (C26_bmm Z 0 1 Z.add Z.mul Z_csr h a b va vb q n k m SA SB Q N K M HA HB).
    Qed.
  End Two.
  Lemma w_einsum ops subs vals out sm dm : einsum_ok ops subs out sm dm -> Forall2 (holds h) ops vals ->
    exists h2 r, int_einsum NoChecks lo hi h ops subs out = Ok (h2, r) /\
      fresh_result h h2 r (map dm out) (fun oidx => Ok (wrap lo hi (einsum_value 0 1 Z.add Z.mul dm subs vals out sm oidx))).
  Proof.
    intros (HS & HO & ND & CV & NE & L32 & L15 & SH & PD) HV.
    eapply w_move; [exact (out_prod out sm dm PD)|apply (t_e ops subs out wC); exact (ops_live h ops subs vals out sm dm CV SH HV PD)|].
    exact (C27_einsum_partial Z 0 1 Z.add Z.mul Z_csr h ops subs vals out sm dm HS HO ND CV NE L32 L15 SH HV PD).
  Qed.
End Wraps.

Theorem C77_wraps : forall lo hi (h : heap Z), int_range lo hi -> int_heap lo hi h ->
  let sum := bigsum Z.add 0 in
  let returns x sh val := exists h' r, x = Ok (h', r) /\ fresh_result h h' r sh (fun idx => Ok (wrap lo hi (val idx))) in
  (forall a b va vb n, a_shape a = [n] -> a_shape b = [n] -> (0 < n)%nat -> holds h a va -> holds h b vb ->
     returns (int_dot NoChecks lo hi h a b) [] (fun _ => sum (map (fun k => va [k] * vb [k]) (seq 0 n)))) /\
  (forall a b va vb n k, a_shape a = [n; k] -> a_shape b = [k] -> (0 < n)%nat -> (0 < k)%nat -> holds h a va -> holds h b vb ->
     returns (int_matmul NoChecks lo hi h a b) [n] (fun idx => sum (map (fun t => va [hd 0%nat idx; t] * vb [t]) (seq 0 k)))) /\
  (forall a b va vb n k m, a_shape a = [n; k] -> a_shape b = [k; m] -> (0 < n)%nat -> (0 < k)%nat -> (0 < m)%nat -> holds h a va -> holds h b vb ->
     returns (int_matmul NoChecks lo hi h a b) [n; m] (fun idx => sum (map (fun t => va [nth 0 idx 0%nat; t] * vb [t; nth 1 idx 0%nat]) (seq 0 k)))) /\
  (forall a b va vb q n k m, a_shape a = [q; n; k] -> a_shape b = [q; k; m] -> (0 < q)%nat -> (0 < n)%nat -> (0 < k)%nat -> (0 < m)%nat -> holds h a va -> holds h b vb ->
     returns (int_bmm NoChecks lo hi h a b) [q; n; m]
       (fun idx => sum (map (fun t => va [nth 0 idx 0%nat; nth 1 idx 0%nat; t] * vb [nth 0 idx 0%nat; t; nth 2 idx 0%nat]) (seq 0 k)))) /\
  (forall ops subs vals out sm dm, einsum_ok ops subs out sm dm -> Forall2 (holds h) ops vals ->
     returns (int_einsum NoChecks lo hi h ops subs out) (map dm out) (einsum_value 0 1 Z.add Z.mul dm subs vals out sm)).
Proof.
  intros lo hi h RG IH sum returns. repeat split; intros.
  - now apply w_dot.
  - now apply w_matvec.
  - now apply w_matmul.
  - now apply w_bmm.
  - now apply w_einsum.
Qed.
Print Assumptions C77_wraps.

(** a bound that rules out every overflow, whatever kernel is chosen: the sum of the products
    of the magnitudes, where 0 counts as 1, is at most the largest value of the type *)
Section NoOverflow.
  Variables (lo hi : Z) (h : heap Z).
  Hypothesis RG : int_range lo hi.
  Hypothesis IH : int_heap lo hi h.
  Let TY : 1 <= hi /\ (lo = 0 \/ lo <= - hi). Proof. destruct RG as [? [?|?]]; split; lia. Qed.
  Let hb := lift big h.
  Lemma bC : cells (Rm lo) Gm h hb.
  Proof.
    split; [unfold hb, lift; now rewrite map_length|]. intros c o. unfold hb. rewrite lift_load. destruct (load h c o) as [x| |] eqn:E; cbn; auto.
    pose proof (IH _ _ _ E) as F. unfold fits in F. unfold Rm, Gm, big. repeat split; lia.
  Qed.
  Lemma hb_len : length hb = length h. Proof. unfold hb, lift. now rewrite map_length. Qed.
  Lemma fresh_bnd h2 r sh val : fresh_result hb h2 r sh (fun idx => Ok (val idx)) -> (forall idx, in_range idx sh -> val idx <= hi) -> bnd hi (length h) h2.
  Proof.
    intros (_ & ER & _ & _ & _ & (l & NL & LL) & V) B o u E. rewrite hb_len in *.
    assert (O : (o < prod sh)%nat). { unfold load in E. rewrite NL in E. destruct (nth_error l o) eqn:Q; [|discriminate]. apply nth_error_Some_lt in Q || (assert (nth_error l o <> None) by congruence; apply nth_error_Some in H); lia. }
    destruct (unrank_in_range o sh O) as [IR RK]. specialize (V _ IR). unfold get in V. rewrite ER in V. cbn [fresh_arr a_blk a_off a_stride plus] in V.
    rewrite stride_from_shape_rm, <- rank_dot, RK in V by exact IR. rewrite E in V. injection V as ->. now apply B.
  Qed.
  Lemma settle {X} (run : profile -> res X) (ex : res X) (P : X -> Prop) : ref (run Checks) ex -> ref (run Checks) (run NoChecks) -> (exists x, run Checks = Ok x) ->
    (exists x, ex = Ok x /\ P x) -> forall p, exists x, run p = Ok x /\ P x.
  Proof.
    intros R1 R2 (x & E) (y & Ey & Py). rewrite E in *. destruct R1 as [?|R1]; [discriminate|]. destruct R2 as [?|R2]; [discriminate|]. rewrite Ey in R1. injection R1 as ->.
    intros [|]; exists y; auto.
  Qed.
  Lemma settle2 (run : profile -> res (heap Z * arr)) ex sh val : ref (run Checks) ex -> ref (run Checks) (run NoChecks) -> (exists h2 r, run Checks = Ok (h2, r)) ->
    (exists h2 r, ex = Ok (h2, r) /\ fresh_result h h2 r sh val) -> forall p, exists h2 r, run p = Ok (h2, r) /\ fresh_result h h2 r sh val.
  Proof.
    intros R1 R2 (h2 & r & E) (h3 & r3 & E3 & F) p.
    destruct (settle run ex (fun x => fresh_result h (fst x) (snd x) sh val) R1 R2 ltac:(eauto) ltac:(eauto) p) as ([h4 r4] & E4 & F4). exists h4, r4. auto.
  Qed.
  Let RA x y : ref (iadd Checks lo hi x y) (Ok (x + y)). Proof. apply mk_exact. Qed.
  Let RM x y : ref (imul Checks lo hi x y) (Ok (x * y)). Proof. apply mk_exact. Qed.
  Let RF x y z : ref (ifma Checks lo hi x y z) (Ok (x * y + z)). Proof. apply (checks_exact lo hi). Qed.
  Let SA x y : ref (iadd Checks lo hi x y) (iadd NoChecks lo hi x y). Proof. apply mk_wrap. Qed.
  Let SM x y : ref (imul Checks lo hi x y) (imul NoChecks lo hi x y). Proof. apply mk_wrap. Qed.
  Let SF x y z : ref (ifma Checks lo hi x y z) (ifma NoChecks lo hi x y z). Proof. apply (checks_wrap lo hi). Qed.

  Section Two.
    Variables (a b : arr) (va vb : list nat -> Z).
    Hypothesis HA : holds h a va.
    Hypothesis HB : holds h b vb.
    Ltac live H SH := eapply holds_live_elem; [rewrite SH; repeat constructor; assumption|exact H].
    Lemma b_dot n : a_shape a = [n] -> a_shape b = [n] -> (0 < n)%nat -> bigsum Z.add 0 (map (fun k => big (va [k]) * big (vb [k])) (seq 0 n)) <= hi ->
      forall p, exists h2 r, int_dot p lo hi h a b = Ok (h2, r) /\ fresh_result h h2 r [] (fun _ => Ok (bigsum Z.add 0 (map (fun k => va [k] * vb [k]) (seq 0 n)))).
    Proof.
      intros EA EB N B. eapply (settle2 (fun p => int_dot p lo hi h a b)); [apply ref_nd_dot; [exact RA|exact RM]|apply ref_nd_dot; [exact SA|exact SM]| |exact (C26_dot Z 0 1 Z.add Z.mul Z_csr h a b va vb n EA EB N HA HB)].
      destruct (C26_dot Z 0 1 Z.add Z.mul Z_csr hb a b _ _ n EA EB N (lift_holds big h a va HA) (lift_holds big h b vb HB)) as (h2 & r & E & FR).
      pose proof (n_dot lo hi TY h hb bC a b h2 r ltac:(live HA EA) ltac:(live HB EB) E (fresh_bnd h2 r _ _ FR (fun _ _ => B))) as (h3 & E3). eauto.
    Qed.
    Lemma b_matvec n k : a_shape a = [n; k] -> a_shape b = [k] -> (0 < n)%nat -> (0 < k)%nat ->
      (forall i, (i < n)%nat -> bigsum Z.add 0 (map (fun t => big (va [i; t]) * big (vb [t])) (seq 0 k)) <= hi) ->
      forall p, exists h2 r, int_matmul p lo hi h a b = Ok (h2, r) /\ fresh_result h h2 r [n] (fun idx => Ok (bigsum Z.add 0 (map (fun t => va [hd 0%nat idx; t] * vb [t]) (seq 0 k)))).
    Proof.
      intros EA EB N K B. eapply (settle2 (fun p => int_matmul p lo hi h a b)); [apply ref_nd_matmul; [exact RA|exact RM|exact RF]|apply ref_nd_matmul; [exact SA|exact SM|exact SF]| |exact (C26_matvec Z 0 1 Z.add Z.mul Z_csr h a b va vb n k EA EB N K HA HB)].
      destruct (C26_matvec Z 0 1 Z.add Z.mul Z_csr hb a b _ _ n k EA EB N K (lift_holds big h a va HA) (lift_holds big h b vb HB)) as (h2 & r & E & FR).
      assert (BN : bnd hi (length h) h2). { eapply fresh_bnd; [exact FR|]. intros idx I. cbv beta. inversion I; subst. apply B. assumption. }
      destruct (n_matmul lo hi TY h hb bC a b h2 r ltac:(live HA EA) ltac:(live HB EB) E BN) as (h3 & E3). eauto.
    Qed.
    Lemma b_matmul n k m : a_shape a = [n; k] -> a_shape b = [k; m] -> (0 < n)%nat -> (0 < k)%nat -> (0 < m)%nat ->
      (forall i j, (i < n)%nat -> (j < m)%nat -> bigsum Z.add 0 (map (fun t => big (va [i; t]) * big (vb [t; j])) (seq 0 k)) <= hi) ->
      forall p, exists h2 r, int_matmul p lo hi h a b = Ok (h2, r) /\ fresh_result h h2 r [n; m] (fun idx => Ok (bigsum Z.add 0 (map (fun t => va [nth 0 idx 0%nat; t] * vb [t; nth 1 idx 0%nat]) (seq 0 k)))).
    Proof.
      intros EA EB N K M B. eapply (settle2 (fun p => int_matmul p lo hi h a b)); [apply ref_nd_matmul; [exact RA|exact RM|exact RF]|apply ref_nd_matmul; [exact SA|exact SM|exact SF]| |exact (C26_matmul Z 0 1 Z.add Z.mul Z_csr h a b va vb n k m EA EB N K M HA HB)].
      destruct (C26_matmul Z 0 1 Z.add Z.mul Z_csr hb a b _ _ n k m EA EB N K M (lift_holds big h a va HA) (lift_holds big h b vb HB)) as (h2 & r & E & FR).
      assert (BN : bnd hi (length h) h2). { eapply fresh_bnd; [exact FR|]. intros idx I. cbv beta. inversion I as [|i ? idx' ? I1 I2]; subst. inversion I2; subst. apply B; assumption. }
      destruct (n_matmul lo hi TY h hb bC a b h2 r ltac:(live HA EA) ltac:(live HB EB) E BN) as (h3 & E3). eauto.
    Qed.
    Lemma b_bmm q n k m : a_shape a = [q; n; k] -> a_shape b = [q; k; m] -> (0 < q)%nat -> (0 < n)%nat -> (0 < k)%nat -> (0 < m)%nat ->
      (forall t i j, (t < q)%nat -> (i < n)%nat -> (j < m)%nat -> bigsum Z.add 0 (map (fun s => big (va [t; i; s]) * big (vb [t; s; j])) (seq 0 k)) <= hi) ->
      forall p, exists h2 r, int_bmm p lo hi h a b = Ok (h2, r) /\
        fresh_result h h2 r [q; n; m] (fun idx => Ok (bigsum Z.add 0 (map (fun t => va [nth 0 idx 0%nat; nth 1 idx 0%nat; t] * vb [nth 0 idx 0%nat; t; nth 2 idx 0%nat]) (seq 0 k)))).
    Proof.
      intros EA EB Q N K M B.
      pose proof (n_bmm lo hi TY h hb a b _ _ q n k m bC Z_csr EA EB Q N K M (lift_holds big h a va HA) (lift_holds big h b vb HB) B) as OK.
      pose proof (C26_bmm Z 0 1 Z.add Z.mul Z_csr h a b va vb q n k m EA EB Q N K M HA HB) as EX.
      pose proof (ref_nd_bmm 0 1 _ _ _ _ _ _ RA RM RF h a b) as R1. pose proof (ref_nd_bmm 0 1 _ _ _ _ _ _ SA SM SF h a b) as R2.
      exact (settle2 (fun p => int_bmm p lo hi h a b) _ _ _ R1 R2 OK EX).
    Qed.
  End Two.
  Lemma b_einsum ops subs vals out sm dm : einsum_ok ops subs out sm dm -> Forall2 (holds h) ops vals ->
    (forall oidx, in_range oidx (map dm out) -> einsum_value 0 1 Z.add Z.mul dm subs (map (fun v idx => big (v idx)) vals) out sm oidx <= hi) ->
    forall p, exists h2 r, int_einsum p lo hi h ops subs out = Ok (h2, r) /\ fresh_result h h2 r (map dm out) (fun oidx => Ok (einsum_value 0 1 Z.add Z.mul dm subs vals out sm oidx)).
  Proof.
    intros (HS & HO & ND & CV & NE & L32 & L15 & SH & PD) HV B.
    pose proof (C27_einsum_partial Z 0 1 Z.add Z.mul Z_csr h ops subs vals out sm dm HS HO ND CV NE L32 L15 SH HV PD) as EX.
    pose proof (ref_nd_einsum 0 1 _ _ _ _ _ _ RA RM RF h ops subs out) as R1. pose proof (ref_nd_einsum 0 1 _ _ _ _ _ _ SA SM SF h ops subs out) as R2.
    refine (settle2 (fun p => int_einsum p lo hi h ops subs out) _ _ _ R1 R2 _ EX).
    assert (HW : Forall2 (holds hb) ops (map (fun v idx => big (v idx)) vals)). { clear - HV. induction HV; constructor; auto. now apply lift_holds. }
    destruct (C27_einsum_partial Z 0 1 Z.add Z.mul Z_csr hb ops subs _ out sm dm HS HO ND CV NE L32 L15 SH HW PD) as (h2 & r & E & FR).
    destruct (n_einsum lo hi TY h hb bC ops subs out h2 r (ops_live h ops subs vals out sm dm CV SH HV PD) E (fresh_bnd h2 r _ _ FR B)) as (h3 & E3). eauto.
  Qed.
End NoOverflow.

Theorem C77_no_overflow : forall lo hi (h : heap Z), int_range lo hi -> int_heap lo hi h ->
  let sum := bigsum Z.add 0 in
  let returns x sh val := forall p, exists h' r, x p = Ok (h', r) /\ fresh_result h h' r sh (fun idx => Ok (val idx)) in
  (forall a b va vb n, a_shape a = [n] -> a_shape b = [n] -> (0 < n)%nat -> holds h a va -> holds h b vb ->
     sum (map (fun k => big (va [k]) * big (vb [k])) (seq 0 n)) <= hi ->
     returns (fun p => int_dot p lo hi h a b) [] (fun _ => sum (map (fun k => va [k] * vb [k]) (seq 0 n)))) /\
  (forall a b va vb n k, a_shape a = [n; k] -> a_shape b = [k] -> (0 < n)%nat -> (0 < k)%nat -> holds h a va -> holds h b vb ->
     (forall i, (i < n)%nat -> sum (map (fun t => big (va [i; t]) * big (vb [t])) (seq 0 k)) <= hi) ->
     returns (fun p => int_matmul p lo hi h a b) [n] (fun idx => sum (map (fun t => va [hd 0%nat idx; t] * vb [t]) (seq 0 k)))) /\
  (forall a b va vb n k m, a_shape a = [n; k] -> a_shape b = [k; m] -> (0 < n)%nat -> (0 < k)%nat -> (0 < m)%nat -> holds h a va -> holds h b vb ->
     (forall i j, (i < n)%nat -> (j < m)%nat -> sum (map (fun t => big (va [i; t]) * big (vb [t; j])) (seq 0 k)) <= hi) ->
     returns (fun p => int_matmul p lo hi h a b) [n; m] (fun idx => sum (map (fun t => va [nth 0 idx 0%nat; t] * vb [t; nth 1 idx 0%nat]) (seq 0 k)))) /\
  (forall a b va vb q n k m, a_shape a = [q; n; k] -> a_shape b = [q; k; m] -> (0 < q)%nat -> (0 < n)%nat -> (0 < k)%nat -> (0 < m)%nat -> holds h a va -> holds h b vb ->
     (forall t i j, (t < q)%nat -> (i < n)%nat -> (j < m)%nat -> sum (map (fun s => big (va [t; i; s]) * big (vb [t; s; j])) (seq 0 k)) <= hi) ->
     returns (fun p => int_bmm p lo hi h a b) [q; n; m]
       (fun idx => sum (map (fun t => va [nth 0 idx 0%nat; nth 1 idx 0%nat; t] * vb [nth 0 idx 0%nat; t; nth 2 idx 0%nat]) (seq 0 k)))) /\
  (forall ops subs vals out sm dm, einsum_ok ops subs out sm dm -> Forall2 (holds h) ops vals ->
     (forall oidx, in_range oidx (map dm out) -> einsum_value 0 1 Z.add Z.mul dm subs (map (fun v idx => big (v idx)) vals) out sm oidx <= hi) ->
     returns (fun p => int_einsum p lo hi h ops subs out) (map dm out) (einsum_value 0 1 Z.add Z.mul dm subs vals out sm)).
Proof.
  intros lo hi h RG IH sum returns. split; [|split; [|split; [|split]]].
  - intros a b va vb n EA EB N HA HB B. exact (b_dot lo hi h RG IH a b va vb HA HB n EA EB N B).
  - intros a b va vb n k EA EB N K HA HB B. exact (b_matvec lo hi h RG IH a b va vb HA HB n k EA EB N K B).
  - intros a b va vb n k m EA EB N K M HA HB B. exact (b_matmul lo hi h RG IH a b va vb HA HB n k m EA EB N K M B).
  - intros a b va vb q n k m EA EB Q N K M HA HB B. exact (b_bmm lo hi h RG IH a b va vb HA HB q n k m EA EB Q N K M B).
  - intros ops subs vals out sm dm OK HV B. exact (b_einsum lo hi h RG IH ops subs vals out sm dm OK HV B).
Qed.
Print Assumptions C77_no_overflow.

(** dot and matrix times vector with checks: exactly when they panic.  [terms] are the exact
    products in order: each of them and each partial sum has to fit. *)
Definition safe (lo hi : Z) (terms : list Z) : Prop :=
  Forall (fits lo hi) terms /\ forall k, (k <= length terms)%nat -> fits lo hi (fold_left Z.add (firstn k terms) 0).

Section Checked.
  Variables lo hi : Z.
  Let step (x s : Z) : res Z := v <- imk Checks lo hi x ;; imk Checks lo hi (s + v).
  Definition safe_from (s : Z) (terms : list Z) : Prop :=
    Forall (fits lo hi) terms /\ forall k, (k <= length terms)%nat -> fits lo hi (fold_left Z.add (firstn k terms) s).
  Lemma step_cases L : forall s, fits lo hi s ->
    (safe_from s L /\ foldM step L s = Ok (fold_left Z.add L s)) \/ (~ safe_from s L /\ foldM step L s = Panic).
  Proof.
    induction L as [|x L IH]; intros s F.
    - left. split; [|reflexivity]. split; [constructor|]. intros [|k] K; cbn in *; [exact F|lia].
    - cbn [foldM]. unfold step at 1 3. destruct (fits_dec lo hi x) as [X|X].
      + rewrite (chk_fits _ _ _ X). cbn [bind]. destruct (fits_dec lo hi (s + x)) as [Y|Y].
        * rewrite (chk_fits _ _ _ Y). cbn [bind]. destruct (IH _ Y) as [[[A B] E]|[N E]].
          { left. split; [|exact E]. split; [now constructor|]. intros [|k] K; [exact F|]. cbn [firstn fold_left]. apply B. cbn in K. lia. }
          { right. split; [|exact E]. intros [A B]. apply N. inversion A; subst. split; [assumption|]. intros k K. apply (B (S k)). cbn. lia. }
        * rewrite (chk_not _ _ _ Y). right. split; [|reflexivity]. intros [A B]. apply Y. apply (B 1%nat). cbn. lia.
      + rewrite (chk_not _ _ _ X). right. split; [|reflexivity]. intros [A B]. inversion A; contradiction.
  Qed.
  Lemma dot_go_steps h s0 s1 n : forall p0 p1 acc (V W : nat -> Z),
    (forall k, (k < n)%nat -> ld h (padd p0 (k * s0)) = Ok (V k)) -> (forall k, (k < n)%nat -> ld h (padd p1 (k * s1)) = Ok (W k)) ->
    dot_go (iadd Checks lo hi) (imul Checks lo hi) h p0 s0 p1 s1 n acc = foldM step (map (fun k => V k * W k) (seq 0 n)) acc.
  Proof.
    induction n as [|n IH]; intros p0 p1 acc V W HV HW; [reflexivity|]. cbn [dot_go seq map foldM].
    pose proof (HV 0%nat ltac:(lia)) as E0. pose proof (HW 0%nat ltac:(lia)) as E1. cbn [Nat.mul] in E0, E1.
    assert (P0 : forall p, padd p 0 = p) by (intros [x y]; unfold padd; cbn; f_equal; lia). rewrite P0 in E0, E1. rewrite E0, E1. cbn [bind].
    unfold step at 1, imul, iadd. destruct (imk Checks lo hi (V 0%nat * W 0%nat)) as [v| |]; cbn [bind]; try reflexivity. destruct (imk Checks lo hi (acc + v)) as [s| |]; cbn [bind]; try reflexivity.
    rewrite <- seq_shift, map_map. apply (IH _ _ _ (fun k => V (S k)) (fun k => W (S k))).
    - intros k K. rewrite <- (HV (S k)) by lia. unfold padd. cbn [fst snd]. do 2 f_equal. cbn [Nat.mul]. lia.
    - intros k K. rewrite <- (HW (S k)) by lia. unfold padd. cbn [fst snd]. do 2 f_equal. cbn [Nat.mul]. lia.
  Qed.
  Hypothesis RG : int_range lo hi.
  Lemma strided_cases h s0 s1 n p0 p1 d (V W : nat -> Z) :
    (forall k, (k < n)%nat -> ld h (padd p0 (k * s0)) = Ok (V k)) -> (forall k, (k < n)%nat -> ld h (padd p1 (k * s1)) = Ok (W k)) -> ld h d = Ok 0 ->
    let L := map (fun k => V k * W k) (seq 0 n) in
    (safe lo hi L /\ exists w h', strided_dot 0 (iadd Checks lo hi) (imul Checks lo hi) h p0 s0 p1 s1 d n = Ok h' /\ st h d w = Ok h') \/
    (~ safe lo hi L /\ strided_dot 0 (iadd Checks lo hi) (imul Checks lo hi) h p0 s0 p1 s1 d n = Panic).
  Proof.
    intros HV HW HD L. unfold strided_dot. rewrite (dot_go_steps h s0 s1 n p0 p1 0 V W HV HW). fold L. pose proof (range_le _ _ RG) as (R1 & R2 & _).
    destruct (step_cases L 0) as [[S E]|[S E]]; [unfold fits; lia| |]; rewrite E; cbn [bind]; [left|right; split; [exact S|reflexivity]].
    split; [exact S|]. unfold add_to. rewrite HD. cbn [bind]. destruct S as [_ S]. specialize (S (length L) (le_n _)). rewrite firstn_all in S.
    unfold iadd. rewrite chk_fits by (rewrite Z.add_0_l; exact S). cbn [bind]. destruct (store_ok h (fst d) (snd d) (0 + fold_left Z.add L 0) 0 HD) as (h' & E'). exists (0 + fold_left Z.add L 0), h'. auto.
  Qed.
  Lemma safe_dec L : {safe lo hi L} + {~ safe lo hi L}.
  Proof.
    assert (D : forall n, {forall k, (k < n)%nat -> fits lo hi (fold_left Z.add (firstn k L) 0)} + {~ forall k, (k < n)%nat -> fits lo hi (fold_left Z.add (firstn k L) 0)}).
    { induction n as [|n [A|A]]; [left; lia| |right; intros B; apply A; intros; apply B; lia].
      destruct (fits_dec lo hi (fold_left Z.add (firstn n L) 0)) as [F|F]; [left|right; intros B; apply F, B; lia].
      intros k K. destruct (Nat.eq_dec k n) as [->|]; [exact F|]. apply A. lia. }
    destruct (Forall_dec (fits lo hi) (fits_dec lo hi) L) as [A|A]; [|right; intros [B _]; contradiction].
    destruct (D (S (length L))) as [B|B]; [left; split; [exact A|intros; apply B; lia]|right]. intros [_ C]. apply B. intros. apply C. lia.
  Qed.
  Lemma matvec_cases b rs s v t cols (M : nat -> nat -> Z) (W : nat -> Z) : fst v <> b -> forall rows h row d i0,
    fst row <> b -> fst d = b ->
    (forall i k, (i < rows)%nat -> (k < cols)%nat -> ld h (padd row (i * rs + k * s)) = Ok (M (i0 + i)%nat k)) -> (forall k, (k < cols)%nat -> ld h (padd v (k * t)) = Ok (W k)) ->
    (forall i, (i < rows)%nat -> ld h (padd d i) = Ok 0) ->
    let L i := map (fun k => M (i0 + i)%nat k * W k) (seq 0 cols) in
    ((forall i, (i < rows)%nat -> safe lo hi (L i)) -> exists h', matvec_go 0 (iadd Checks lo hi) (imul Checks lo hi) h row rs s v t d cols rows = Ok h') /\
    ((exists i, (i < rows)%nat /\ ~ safe lo hi (L i)) -> matvec_go 0 (iadd Checks lo hi) (imul Checks lo hi) h row rs s v t d cols rows = Panic).
  Proof.
    intros NV. induction rows as [|rows IH]; intros h row d i0 NR ND HM HW HD L; cbn [matvec_go].
    - split; [eauto|]. intros (i & I & _). lia.
    - assert (P0 : padd d 0 = d) by (destruct d; unfold padd; cbn; f_equal; lia).
      destruct (strided_cases h s t cols row v d (fun k => M (i0 + 0)%nat k) W) as [[SF (w & h' & E & ST)]|[SF E]].
      + intros k K. rewrite <- (HM 0%nat k) by lia. reflexivity.
      + exact HW.
      + rewrite <- (HD 0%nat) by lia. now rewrite P0.
      + rewrite E. cbn [bind]. assert (SAME : forall p : ptr, fst p <> b \/ snd p <> snd d -> ld h' p = ld h p).
        { intros [x y] H. unfold ld. cbn [fst snd] in *. eapply load_store_other; [exact ST|]. intros Q. injection Q as -> ->. destruct H; congruence. }
        destruct (IH h' (padd row rs) (padd d 1) (S i0)) as [A B].
        * exact NR.
        * exact ND.
        * intros i k I K. rewrite SAME by (left; exact NR). replace (padd (padd row rs) (i * rs + k * s)) with (padd row (S i * rs + k * s)) by (unfold padd; cbn [fst snd]; f_equal; lia).
          rewrite HM by lia. do 2 f_equal. lia.
        * intros k K. rewrite SAME by (left; exact NV). now apply HW.
        * intros i I. replace (padd (padd d 1) i) with (padd d (S i)) by (unfold padd; cbn [fst snd]; f_equal; lia). rewrite SAME by (right; unfold padd; cbn [snd]; lia). apply HD. lia.
        * assert (LS : forall i, map (fun k => M (S i0 + i)%nat k * W k) (seq 0 cols) = L (S i)) by (intros i; unfold L; now replace (S i0 + i)%nat with (i0 + S i)%nat by lia).
          split.
          { intros H. apply A. intros i I. rewrite LS. apply H. lia. }
          { intros (i & I & H). apply B. destruct i as [|i]; [contradiction|]. exists i. split; [lia|]. now rewrite LS. }
      + rewrite E. split; [|reflexivity]. intros H. exfalso. apply SF. apply (H 0%nat). lia.
  Qed.
End Checked.

Theorem C77_dot_checked : forall lo hi (h : heap Z) a b va vb n, int_range lo hi ->
  a_shape a = [n] -> a_shape b = [n] -> (0 < n)%nat -> holds h a va -> holds h b vb ->
  let terms := map (fun k => va [k] * vb [k]) (seq 0 n) in
  (safe lo hi terms -> exists h' r, int_dot Checks lo hi h a b = Ok (h', r) /\ fresh_result h h' r [] (fun _ => Ok (bigsum Z.add 0 terms))) /\
  (~ safe lo hi terms -> int_dot Checks lo hi h a b = Panic).
Proof.
  intros lo hi h a b va vb n RG EA EB N HA HB terms.
  pose proof (ref_nd_dot 0 (iadd Checks lo hi) (imul Checks lo hi) (fun x y => Ok (x + y)) (fun x y => Ok (x * y)) (fun x y => mk_exact lo hi (x + y)) (fun x y => mk_exact lo hi (x * y)) h a b) as RF.
  destruct (C26_dot Z 0 1 Z.add Z.mul Z_csr h a b va vb n EA EB N HA HB) as (h2 & r & E & FR).
  assert (X : (safe lo hi terms /\ exists y, int_dot Checks lo hi h a b = Ok y) \/ (~ safe lo hi terms /\ int_dot Checks lo hi h a b = Panic)).
  { pose proof (holds_live h a va ltac:(rewrite EA; repeat constructor; exact N) HA) as La. pose proof (holds_live h b vb ltac:(rewrite EB; repeat constructor; exact N) HB) as Lb.
    destruct HA as [La' HA], HB as [Lb' HB]. unfold int_dot, nd_dot. rewrite EA, EB in *. destruct (a_stride a) as [|s [|? ?]] eqn:Ea; try discriminate. destruct (a_stride b) as [|t [|? ?]] eqn:Eb; try discriminate.
    rewrite Nat.eqb_refl. cbn [guard bind nd_scalar nd_full prod fold_right repeat length Nat.eqb negb from_buffer alloc].
    assert (SRC : forall (c : arr) (v : list nat -> Z) u, (a_blk c < length h)%nat -> a_stride c = [u] -> (forall idx, in_range idx [n] -> get h c idx = Ok (v idx)) ->
      forall k, (k < n)%nat -> ld (h ++ [Some [0]]) (padd (a_ptr c) (k * u)) = Ok (v [k])).
    { intros c v u L Es H k K. specialize (H [k] ltac:(repeat constructor; exact K)). unfold get in H. rewrite Es in H. cbn [dot] in H. rewrite Nat.add_0_r in H.
      unfold ld. cbn [padd a_ptr fst snd]. rewrite load_app_old by exact L. exact H. }
    destruct (strided_cases lo hi RG (h ++ [Some [0]]) s t n (a_ptr a) (a_ptr b) (length h, 0%nat) (fun k => va [k]) (fun k => vb [k])) as [[S (w & h' & Q & _)]|[S Q]].
    - now apply SRC.
    - now apply SRC.
    - unfold ld. cbn [fst snd]. now rewrite load_app_new.
    - left. split; [exact S|]. change (a_ptr (fresh_arr (length h) 1 [])) with (length h, 0%nat). rewrite Q. cbn [bind]. eauto.
    - right. split; [exact S|]. change (a_ptr (fresh_arr (length h) 1 [])) with (length h, 0%nat). now rewrite Q. }
  destruct X as [[S (y & Y)]|[S Y]]; (split; [intros S'|intros S']); try contradiction; [|exact Y].
  exists h2, r. split; [|exact FR]. destruct RF as [RF|RF]; [|now rewrite <- E].
  change (nd_dot 0 (iadd Checks lo hi) (imul Checks lo hi) h a b) with (int_dot Checks lo hi h a b) in RF. congruence.
Qed.
Print Assumptions C77_dot_checked.

Theorem C77_matvec_checked : forall lo hi (h : heap Z) a b va vb n k, int_range lo hi ->
  a_shape a = [n; k] -> a_shape b = [k] -> (0 < n)%nat -> (0 < k)%nat -> holds h a va -> holds h b vb ->
  let terms i := map (fun t => va [i; t] * vb [t]) (seq 0 k) in
  ((forall i, (i < n)%nat -> safe lo hi (terms i)) ->
     exists h' r, int_matmul Checks lo hi h a b = Ok (h', r) /\ fresh_result h h' r [n] (fun idx => Ok (bigsum Z.add 0 (terms (hd 0%nat idx))))) /\
  ((exists i, (i < n)%nat /\ ~ safe lo hi (terms i)) -> int_matmul Checks lo hi h a b = Panic).
Proof.
  intros lo hi h a b va vb n k RG EA EB N K HA HB terms.
  pose proof (ref_nd_matmul 0 1 (iadd Checks lo hi) (imul Checks lo hi) (fun x y => Ok (x + y)) (fun x y => Ok (x * y)) (ifma Checks lo hi) (fun x y z => Ok (x * y + z))
    (fun x y => mk_exact lo hi (x + y)) (fun x y => mk_exact lo hi (x * y)) (proj1 (proj2 (proj2 (proj2 (checks_exact lo hi))))) h a b) as RF.
  destruct (C26_matvec Z 0 1 Z.add Z.mul Z_csr h a b va vb n k EA EB N K HA HB) as (h2 & r & E & FR).
  assert (X : ((forall i, (i < n)%nat -> safe lo hi (terms i)) -> exists y, int_matmul Checks lo hi h a b = Ok y) /\ ((exists i, (i < n)%nat /\ ~ safe lo hi (terms i)) -> int_matmul Checks lo hi h a b = Panic)).
  { pose proof (holds_live h a va ltac:(rewrite EA; repeat constructor; assumption) HA) as La. pose proof (holds_live h b vb ltac:(rewrite EB; repeat constructor; assumption) HB) as Lb.
    destruct HA as [La' HA], HB as [Lb' HB]. unfold int_matmul, nd_matmul. rewrite EA, EB in *. destruct (a_stride a) as [|rs [|s [|? ?]]] eqn:Ea; try discriminate. destruct (a_stride b) as [|t [|? ?]] eqn:Eb; try discriminate.
    rewrite Nat.eqb_refl. cbn [guard bind alloc].
    destruct (matvec_cases lo hi RG (length h) rs s (a_ptr b) t k (fun i j => va [i; j]) (fun j => vb [j]) ltac:(cbn; lia) n (h ++ [Some (repeat 0 n)]) (a_ptr a) (length h, 0%nat) 0) as [A B].
    - cbn. lia.
    - reflexivity.
    - intros i j I J. specialize (HA [i; j] ltac:(repeat constructor; assumption)). unfold get in HA. rewrite Ea in HA. cbn [dot] in HA. rewrite Nat.add_0_r in HA.
      unfold ld. cbn [padd a_ptr fst snd]. rewrite load_app_old by exact La. exact HA.
    - intros j J. specialize (HB [j] ltac:(repeat constructor; assumption)). unfold get in HB. rewrite Eb in HB. cbn [dot] in HB. rewrite Nat.add_0_r in HB.
      unfold ld. cbn [padd a_ptr fst snd]. rewrite load_app_old by exact Lb. exact HB.
    - intros i I. unfold ld. cbn [padd fst snd plus]. rewrite load_app_new. rewrite nth_error_repeat by exact I. reflexivity.
    - split.
      + intros H. destruct (A H) as (h' & ->). cbn [bind]. eauto.
      + intros H. now rewrite (B H). }
  split; [intros S|exact (proj2 X)]. destruct (proj1 X S) as (y & Y). exists h2, r. split; [|exact FR]. destruct RF as [RF|RF]; [|now rewrite <- E].
  change (nd_matmul 0 1 (iadd Checks lo hi) (imul Checks lo hi) (ifma Checks lo hi) h a b) with (int_matmul Checks lo hi h a b) in RF. congruence.
Qed.
Print Assumptions C77_matvec_checked.

(** ** examples, on i8 and u8 *)
Local Notation i8 p f := (f p (-128) 127) (only parsing).
Local Notation u8 p f := (f p 0 255) (only parsing).
Example C77_wrap_ex : int_range (-128) 127 /\ int_range 0 255 /\ wrap (-128) 127 200 = -56 /\ wrap (-128) 127 (-300) = -44 /\ wrap 0 255 (-1) = 255 /\ wrap 0 255 77 = 77.
Proof. unfold int_range. repeat split; try lia; reflexivity. Qed.
Definition v4 := fresh_arr 0 4 [2; 2]%nat.
Definition v4t := mkArr 0 0 4 4 [2; 2]%nat [1; 2]%nat (mkFlags true true true false true false).
(** a sum that fits, with partial sums that fit in one order and not in the other *)
Example C77_sum_order : let h := [Some [100; -100; 100; -100]] in
  (exists h' r, i8 Checks int_sum h v4 = Ok (h', r) /\ elems h' r = Ok [0]) /\ elems h v4t = Ok [100; 100; -100; -100] /\
  i8 Checks int_sum h v4t = Panic /\ (exists h' r, i8 NoChecks int_sum h v4t = Ok (h', r) /\ elems h' r = Ok [0]).
Proof. split; [eexists _, _; split; vm_compute; reflexivity|]. split; [reflexivity|]. split; [reflexivity|]. eexists _, _. split; vm_compute; reflexivity. Qed.
Example C77_sum_product_ex : let h := [Some [100; 27; 1; 2]] in
  i8 Checks int_sum h v4 = Panic /\ (exists h' r, i8 NoChecks int_sum h v4 = Ok (h', r) /\ elems h' r = Ok [-126]) /\
  (exists h' r, i8 NoChecks int_product h v4 = Ok (h', r) /\ elems h' r = Ok [wrap (-128) 127 5400]) /\
  (exists h' r, i8 Checks int_sum_along h v4 [-1] = Ok (h', r) /\ elems h' r = Ok [127; 3]) /\ i8 Checks int_product_along h v4 [0] = Ok (h ++ [Some [100; 54]], fresh_arr 1 2 [2%nat]) /\
  (exists h' r, i8 Checks int_trace h v4 0 0 1 = Ok (h', r) /\ elems h' r = Ok [102]).
Proof. split; [reflexivity|]. split; [|split; [|split; [|split]]]; try reflexivity; eexists _, _; split; vm_compute; reflexivity. Qed.
Example C77_elementwise_ex : let h := [Some [100; 27; 1; -128]] in
  i8 Checks int_add h v4 v4 = Panic /\ (exists h' r, i8 NoChecks int_add h v4 v4 = Ok (h', r) /\ elems h' r = Ok [-56; 54; 2; 0]) /\
  i8 Checks int_neg h v4 = Panic /\ (exists h' r, i8 NoChecks int_neg h v4 = Ok (h', r) /\ elems h' r = Ok [-100; -27; -1; -128]) /\
  (exists h' r, i8 Checks int_add_scalar h v4 27 = Ok (h', r) /\ elems h' r = Ok [127; 54; 28; -101]).
Proof. split; [reflexivity|]. split; [|split; [|split]]; try reflexivity; eexists _, _; split; vm_compute; reflexivity. Qed.
(** the smallest i8: max_magnitude of an array that holds only it panics, or returns -128;
    max_magnitude_along starts at 0 and returns 0 *)
Example C77_magnitudes_ex : let h := [Some [-128; -128]] in let v := fresh_arr 0 2 [2%nat] in
  i8 Checks int_max_magnitude h v = Panic /\ (exists h' r, i8 NoChecks int_max_magnitude h v = Ok (h', r) /\ elems h' r = Ok [-128]) /\
  (exists h' r, nd_reduce_along (partial_max_magnitude Z.ltb (iabs NoChecks (-128) 127)) 0 h v [0] = Ok (h', r) /\ elems h' r = Ok [0]) /\
  (exists h' r, i8 NoChecks int_min_magnitude [Some [5; -128]] v = Ok (h', r) /\ elems h' r = Ok [-128]) /\
  (exists h' r, i8 Checks int_max_magnitude [Some [5; -127]] v = Ok (h', r) /\ elems h' r = Ok [127]).
Proof. split; [reflexivity|]. repeat split; eexists _, _; split; vm_compute; reflexivity. Qed.
Example C77_dot_ex : let h := [Some [100; 100]; Some [1; -1]; Some [1; 1]; Some [2; -2]] in let v k := fresh_arr k 2 [2%nat] in
  safe (-128) 127 [100; -100] /\ (exists h' r, i8 Checks int_dot h (v 0%nat) (v 1%nat) = Ok (h', r) /\ elems h' r = Ok [0]) /\
  i8 Checks int_dot h (v 0%nat) (v 2%nat) = Panic /\ (exists h' r, i8 NoChecks int_dot h (v 0%nat) (v 2%nat) = Ok (h', r) /\ elems h' r = Ok [-56]) /\
  i8 Checks int_dot h (v 0%nat) (v 3%nat) = Panic /\ (exists h' r, i8 NoChecks int_dot h (v 0%nat) (v 3%nat) = Ok (h', r) /\ elems h' r = Ok [0]).
Proof.
  split. { split; [repeat constructor; discriminate|]. intros [|[|[|k]]] K; cbn in *; try (unfold fits; lia). }
  split; [|split; [|split; [|split]]]; try reflexivity; eexists _, _; split; vm_compute; reflexivity.
Qed.
Example C77_matmul_ex : let h := [Some [10; 3; -4; 5]; Some [9; 0; 11; -7]] in let b := fresh_arr 1 4 [2; 2]%nat in
  (exists h' r, i8 Checks int_matmul h v4 b = Ok (h', r) /\ elems h' r = Ok [123; -21; 19; -35]) /\ i8 NoChecks int_matmul h v4 b = i8 Checks int_matmul h v4 b /\
  bigsum Z.add 0 (map (fun t => big (nth t [10; 3] 0) * big (nth (2 * t) [9; 0; 11; -7] 0)) (seq 0 2)) = 123 /\
  i8 Checks int_matmul h b b = Ok (h ++ [Some [81; 0; 22; 49]], fresh_arr 2 4 [2; 2]%nat) /\
  (exists h' r, i8 NoChecks int_matmul h (fresh_arr 0 4 [2; 2]%nat) (fresh_arr 0 4 [2; 2]%nat) = Ok (h', r) /\ elems h' r = Ok [88; 45; -60; 13]).
Proof. split; [eexists _, _; split; vm_compute; reflexivity|]. split; [vm_compute; reflexivity|]. split; [reflexivity|]. split; [vm_compute; reflexivity|]. eexists _, _; split; vm_compute; reflexivity. Qed.
(** "j,j,j->" multiplies the first two factors before the third: a result that is 0 can panic, so
    0 has to count as 1 in the bound *)
Example C77_zero_counts : let a k := fresh_arr k 2 [2%nat] in let j := [106] in
  let h := [Some [200; 3]; Some [2; 5]; Some [0; 0]] in let h' := [Some [100; 3]; Some [2; 5]; Some [0; 0]] in
  u8 Checks int_einsum h [a 0%nat; a 1%nat; a 2%nat] [j; j; j] [] = Panic /\
  u8 NoChecks int_einsum h [a 0%nat; a 1%nat; a 2%nat] [j; j; j] [] = Ok (h ++ [Some [0]], fresh_arr 3 1 []) /\
  u8 Checks int_einsum h' [a 0%nat; a 1%nat; a 2%nat] [j; j; j] [] = Ok (h' ++ [Some [0]], fresh_arr 3 1 []).
Proof. vm_compute. repeat split. Qed.
(** two programs: x = full(50, [2]); y = x + x; z = y - 1 (or y + x); sum of z *)
Example C77_programs_ex : let s := mkState [] [] [] in let run A o := iexec_all (-128) 127 A [IPlain (CFull 50 [2%nat]); IBinary OAdd 0 0; IScalarOp OSub 1 o; ISum 2; IPlain (CDataSlice 3)] s in
  (exists st, run (type_arith Checks (-128) 127) 37 = Ok st /\ run exact_arith 37 = Ok st /\ s_out st = [OVals [126]]) /\
  run (type_arith Checks (-128) 127) 36 = Panic /\ (exists st, run exact_arith 36 = Ok st /\ s_out st = [OVals [128]]) /\
  (exists st, run (type_arith NoChecks (-128) 127) 36 = Ok st /\ s_out st = [OVals [-128]]).
Proof.
  split; [|split; [reflexivity|split]]; eexists; [split; [vm_compute; reflexivity|]|split; [vm_compute; reflexivity|]..]; try (split; [vm_compute; reflexivity|]); vm_compute; reflexivity.
Qed.
