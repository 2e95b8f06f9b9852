(** PropsBench.v: what the benchmark programs compute (C93). *)
From Coq Require Import List Arith Lia Bool ZArith.
From Verif Require Import Base Spec Layout SpecFacts LayoutFacts Views ViewsFacts ViewsFacts2 ViewsFacts3 Kernels Access HeapFacts KernelFacts OpFacts
  AccessFacts Chain ChainFacts PropsViews PropsOps Reduce PropsReduce Bench.
Import ListNotations.
Open Scope res_scope.

(** ** What they should compute, from the values drawn *)
(** shape of the sum, and the positions in the two lists of values of the addends at (i, j) *)
Definition sum_shape (k i : nat) : list nat :=
  match i with 0 | 1 | 2 | 3 | 8 => [k] | _ => [k; 2] end.
Definition left_pos (i r c : nat) : nat := match i with 0 | 1 => r | 2 | 3 | 8 => 3 * r | _ => 3 * r + c end.
Definition right_pos (i r c : nat) : nat :=
  match i with
  | 0 | 2 => r
  | 1 | 3 | 5 => 0
  | 4 => 2 * r + c
  | 6 => 4 * r + 2 * c
  | 7 => 3 * r + c
  | _ => 3 * r
  end.
(** the values reduced, in order *)
Definition reduced {T} (x0 : T) (n i : nat) (d : list T) : list T :=
  match i with
  | 0 => d
  | 1 => map (fun r => nth (2 * r) d x0) (seq 0 n)
  | _ => flat_map (fun r => [nth (3 * r) d x0; nth (3 * r + 1) d x0]) (seq 0 n)
  end.

(** ** Operands *)
Definition picked (p : part) : pick := match p with TwoCols => PickInt 0 2 | _ => PickOne 0 end.
Definition pshape (k : nat) (p : part) (sh : list nat) : list nat := match p with Whole => sh | _ => along_shape k (picked p) sh end.
Definition pindex (k : nat) (p : part) (idx : list nat) : list nat := match p with Whole => idx | _ => along_index k (picked p) idx end.

Lemma extends_trans {T} (h1 h2 h3 : heap T) : extends h1 h2 -> extends h2 h3 -> extends h1 h3.
Proof. intros [L1 E1] [L2 E2]. split; [lia|]. intros b o B. rewrite E2 by lia. now apply E1. Qed.

Lemma drawn_array_ok {T} (h : heap T) sh d : length d = prod sh -> 0 < prod sh -> length sh <= MAX_DIMS ->
  exists h' a, drawn_array h sh d = Ok (h', a) /\ extends h h' /\ length h < length h' /\ a_shape a = sh /\
    chain (S (length h)) (prod sh) false a /\ live h' (S (length h)) (prod sh) /\ S (length h) < length h' /\
    forall idx, in_range idx sh -> exists v, nth_error d (rank idx sh) = Some v /\ get h' a idx = Ok v.
Proof.
  intros L P MD. unfold drawn_array, from_buffer, alloc. rewrite L. set (h1 := h ++ [Some d]). set (a := fresh_arr (length h) (prod sh) sh).
  assert (V : valid h1 a) by (now apply fresh_valid).
  assert (G : forall idx, in_range idx sh -> exists v, nth_error d (rank idx sh) = Some v /\ get h1 a idx = Ok v) by (intros idx R; now apply fresh_get).
  destruct (C13_astype T T (fun x => Ok x) h1 h1 a V MD P) as (h' & r & E & (GR & _ & SH & VR & C & LV & GET)).
  { intros idx R. destruct (G idx R) as (v & _ & ->). now exists v. }
  change (a_shape a) with sh in *. assert (LH : length h1 = S (length h)) by (unfold h1; rewrite app_length; cbn; lia). rewrite LH in *.
  exists h', r. split; [exact E|]. split; [apply extends_trans with h1; [apply extends_app|now apply grows_extends]|].
  destruct GR as [GL _]. split; [lia|]. split; [exact SH|]. split; [exact C|]. split; [exact LV|]. split; [lia|].
  intros idx R. destruct (G idx R) as (v & N & GV). exists v. split; [exact N|]. rewrite (GET idx R), GV. reflexivity.
Qed.

Lemma operand_ok {T} (h : heap T) sh axis k p d : length d = prod sh -> 0 < prod sh -> length sh <= MAX_DIMS ->
  as_absolute axis (length sh) = Ok k \/ p = Whole -> pick_ok (picked p) (nth k sh 0) \/ p = Whole ->
  exists h' a blk, operand h sh axis p d = Ok (h', a) /\ extends h h' /\ blk < length h' /\ a_shape a = pshape k p sh /\
    chain blk (prod sh) false a /\ live h' blk (prod sh) /\
    forall idx, in_range idx (pshape k p sh) -> exists v, nth_error d (rank (pindex k p idx) sh) = Some v /\ get h' a idx = Ok v.
Proof.
  intros L P MD AX PK. destruct (drawn_array_ok h sh d L P MD) as (h' & a & E & EX & _ & SH & C & LV & LB & G).
  unfold operand. rewrite E. cbn [bind]. destruct p.
  - exists h', a, (S (length h)). split; [reflexivity|]. repeat (split; [assumption|]). exact G.
  - destruct AX as [AX|]; [|discriminate]. destruct PK as [PK|]; [|discriminate]. rewrite <- SH in AX, PK, P.
    assert (PP : forall n, In n (a_shape a) -> 0 < n) by (apply pos_prod in P; now apply Forall_forall).
    destruct (nd_slice_along_ok a axis (IUsize 0) k (i_wf _ _ _ _ (chain_inv _ _ _ _ C)) AX PK PP) as (r & ER & SR & V & _).
    exists h', r, (S (length h)). rewrite ER. cbn [bind]. split; [reflexivity|]. split; [exact EX|]. split; [lia|]. split; [now rewrite SR, SH|].
    split; [exact (Ch_slice_along _ _ _ a axis k (IUsize 0) r C AX PK ER)|]. split; [exact LV|]. intros idx R. cbn [pshape] in R. rewrite <- SH in R. cbn [region] in SR. cbn [picked] in *. rewrite <- SR in R.
    rewrite (views_get h' _ _ _ _ V R). apply G. rewrite <- SH. now apply V.
  - destruct AX as [AX|]; [|discriminate]. destruct PK as [PK|]; [|discriminate]. rewrite <- SH in AX, PK, P.
    assert (PP : forall n, In n (a_shape a) -> 0 < n) by (apply pos_prod in P; now apply Forall_forall).
    destruct (nd_slice_along_ok a axis (IRange 0 2) k (i_wf _ _ _ _ (chain_inv _ _ _ _ C)) AX PK PP) as (r & ER & SR & V & _).
    exists h', r, (S (length h)). rewrite ER. cbn [bind]. split; [reflexivity|]. split; [exact EX|]. split; [lia|]. split; [now rewrite SR, SH|].
    split; [exact (Ch_slice_along _ _ _ a axis k (IRange 0 2) r C AX PK ER)|]. split; [exact LV|]. intros idx R. cbn [pshape] in R. rewrite <- SH in R. cbn [region] in SR. cbn [picked] in *. rewrite <- SR in R.
    rewrite (views_get h' _ _ _ _ V R). apply G. rewrite <- SH. now apply V.
Qed.

Lemma get_extends {T} (h h' : heap T) a idx : extends h h' -> a_blk a < length h -> get h' a idx = get h a idx.
Proof. intros [_ E] B. unfold get. now apply E. Qed.

(** ** Sums *)
Lemma join_same sh : join_shape sh sh sh.
Proof. apply broadcast_shapes_ok_iff. apply broadcast_shapes_idem. Qed.
Lemma join_one1 k : join_shape [k] [1] [k].
Proof. apply broadcast_shapes_ok_iff. cbn. destruct k as [|[|k]]; reflexivity. Qed.
Lemma join_one2 k c : join_shape [k; c] [1] [k; c].
Proof. apply broadcast_shapes_ok_iff. cbn. destruct c as [|[|c]]; reflexivity. Qed.

Lemma sum_ok {T} (add : T -> T -> T) zero s1 k1 p1 s2 k2 p2 d1 d2 sh :
  length d1 = prod s1 -> 0 < prod s1 -> length s1 <= MAX_DIMS -> as_absolute (-1) (length s1) = Ok k1 -> pick_ok (picked p1) (nth k1 s1 0) \/ p1 = Whole ->
  length d2 = prod s2 -> 0 < prod s2 -> length s2 <= MAX_DIMS -> as_absolute (-1) (length s2) = Ok k2 -> pick_ok (picked p2) (nth k2 s2 0) \/ p2 = Whole ->
  join_shape (pshape k1 p1 s1) (pshape k2 p2 s2) sh -> length sh <= MAX_DIMS -> 0 < prod sh ->
  exists h' r, (m1 <- operand [] s1 (-1) p1 d1 ;; let '(h1, a) := m1 in
      m2 <- operand h1 s2 (-1) p2 d2 ;; let '(h2, b) := m2 in
      nd_binary (fun x y => Ok (add x y)) zero h2 a b) = Ok (h', r) /\ a_shape r = sh /\
    forall idx, in_range idx sh -> exists x y,
      nth_error d1 (rank (pindex k1 p1 (bidx (pshape k1 p1 s1) idx)) s1) = Some x /\
      nth_error d2 (rank (pindex k2 p2 (bidx (pshape k2 p2 s2) idx)) s2) = Some y /\ get h' r idx = Ok (add x y).
Proof.
  intros L1 P1 M1 A1 K1 L2 P2 M2 A2 K2 J MD P.
  destruct (operand_ok [] s1 (-1) k1 p1 d1 L1 P1 M1 (or_introl A1) K1) as (h1 & a & b1 & E1 & _ & B1 & SA & CA & LA & GA). rewrite E1. cbn [bind].
  destruct (operand_ok h1 s2 (-1) k2 p2 d2 L2 P2 M2 (or_introl A2) K2) as (h2 & b & b2 & E2 & X2 & B2 & SB & CB & LB & GB). rewrite E2. cbn [bind].
  assert (BA : a_blk a = b1) by apply (i_blk _ _ _ _ (chain_inv _ _ _ _ CA)).
  assert (GA' : forall idx, in_range idx (pshape k1 p1 s1) -> exists v, nth_error d1 (rank (pindex k1 p1 idx) s1) = Some v /\ get h2 a idx = Ok v).
  { intros idx R. destruct (GA idx R) as (v & N & G). exists v. split; [exact N|]. rewrite (get_extends h1 h2) by (auto; lia). exact G. }
  assert (VA : valid h2 a).
  { split; [apply (i_wf _ _ _ _ (chain_inv _ _ _ _ CA))|]. intros idx R. rewrite SA in R. destruct (GA' idx R) as (v & _ & G). eauto. }
  assert (VB : valid h2 b) by (eapply chain_valid; eauto).
  rewrite <- SA, <- SB in J.
  assert (IA : forall idx, in_range idx sh -> in_range (bidx (a_shape a) idx) (a_shape a)).
  { intros idx R. destruct (nd_broadcast_to_ok a sh (proj1 VA) (join_shape_broadcastable_l _ _ _ J)) as (r & _ & SH & (_ & _ & VV) & _). rewrite <- SH in R. now apply VV. }
  assert (IB : forall idx, in_range idx sh -> in_range (bidx (a_shape b) idx) (a_shape b)).
  { intros idx R. destruct (nd_broadcast_to_ok b sh (proj1 VB) (join_shape_broadcastable_r _ _ _ J)) as (r & _ & SH & (_ & _ & VV) & _). rewrite <- SH in R. now apply VV. }
  assert (V : forall idx, in_range idx sh -> exists x y,
      nth_error d1 (rank (pindex k1 p1 (bidx (pshape k1 p1 s1) idx)) s1) = Some x /\
      nth_error d2 (rank (pindex k2 p2 (bidx (pshape k2 p2 s2) idx)) s2) = Some y /\
      (x <- get h2 a (bidx (a_shape a) idx) ;; y <- get h2 b (bidx (a_shape b) idx) ;; Ok (add x y)) = Ok (add x y)).
  { intros idx R. specialize (IA idx R). specialize (IB idx R). rewrite SA in *. rewrite SB in *.
    destruct (GA' _ IA) as (x & NX & ->). destruct (GB _ IB) as (y & NY & ->). exists x, y. auto. }
  destruct (proj1 (C12_binary T (fun x y => Ok (add x y)) zero h2 a b sh VA VB J MD P)) as (h' & r & E & F).
  { intros idx R. destruct (V idx R) as (x & y & _ & _ & ->). eauto. }
  exists h', r. split; [exact E|]. destruct F as (_ & _ & SH & _ & _ & _ & G). split; [exact SH|].
  intros idx R. destruct (V idx R) as (x & y & NX & NY & EV). exists x, y. split; [exact NX|]. split; [exact NY|]. rewrite (G idx R). exact EV.
Qed.

Lemma range1 idx k : in_range idx [k] -> exists r, idx = [r] /\ r < k.
Proof. intros H. inversion H as [|r ? idx' ? L H']; subst. inversion H'. eauto. Qed.
Lemma range2 idx k c : in_range idx [k; c] -> exists r j, idx = [r; j] /\ r < k /\ j < c.
Proof. intros H. inversion H as [|r ? idx' ? L H']; subst. destruct (range1 _ _ H') as (j & -> & ?). eauto. Qed.

(** the programs 0 to 8, for every size: program i returns an array whose element (r, c) is the sum
    of the values drawn at the two positions *)
Theorem C93_binary : forall T (add : T -> T -> T) zero k i d1 d2, 0 < k -> i <= 8 ->
  length d1 = prod (fst (fst (binary_operands k i))) -> length d2 = prod (fst (snd (binary_operands k i))) ->
  exists h' r, bench_binary add zero k i d1 d2 = Ok (h', r) /\ a_shape r = sum_shape k i /\
    forall idx, in_range idx (sum_shape k i) -> exists x y,
      nth_error d1 (left_pos i (nth 0 idx 0) (nth 1 idx 0)) = Some x /\
      nth_error d2 (right_pos i (nth 0 idx 0) (nth 1 idx 0)) = Some y /\ get h' r idx = Ok (add x y).
Proof.
  intros T add zero k i d1 d2 K I L1 L2. unfold bench_binary.
  assert (PR : forall l, 0 < prod (k :: l) <-> 0 < prod l) by (intros l; rewrite prod_cons; nia).
  Local Ltac side := first [assumption | reflexivity | right; reflexivity | left; cbn; lia | apply Nat.leb_le; reflexivity | cbn; lia
    | apply join_same | apply join_one1 | apply join_one2].
  Local Ltac pos R N := first
    [ erewrite bidx_same in N by exact R; eapply eq_trans; [|exact N]; f_equal; cbn; lia
    | eapply eq_trans; [|exact N]; f_equal; cbn; lia ].
  Local Ltac item R G := let x := fresh in let y := fresh in let N1 := fresh in let N2 := fresh in let GE := fresh in
    destruct (G _ R) as (x & y & N1 & N2 & GE); exists x, y; split; [pos R N1|]; split; [pos R N2|exact GE].
  Local Ltac sums s1 p1 s2 p2 sh := match goal with |- context [nd_binary (fun x y => Ok (?add x y)) ?zero] =>
    edestruct (sum_ok add zero s1 (length s1 - 1) p1 s2 (length s2 - 1) p2) as (h' & r & E & SH & G);
    [..|exists h', r; split; [exact E|]; split; [exact SH|]; intros idx R;
        first [destruct (range1 _ _ R) as (i & -> & ?)|destruct (range2 _ _ _ R) as (i & j & -> & ? & ?)]; item R G]; side end.
  destruct i as [|[|[|[|[|[|[|[|[|i]]]]]]]]]; [..|lia]; cbn [binary_operands fst snd] in L1, L2; cbn [binary_operands sum_shape].
  - sums [k] Whole [k] Whole [k].
  - sums [k] Whole [1] Whole [k].
  - sums [k; 3] Col [k] Whole [k].
  - sums [k; 3] Col [1] Whole [k].
  - sums [k; 3] TwoCols [k; 2] Whole [k; 2].
  - sums [k; 3] TwoCols [1] Whole [k; 2].
  - sums [k; 3] TwoCols [k; 2; 2] Col [k; 2].
  - sums [k; 3] TwoCols [k; 3] TwoCols [k; 2].
  - sums [k; 3] Col [k; 3] Col [k].
Qed.
Print Assumptions C93_binary.
Example C93_binary_ex : exists h' r, bench_binary Nat.add 0 2 6 [1; 2; 3; 4; 5; 6] [10; 20; 30; 40; 50; 60; 70; 80] = Ok (h', r) /\
  a_shape r = [2; 2] /\ elems h' r = Ok [11; 32; 54; 75].
Proof. eexists _, _. split; [vm_compute; reflexivity|]. split; reflexivity. Qed.

(** ** Reductions *)
Lemma mapM_pure {A B} (f : A -> B) l : mapM (fun x => Ok (f x)) l = Ok (map f l).
Proof. induction l as [|x l IH]; [reflexivity|]. cbn [mapM map bind]. now rewrite IH. Qed.

Lemma reduced_list {T} (x0 : T) n i d sh p k : reduce_operand n i = (sh, p) -> i <= 2 -> k = length sh - 1 -> length d = prod sh ->
  map (fun idx => nth (rank (pindex k p idx) sh) d x0) (indices (pshape k p sh)) = reduced x0 n i d.
Proof.
  intros E I -> L. destruct i as [|[|[|i]]]; [..|lia]; injection E as <- <-; cbn [length Nat.sub pshape pindex picked along_shape along_index reduced].
  - cbn [indices]. rewrite flat_map_concat_map. assert (LN : length d = n) by (cbn in L; lia).
    transitivity (map (fun r => nth r d x0) (seq 0 n)).
    + change (fun i => map (cons i) [[]]) with (fun i : nat => [[i]]). rewrite <- flat_map_concat_map.
      induction (seq 0 n) as [|r l IH]; [reflexivity|]. cbn [flat_map app map]. f_equal; [f_equal; cbn; lia|exact IH].
    + rewrite <- LN. clear. apply nth_ext with x0 x0; [now rewrite map_length, seq_length|]. intros j B. rewrite map_length, seq_length in B.
      rewrite (nth_indep _ _ (nth 0 d x0)) by (rewrite map_length, seq_length; exact B). rewrite (map_nth (fun r => nth r d x0)), seq_nth by exact B. reflexivity.
  - change (delete_at 1 [n; 2]) with [n]. cbn [indices]. induction (seq 0 n) as [|r l IH]; [reflexivity|]. cbn [flat_map app map]. f_equal; [f_equal; cbn; lia|exact IH].
  - change (set_at 1 2 [n; 3]) with [n; 2]. cbn [indices]. change (flat_map (fun i => map (cons i) [[]]) (seq 0 2)) with [[0]; [1]]. change (fun i => map (cons i) [[0]; [1]]) with (fun i : nat => [[i; 0]; [i; 1]]).
    induction (seq 0 n) as [|r l IH]; [reflexivity|]. cbn [flat_map app map]. rewrite IH. f_equal; [f_equal; cbn; lia|]. f_equal. f_equal. cbn. lia.
Qed.

(** the programs 0-3, 10-13 and 20-23, for every size and every reduction: the values of the part
    are combined from the left, starting with the neutral value *)
Theorem C93_reduce : forall T (op : T -> T -> T) start x0 n i d, 0 < n -> i <= 2 -> length d = prod (fst (reduce_operand n i)) ->
  exists h' r, bench_reduce op start n i d = Ok (h', r) /\ a_shape r = [] /\ get h' r [] = Ok (fold_left op (reduced x0 n i d) start).
Proof.
  intros T op start x0 n i d N I L. unfold bench_reduce. destruct (reduce_operand n i) as [sh p] eqn:E. cbn [fst] in L.
  assert (H : exists k, k = length sh - 1 /\ 0 < prod sh /\ length sh <= MAX_DIMS /\ (as_absolute 1 (length sh) = Ok k \/ p = Whole) /\
    (pick_ok (picked p) (nth k sh 0) \/ p = Whole) /\ length (pshape k p sh) <= MAX_DIMS).
  { exists (length sh - 1). unfold MAX_DIMS. destruct i as [|[|[|i]]]; [..|lia]; injection E as <- <-; (split; [reflexivity|]); (split; [cbn; lia|]);
      (split; [apply Nat.leb_le; reflexivity|]); (split; [first [now right|now left]|]); (split; [first [now right|left; cbn; lia]|]); apply Nat.leb_le; reflexivity. }
  destruct H as (k & EK & P & MD & AX & PK & MD').
  destruct (operand_ok [] sh 1 k p d L P MD AX PK) as (h1 & a & b & E1 & _ & _ & SA & C & LV & G). rewrite E1. cbn [bind].
  rewrite <- SA in MD'. destruct (C19_fold_total_partial T op h1 b (prod sh) a start LV C MD') as (vs & h' & r & EV & ER & F).
  exists h', r. split; [exact ER|]. destruct F as (_ & _ & SH & _ & _ & _ & GR). split; [exact SH|]. rewrite (GR [] (Forall2_nil _)).
  enough (vs = reduced x0 n i d) as -> by reflexivity.
  assert (EV' : elems h1 a = Ok (map (fun idx => nth (rank (pindex k p idx) sh) d x0) (indices (pshape k p sh)))).
  { unfold elems. rewrite SA, <- mapM_pure. apply mapM_ext. intros idx II. apply in_indices in II. destruct (G idx II) as (v & NV & ->).
    now rewrite (nth_error_nth _ _ x0 NV). }
  rewrite EV' in EV. rewrite <- (reduced_list x0 n i d sh p k E I EK L). congruence.
Qed.
Print Assumptions C93_reduce.
Example C93_reduce_ex : exists h' r, bench_reduce Nat.max 0 2 2 [1; 7; 9; 4; 5; 8] = Ok (h', r) /\ get h' r [] = Ok 7 /\
  reduced 0 2 2 [1; 7; 9; 4; 5; 8] = [1; 7; 4; 5].
Proof. eexists _, _. split; [vm_compute; reflexivity|]. split; reflexivity. Qed.
