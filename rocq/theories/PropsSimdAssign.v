(** PropsSimdAssign.v: what vectorised compound assignment writes when its operands share memory
    (C94). *)
From Coq Require Import List Arith Lia Bool ZArith.
From Verif Require Import Base Spec Layout SpecFacts LayoutFacts Views ViewsFacts ViewsFacts2 ViewsFacts3 Kernels Access HeapFacts KernelFacts OpFacts AccessFacts
  Chain ChainFacts PropsViews PropsOps PropsAssign PropsAssign2 PropsPointers Simd SimdFacts SimdOps SimdAssign PropsSimd.
Import ListNotations.
Open Scope res_scope.

(** the strides with which a op= b walks through b: those of b, or of b broadcast to the shape of a *)
Definition right_strides (a b : arr) (rs : list nat) : Prop :=
  (a_shape b = a_shape a /\ rs = a_stride b) \/
  (a_shape b <> a_shape a /\ exists b', nd_broadcast_to b (a_shape a) = Ok b' /\ rs = a_stride b').

(** [ws] are the values written so far.  The k-th is [f] applied to the old k-th element of [a] and
    to what the k-th (broadcast) element of [b] holds once the earlier blocks have been written, or
    all earlier elements in the scalar loop at the end.  If the walk through [b] stands still, the
    blocks use the value its element had before everything. *)
Definition vturn {T} (L : nat) (f : T -> T -> T) (h : heap T) (a b : arr) (still : bool) (ws : list T) (k : nat) : res T :=
  let n := prod (a_shape a) in
  let idx := unrank k (a_shape a) in
  let seen := if still && (k <? unrolled L n) then 0 else sight L n k in
  x <- get h a idx ;;
  y <- now h (a_blk a) (a_off a) (firstn seen ws) (a_blk b) (a_off b + dot (bidx (a_shape b) idx) (a_stride b)) ;;
  Ok (f x y).

Section Disp.
  Context {T : Type}.
  Variable L : nat.
  Variable f : T -> T -> T.

  Lemma snd_assign_kernel (h : heap T) a b : valid h b -> f_write (a_fl a) = true -> broadcastable (a_shape b) (a_shape a) ->
    forall rs, right_strides a b rs -> length rs = length (a_shape a) /\
      (forall idx, in_range idx (a_shape a) -> in_range (bidx (a_shape b) idx) (a_shape b) /\ dot idx rs = dot (bidx (a_shape b) idx) (a_stride b)) /\
      snd_assign L f h a b = sk_binary L f h (a_ptr a) (a_stride a) (a_ptr b) rs (a_ptr a) (a_shape a) /\
      nd_assign (fun x y => Ok (f x y)) h a b = k_binary (fun x y => Ok (f x y)) h (a_ptr a) (a_stride a) (a_ptr b) rs (a_ptr a) (a_shape a).
  Proof.
    intros VB WR BR rs RS. unfold snd_assign, nd_assign. rewrite WR. cbn [guard bind]. destruct RS as [(E & ->)|(NE & b' & EB & ->)].
    - rewrite (proj2 (list_eqb_spec _ _) E). rewrite <- E. split; [apply VB|]. split; [|auto].
      intros idx R. rewrite bidx_same by exact R. auto.
    - destruct (list_eqb (a_shape b) (a_shape a)) eqn:E; [apply list_eqb_spec in E; contradiction|]. rewrite EB. cbn [bind].
      destruct (broadcast_stride_ok _ _ _ (proj1 VB) BR) as (r & ER & LR & HR).
      unfold nd_broadcast_to in EB. rewrite (broadcast_shape_ok _ _ BR) in EB. cbn [bind] in EB. rewrite ER in EB. cbn [bind] in EB. injection EB as <-.
      cbn [a_stride a_ptr a_blk a_off]. auto.
  Qed.

  (** the walk over both operands is one of the eight vectorised loops *)
  Lemma dispatch (h : heap T) lhs ls rhs rs dst shape s t y0 :
    collapse shape ls = ([prod shape], [s]) -> collapse shape rs = ([prod shape], [t]) -> length ls = length shape -> shape <> [] -> s <> 0 ->
    src_ld h (Mem rhs) = Ok y0 ->
    exists A B, sk_binary L f h lhs ls rhs rs dst shape = simd_main L f (S (prod shape)) h A B dst (prod shape) /\
      (A = OUnit (Mem lhs) /\ s = 1 \/ A = OStride (Mem lhs) s) /\
      ((t = 0 /\ B = OConst y0 (Mem rhs)) \/ (t <> 0 /\ (B = OUnit (Mem rhs) /\ t = 1 \/ B = OStride (Mem rhs) t))).
  Proof.
    intros CL CR LL NE NS EY. unfold sk_binary.
    assert (NL : (length ls =? 0) = false) by (apply Nat.eqb_neq; rewrite LL; destruct shape; [contradiction|cbn; lia]). rewrite NL. cbn [andb].
    rewrite CL, CR. change (last_of [s]) with (Ok s). change (last_of [t]) with (Ok t). change (vget [prod shape] 0) with (Ok (prod shape)).
    cbn [bind length Nat.eqb andb]. rewrite (proj2 (Nat.eqb_neq s 0) NS).
    destruct (Nat.eqb_spec t 0) as [->|NT].
    - destruct (Nat.eqb_spec s 1) as [->|N1]; unfold simd_1_0, simd_n_0; rewrite EY; cbn [bind]; eexists _, _; (split; [reflexivity|]); auto.
    - destruct (Nat.eqb_spec s 1) as [->|N1], (Nat.eqb_spec t 1) as [->|N2]; cbn [andb];
        unfold simd_1_1, simd_1_n, simd_n_1, simd_n_n; eexists _, _; (split; [reflexivity|]); auto 6.
  Qed.
End Disp.

Lemma now_after {T} (h : heap T) b0 o0 ws m k s : 0 < s -> m <= k -> now h b0 o0 (firstn m ws) b0 (o0 + k * s) = load h b0 (o0 + k * s).
Proof.
  intros P M. unfold now. rewrite (proj2 (Nat.ltb_ge (o0 + k * s) _)); [now rewrite andb_false_r|].
  pose proof (firstn_le_length m ws). pose proof (firstn_length m ws). nia.
Qed.
Lemma nz_last l : nz l -> l <> [] -> last l 0 <> 0.
Proof.
  induction l as [|x l IH]; intros N E; [contradiction|]. inversion N; subst. destruct l as [|y l]; [exact H1|].
  change (last (y :: l) 0 <> 0). apply IH; [exact H2|discriminate].
Qed.
Lemma line_dot sh st n s k : length sh = length st -> collapse sh st = ([n], [s]) -> k < prod sh -> dot (unrank k sh) st = k * s.
Proof.
  intros E C K. destruct (collapse_last _ _ _ _ E C) as (O & ->).
  assert (N : nth_error (offsets sh st) k = Some (k * s)) by (rewrite O; unfold strided; now rewrite nth_error_map, nth_error_seq by exact K).
  now destruct (nth_offsets sh st k _ N).
Qed.

(** *** Both operands on one line each, in any position to each other: the values written follow the
    recurrence above and land in the cells off, off+1, ...; nothing else changes. *)
Theorem C94_run : forall T L (f : T -> T -> T) (h : heap T) blk n a b rs, L = 2 \/ L = 4 ->
  live h blk n -> chain blk n false a -> valid h b -> broadcastable (a_shape b) (a_shape a) -> right_strides a b rs ->
  a_shape a <> [] -> straight (a_shape a) (a_stride a) -> straight (a_shape a) rs ->
  exists ws h', length ws = prod (a_shape a) /\
    (forall k v, nth_error ws k = Some v -> vturn L f h a b (last rs 0 =? 0) ws k = Ok v) /\
    snd_assign L f h a b = Ok h' /\ patched h h' blk (a_off a) ws.
Proof.
  intros T L f h blk n a b rs HL LV C Vb BR RS NE SA SB. pose proof (chain_inv _ _ _ _ C) as I. pose proof (chain_valid _ _ _ _ _ LV C) as Va.
  assert (HL4 : L = 1 \/ L = 2 \/ L = 4) by auto. assert (LP : 0 < L) by lia.
  destruct (i_nb _ _ _ _ I eq_refl) as (PO & NZ & _). pose proof (proj1 (pos_prod _) PO) as PP.
  destruct (snd_assign_kernel L f h a b Vb (i_wr _ _ _ _ I) BR rs RS) as (LR & HR & -> & _).
  pose proof (proj1 Va) as LA.
  destruct (collapse_straight (a_shape a) (a_stride a) LA NE) as [(_ & CA)|(N & _)]; [|contradiction].
  destruct (collapse_straight (a_shape a) rs LR NE) as [(_ & CB)|(N & _)]; [|contradiction].
  set (s := last (a_stride a) 0) in *. set (t := last rs 0) in *.
  assert (NS : s <> 0).
  { apply nz_last; [exact NZ|]. intros E. rewrite E in LA. destruct (a_shape a); [contradiction|discriminate LA]. }
  assert (DA : forall k, k < prod (a_shape a) -> dot (unrank k (a_shape a)) (a_stride a) = k * s) by (intros k K; now apply (line_dot _ _ (prod (a_shape a)) s k (eq_sym LA) CA)).
  assert (DB : forall k, k < prod (a_shape a) -> dot (bidx (a_shape b) (unrank k (a_shape a))) (a_stride b) = k * t).
  { intros k K. destruct (unrank_in_range k (a_shape a) K) as [R _]. destruct (HR _ R) as [_ <-]. now apply (line_dot _ _ (prod (a_shape a)) t k (eq_sym LR) CB). }
  assert (RA : forall k, k < prod (a_shape a) -> exists v, load h (a_blk a) (a_off a + k * s) = Ok v).
  { intros k K. destruct (unrank_in_range k (a_shape a) K) as [R _]. destruct (proj2 Va _ R) as (v & E). exists v. unfold get in E. now rewrite DA in E by exact K. }
  assert (RB : forall k, k < prod (a_shape a) -> exists v, load h (a_blk b) (a_off b + k * t) = Ok v).
  { intros k K. destruct (unrank_in_range k (a_shape a) K) as [R _]. destruct (HR _ R) as [RI _]. destruct (proj2 Vb _ RI) as (v & E). exists v. unfold get in E. now rewrite DB in E by exact K. }
  destruct (RB 0 PP) as (y0 & EY). rewrite Nat.mul_0_l, Nat.add_0_r in EY.
  destruct (dispatch L f h (a_ptr a) (a_stride a) (a_ptr b) rs (a_ptr a) (a_shape a) s t y0 CA CB LA NE NS EY) as (A & B & -> & HA & HB).
  assert (OA : forall k, oat A k = Mem (a_blk a, a_off a + k * s)).
  { intros k. destruct HA as [(-> & ->)| ->]; reflexivity. }
  assert (OB : forall k, oat B k = Mem (a_blk b, a_off b + k * t)).
  { intros k. destruct HB as [(-> & ->)|(_ & [(-> & ->)| ->])]; unfold oat; cbn [obase ostep src_add padd a_ptr fst snd]; reflexivity. }
  destruct (main_history L HL4 f (S (prod (a_shape a))) h h A B (a_blk a) (a_off a) [] (prod (a_shape a))) as (ws & h' & LW & HW & E & P).
  - lia.
  - apply patched_nil.
  - intros i K. cbn [length]. rewrite Nat.add_0_r, (i_blk _ _ _ _ I). eapply live_load; [exact LV|]. pose proof (chain_run _ _ _ C). lia.
  - intros i K. rewrite OA. apply RA. exact K.
  - intros i K. rewrite OB. apply RB. exact K.
  - cbn [length app] in *. rewrite Nat.add_0_r in E. exists ws, h'. split; [exact LW|]. split; [|split].
    + intros k v N. assert (K : k < prod (a_shape a)) by (rewrite <- LW; apply nth_error_Some; congruence).
      rewrite <- (HW k v N). unfold vturn. unfold get. rewrite (DA k K), (DB k K).
      assert (RX : rd L h (a_blk a) (a_off a) (prod (a_shape a)) A [] ws k = load h (a_blk a) (a_off a + k * s)).
      { assert (X : rd L h (a_blk a) (a_off a) (prod (a_shape a)) A [] ws k = snow h (a_blk a) (a_off a) (firstn (sight L (prod (a_shape a)) k) ws) (oat A k))
          by (destruct HA as [(-> & _)| ->]; reflexivity).
        rewrite X, OA. cbn [snow fst snd]. apply now_after; [lia|]. now apply sight_le. }
      rewrite RX. apply bind_ext. intros x _. f_equal.
      destruct HB as [(T0 & ->)|(T0 & HB)].
      * rewrite T0. cbn [Nat.eqb andb rd app]. destruct (k <? unrolled L (prod (a_shape a))).
        { cbn [firstn]. rewrite Nat.mul_0_r, Nat.add_0_r. unfold now. cbn [length].
          destruct (_ && _) eqn:Q; [|exact EY]. apply andb_prop in Q as [Q Q2]. apply andb_prop in Q as [_ Q1]. apply Nat.leb_le in Q1. apply Nat.ltb_lt in Q2. lia. }
        { rewrite Nat.mul_0_r, Nat.add_0_r. reflexivity. }
      * rewrite (proj2 (Nat.eqb_neq t 0) T0). cbn [andb].
        assert (X : rd L h (a_blk a) (a_off a) (prod (a_shape a)) B [] ws k = snow h (a_blk a) (a_off a) (firstn (sight L (prod (a_shape a)) k) ws) (oat B k))
          by (destruct HB as [(-> & _)| ->]; reflexivity).
        rewrite X, OB. reflexivity.
    + exact E.
    + rewrite <- (i_blk _ _ _ _ I). exact P.
Qed.
Print Assumptions C94_run.

(** the recurrence leaves no choice *)
Theorem C94_unique : forall T L (f : T -> T -> T) (h : heap T) a b still ws ws', 0 < L ->
  (forall k v, nth_error ws k = Some v -> vturn L f h a b still ws k = Ok v) ->
  (forall k v, nth_error ws' k = Some v -> vturn L f h a b still ws' k = Ok v) -> length ws = length ws' -> ws = ws'.
Proof.
  intros T L f h a b still ws ws' LP H H' LE. enough (G : forall k, firstn k ws = firstn k ws').
  { rewrite <- (firstn_all ws), <- (firstn_all ws'), <- LE. apply G. }
  induction k as [|k IH]; [reflexivity|].
  assert (V : vturn L f h a b still ws k = vturn L f h a b still ws' k).
  { unfold vturn. apply bind_ext. intros x _. f_equal. f_equal. set (m := if still && _ then 0 else _).
    assert (M : m <= k) by (unfold m; destruct (still && _); [lia|now apply sight_le]).
    replace m with (Nat.min m k) by lia. now rewrite <- !firstn_firstn, IH. }
  destruct (nth_error ws k) as [v|] eqn:N.
  - assert (K : k < length ws') by (rewrite <- LE; apply nth_error_Some; congruence).
    destruct (nth_error ws' k) as [v'|] eqn:N'; [|apply nth_error_None in N'; lia].
    assert (v = v') as <- by (pose proof (H k v N); pose proof (H' k v' N'); congruence).
    apply nth_error_split in N as (l1 & l2 & -> & L1). apply nth_error_split in N' as (l3 & l4 & -> & L3).
    rewrite <- L1 in IH at 1. rewrite <- L3 in IH at 1. rewrite !firstn_app, !Nat.sub_diag, !firstn_O, !app_nil_r, !firstn_all in IH. subst l3.
    rewrite <- L1. change (S (length l1)) with (1 + length l1). rewrite !firstn_app.
    rewrite !(firstn_all2 l1) by lia. replace (1 + length l1 - length l1) with 1 by lia. reflexivity.
  - apply nth_error_None in N. rewrite !firstn_all2 by lia. rewrite !firstn_all2 in IH by lia. exact IH.
Qed.
Print Assumptions C94_unique.

(** *** Otherwise the portable loops run, so that the result is that of C66_assign. *)
Theorem C94_other : forall T L (f : T -> T -> T) (h : heap T) a b rs, valid h a -> valid h b ->
  f_write (a_fl a) = true -> broadcastable (a_shape b) (a_shape a) -> right_strides a b rs ->
  a_shape a = [] \/ ~ straight (a_shape a) (a_stride a) \/ ~ straight (a_shape a) rs ->
  snd_assign L f h a b = nd_assign (fun x y => Ok (f x y)) h a b.
Proof.
  intros T L f h a b rs Va Vb WR BR RS H. destruct (snd_assign_kernel L f h a b Vb WR BR rs RS) as (LR & _ & -> & ->).
  pose proof (proj1 Va) as LA. unfold sk_binary, k_binary.
  destruct (list_eq_dec Nat.eq_dec (a_shape a) []) as [E|NE].
  { rewrite E in *. rewrite LR, LA. reflexivity. }
  destruct H as [H|H]; [contradiction|].
  destruct ((length (a_stride a) =? 0) && (length rs =? 0)); [reflexivity|].
  pose proof (collapse_straight (a_shape a) (a_stride a) LA NE) as SA. pose proof (collapse_straight (a_shape a) rs LR NE) as SB.
  destruct (collapse (a_shape a) (a_stride a)) as [lsh lst]. destruct (collapse (a_shape a) rs) as [rsh rst]. cbn [fst] in *.
  destruct (last_of lst) as [li| |]; cbn [bind]; [|reflexivity..]. destruct (last_of rst) as [ri| |]; cbn [bind]; [|reflexivity..].
  destruct (vget lsh 0) as [ln| |]; cbn [bind]; [|reflexivity..]. destruct (vget rsh 0) as [rn| |]; cbn [bind]; [|reflexivity..].
  assert (N : (length lsh =? 1) && (length rsh =? 1) = false).
  { destruct H as [H|H]; [destruct SA as [(S1 & _)|(_ & S1)]|destruct SB as [(S1 & _)|(_ & S1)]]; try contradiction;
      apply Nat.eqb_neq in S1; rewrite S1; [reflexivity|apply andb_false_r]. }
  rewrite N. reflexivity.
Qed.
Print Assumptions C94_other.

(** *** A scalar on the right: the vectorised operation is the portable one on every writeable view. *)
Theorem C94_scalar : forall T L (f : T -> T -> T) (h : heap T) blk n a c, L = 2 \/ L = 4 ->
  live h blk n -> chain blk n false a ->
  snd_assign_scalar L f h a c = nd_assign_scalar (fun x y => Ok (f x y)) h a c.
Proof.
  intros T L f h blk n a c HL LV C. pose proof (chain_inv _ _ _ _ C) as I. pose proof (chain_valid _ _ _ _ _ LV C) as Va. pose proof (proj1 Va) as LA.
  destruct (i_nb _ _ _ _ I eq_refl) as (PO & NZ & _). pose proof (proj1 (pos_prod _) PO) as PP.
  unfold snd_assign_scalar, nd_assign_scalar. apply bind_ext. intros _ _.
  destruct (list_eq_dec Nat.eq_dec (a_shape a) []) as [E|NE].
  { rewrite E in LA. destruct (a_stride a); [reflexivity|discriminate]. }
  destruct (collapse_straight (a_shape a) (a_stride a) LA NE) as [(_ & CA)|(_ & N)].
  - apply sk_scalar_eq; auto. intros i j x LT E Q. destruct (nth_offsets _ _ _ _ E) as (J & ->).
    rewrite (line_dot _ _ _ _ j (eq_sym LA) CA J) in Q. apply padd_inj in Q.
    assert (NS : last (a_stride a) 0 <> 0) by (apply nz_last; [exact NZ|intros Z; rewrite Z in LA; destruct (a_shape a); [contradiction|discriminate]]). nia.
  - unfold sk_scalar, k_scalar. destruct (a_stride a) as [|s0 st]; [reflexivity|]. destruct (collapse (a_shape a) (s0 :: st)) as [sh str]. cbn [fst] in N.
    apply bind_ext. intros i _. rewrite (proj2 (Nat.eqb_neq _ _) N). reflexivity.
Qed.
Print Assumptions C94_scalar.

(** *** When that is the expected result, for every operation and all contents: exactly when the
    elements of a are consecutive and b reads no element of a written in an earlier block, nor,
    in the scalar loop at the end, one written earlier at all. *)
Theorem C94_right : forall L blk n a blk2 m bc b rs, L = 2 \/ L = 4 ->
  chain blk n false a -> chain blk2 m bc b -> (blk2 = blk -> m = n) ->
  broadcastable (a_shape b) (a_shape a) -> right_strides a b rs ->
  a_shape a <> [] -> straight (a_shape a) (a_stride a) -> straight (a_shape a) rs ->
  ((forall T (f : T -> T -> T) (h : heap T), live h blk n -> live h blk2 m ->
      exists h', snd_assign L f h a b = Ok h' /\ as_expected f h h' a b) <->
   (forall idx, in_range idx (a_shape a) -> dot idx (a_stride a) = rank idx (a_shape a)) /\
   (forall i j, in_range i (a_shape a) -> in_range j (a_shape a) -> a_blk b = a_blk a ->
      a_off b + dot (bidx (a_shape b) j) (a_stride b) = a_off a + dot i (a_stride a) ->
      last rs 0 = 0 /\ rank j (a_shape a) < unrolled L (prod (a_shape a)) \/
      sight L (prod (a_shape a)) (rank j (a_shape a)) <= rank i (a_shape a))).
Proof.
  intros L blk n a blk2 m bc b rs HL C C2 SB BR RS NE SA SR. pose proof (chain_inv _ _ _ _ C) as I. pose proof (chain_inv _ _ _ _ C2) as I2.
  assert (LP : 0 < L) by lia. split.
  - intros H. set (h := labels blk n m (S (blk + blk2))).
    assert (L1 : live h blk n) by (pose proof (labels_live blk n m (S (blk + blk2)) blk ltac:(lia)) as Q; now rewrite Nat.eqb_refl in Q).
    assert (L2 : live h blk2 m).
    { pose proof (labels_live blk n m (S (blk + blk2)) blk2 ltac:(lia)) as Q. destruct (Nat.eqb_spec blk2 blk) as [E|E]; [|exact Q].
      assert (EM : n = m) by (symmetry; auto). exact (eq_rect n (fun z => live _ blk2 z) Q m EM). }
    destruct (H term Op h L1 L2) as (h' & E & X). pose proof (chain_valid _ _ _ _ _ L1 C) as Va. pose proof (chain_valid _ _ _ _ _ L2 C2) as Vb.
    destruct (C94_run term L Op h blk n a b rs HL L1 C Vb BR RS NE SA SR) as (ws & h'' & LW & HI & E' & [_ P]).
    rewrite E in E'. injection E' as <-.
    destruct (snd_assign_kernel L Op h a b Vb (i_wr _ _ _ _ I) BR rs RS) as (_ & HR & _).
    assert (XV : forall idx, in_range idx (a_shape a) -> load h' blk (a_off a + dot idx (a_stride a)) =
      Ok (Op (Cell blk (a_off a + dot idx (a_stride a))) (Cell blk2 (a_off b + dot (bidx (a_shape b) idx) (a_stride b))))).
    { intros idx R. pose proof (X idx R) as Q. destruct (proj2 Va idx R) as (x & Ex). destruct (proj2 Vb _ (proj1 (HR idx R))) as (y & Ey).
      rewrite Ex, Ey in Q. cbn [bind] in Q. unfold get in *. rewrite (i_blk _ _ _ _ I) in *. rewrite (i_blk _ _ _ _ I2) in *.
      apply labels_load in Ex as ->. apply labels_load in Ey as ->. exact Q. }
    assert (SEE : forall k c o v, now h blk (a_off a) (firstn k ws) c o = Ok v ->
      (v = Cell c o /\ ~ (c = blk /\ a_off a <= o < a_off a + length (firstn k ws))) \/ exists x y, v = Op x y).
    { intros k c o v. unfold now. destruct (_ && _) eqn:Q.
      - destruct (nth_error (firstn k ws) (o - a_off a)) as [w|] eqn:N; [|discriminate]. intros Z; injection Z as <-. right.
        assert (exists j, nth_error ws j = Some w) as (j & NJ).
        { apply In_nth_error. apply nth_error_In in N. rewrite <- (firstn_skipn k ws). apply in_or_app. now left. }
        specialize (HI j w NJ). unfold vturn in HI. destruct (get _ _ _) in HI; try discriminate. cbn [bind] in HI.
        destruct (now _ _ _ _ _ _) in HI; try discriminate. cbn [bind] in HI. injection HI as <-. eauto.
      - intros Z. left. split; [now apply labels_load in Z|]. intros (-> & Q1 & Q2).
        rewrite Nat.eqb_refl, (proj2 (Nat.leb_le _ _) Q1), (proj2 (Nat.ltb_lt _ _) Q2) in Q. discriminate. }
    set (seen := fun k => if (last rs 0 =? 0) && (k <? unrolled L (prod (a_shape a))) then 0 else sight L (prod (a_shape a)) k).
    assert (WR : forall k, k < prod (a_shape a) -> exists y,
      load h' blk (a_off a + k) = Ok (Op (Cell blk (a_off a + dot (unrank k (a_shape a)) (a_stride a))) y) /\
      now h blk (a_off a) (firstn (seen k) ws) blk2 (a_off b + dot (bidx (a_shape b) (unrank k (a_shape a))) (a_stride b)) = Ok y).
    { intros k K. destruct (nth_error ws k) as [w|] eqn:N; [|apply nth_error_None in N; lia].
      pose proof (HI k w N) as Q. unfold vturn in Q. fold (seen k) in Q. unfold get in Q. rewrite (i_blk _ _ _ _ I), (i_blk _ _ _ _ I2) in Q.
      destruct (load h blk _) as [x| |] eqn:E1; try discriminate. cbn [bind] in Q. apply labels_load in E1 as ->.
      destruct (now h blk (a_off a) (firstn (seen k) ws) blk2 _) as [y| |] eqn:E2; try discriminate. cbn [bind] in Q. injection Q as <-.
      exists y. split; [|auto]. rewrite P. unfold now.
      rewrite Nat.eqb_refl, (proj2 (Nat.leb_le (a_off a) (a_off a + k))), (proj2 (Nat.ltb_lt (a_off a + k) (a_off a + length ws))) by lia. cbn [andb].
      replace (a_off a + k - a_off a) with k by lia. now rewrite N. }
    assert (D : forall idx, in_range idx (a_shape a) -> dot idx (a_stride a) = rank idx (a_shape a)).
    { intros idx R. pose proof (XV idx R) as Q. destruct (Nat.lt_ge_cases (dot idx (a_stride a)) (prod (a_shape a))) as [LT|GE].
      - destruct (WR _ LT) as (y & E1 & _). rewrite E1 in Q. injection Q as Z _.
        destruct (unrank_in_range _ _ LT) as [RU KU].
        destruct (i_nb _ _ _ _ I eq_refl) as (_ & _ & DI & _).
        assert (idx = unrank (dot idx (a_stride a)) (a_shape a)) as EI by (apply DI; [exact R|exact RU|lia]).
        rewrite EI at 2. now rewrite KU.
      - exfalso. rewrite P in Q. unfold now in Q. rewrite Nat.eqb_refl in Q.
        rewrite (proj2 (Nat.ltb_ge (a_off a + dot idx (a_stride a)) (a_off a + length ws))) in Q by lia. rewrite andb_false_r in Q.
        apply labels_load in Q. discriminate. }
    split; [exact D|]. intros i j Ri Rj EB EC.
    destruct (WR (rank j (a_shape a)) ltac:(now apply rank_lt)) as (y & E1 & E3). rewrite unrank_rank in E1, E3 by exact Rj.
    pose proof (XV j Rj) as Q. rewrite <- (D j Rj) in E1. rewrite E1 in Q. injection Q as ->.
    destruct (SEE _ _ _ _ E3) as [[_ Z]|(x' & y' & Z)]; [|discriminate].
    unfold seen in Z. destruct (Nat.eqb_spec (last rs 0) 0) as [T0|T0], (Nat.ltb_spec (rank j (a_shape a)) (unrolled L (prod (a_shape a)))) as [U|U]; cbn [andb] in Z; [left; auto|right..];
      (apply Nat.le_ngt; intros LT; apply Z; rewrite (i_blk _ _ _ _ I), (i_blk _ _ _ _ I2) in EB; split; [exact EB|]; rewrite EC, D by exact Ri;
       rewrite firstn_length, LW; pose proof (rank_lt _ _ Ri); lia).
  - intros [D NF] T f h L1 L2.
    pose proof (chain_valid _ _ _ _ _ L1 C) as Va. pose proof (chain_valid _ _ _ _ _ L2 C2) as Vb.
    destruct (snd_assign_kernel L f h a b Vb (i_wr _ _ _ _ I) BR rs RS) as (_ & HR & _).
    destruct (C94_run T L f h blk n a b rs HL L1 C Vb BR RS NE SA SR) as (ws & h' & LW & HI & E & [_ P]).
    exists h'. split; [exact E|]. intros idx R. pose proof (rank_lt _ _ R) as RL.
    unfold get at 1. rewrite (i_blk _ _ _ _ I), P, D by exact R. unfold now at 1.
    rewrite Nat.eqb_refl, (proj2 (Nat.leb_le (a_off a) _)), (proj2 (Nat.ltb_lt _ (a_off a + length ws))) by lia. cbn [andb].
    replace (a_off a + rank idx (a_shape a) - a_off a) with (rank idx (a_shape a)) by lia.
    destruct (nth_error ws (rank idx (a_shape a))) as [v|] eqn:N; [|apply nth_error_None in N; lia].
    rewrite <- (HI _ _ N). unfold vturn. rewrite unrank_rank by exact R. apply bind_ext. intros x _. f_equal. unfold get, now.
    match goal with |- (if ?c then _ else _) = _ => destruct c eqn:Q end; [|reflexivity]. exfalso.
    apply andb_prop in Q as [Q Q2]. apply andb_prop in Q as [Q0 Q1]. apply Nat.eqb_eq in Q0. apply Nat.leb_le in Q1. apply Nat.ltb_lt in Q2.
    set (k := a_off b + dot (bidx (a_shape b) idx) (a_stride b) - a_off a) in *. rewrite firstn_length in Q2.
    destruct (unrank_in_range k (a_shape a)) as [RU KU]; [lia|].
    destruct (NF (unrank k (a_shape a)) idx RU R Q0) as [(T0 & U)|G]; [rewrite D, KU by exact RU; lia| |].
    + rewrite T0, (proj2 (Nat.ltb_lt _ _) U) in Q2. cbn [Nat.eqb andb] in Q2. lia.
    + destruct (_ && _) in Q2; lia.
Qed.
Print Assumptions C94_right.

(** x[1..] += x[..16] on seventeen ones with two lanes: the last eight sums see the first eight. *)
Example C94_ex : exists a b h', chain 0 17 false a /\ chain 0 17 false b /\ live ones17 0 17 /\ right_strides a b [1] /\
  straight (a_shape a) (a_stride a) /\ straight (a_shape a) [1] /\
  (let ws := [2; 2; 2; 2; 2; 2; 2; 2] ++ [3; 2; 2; 2; 2; 2; 2; 2] in
   (forall k v, nth_error ws k = Some v -> vturn 2 Nat.add ones17 a b false ws k = Ok v) /\
   snd_assign 2 Nat.add ones17 a b = Ok h' /\ elems h' a = Ok ws).
Proof.
  destruct (nd_slice (fresh_arr 0 17 [17]) [IFrom 1]) as [r1| |] eqn:E1; try discriminate.
  destruct (nd_slice (fresh_arr 0 17 [17]) [ITo 16]) as [r2| |] eqn:E2; try discriminate.
  exists r1, r2. eexists. split; [|split; [|split]].
  - eapply (Ch_slice 0 17 false (fresh_arr 0 17 [17])); [apply Ch_new; cbn; lia| |exact E1]. split; [cbn; lia|repeat constructor].
  - eapply (Ch_slice 0 17 false (fresh_arr 0 17 [17])); [apply Ch_new; cbn; lia| |exact E2]. split; [cbn; lia|repeat constructor].
  - eexists; split; reflexivity.
  - vm_compute in E1. injection E1 as <-. vm_compute in E2. injection E2 as <-. split; [now left|]. split; [intros k K; cbn in K; lia|].
    split; [intros k K; cbn in K; lia|]. split; [|split; [vm_compute; reflexivity|reflexivity]].
    intros k v. do 16 (destruct k as [|k]; [intros Q; injection Q as <-; vm_compute; reflexivity|]). destruct k; discriminate.
Qed.
(** x[1..9] op= x[..8] with two lanes is one block: it is right for every operation, although the
    portable loop feeds every result into the next. *)
Example C94_right_ex : exists a b, chain 0 9 false a /\ chain 0 9 false b /\
  (forall T (f : T -> T -> T) (h : heap T), live h 0 9 -> exists h', snd_assign 2 f h a b = Ok h' /\ as_expected f h h' a b) /\
  ~ (forall T (f : T -> T -> T) (h : heap T), live h 0 9 -> exists h', nd_assign (fun x y => Ok (f x y)) h a b = Ok h' /\ as_expected f h h' a b).
Proof.
  destruct (nd_slice (fresh_arr 0 9 [9]) [IFrom 1]) as [r1| |] eqn:E1; try discriminate.
  destruct (nd_slice (fresh_arr 0 9 [9]) [ITo 8]) as [r2| |] eqn:E2; try discriminate.
  assert (C1 : chain 0 9 false r1) by (eapply (Ch_slice 0 9 false (fresh_arr 0 9 [9]) [IFrom 1]); [apply Ch_new; [reflexivity|lia]| |exact E1]; vm_compute; repeat constructor; lia).
  assert (C2 : chain 0 9 false r2) by (eapply (Ch_slice 0 9 false (fresh_arr 0 9 [9]) [ITo 8]); [apply Ch_new; [reflexivity|lia]| |exact E2]; vm_compute; repeat constructor; lia).
  vm_compute in E1, E2. injection E1 as <-. injection E2 as <-.
  match goal with H : chain 0 9 false ?x, H' : chain 0 9 false ?y |- _ => exists x, y end.
  split; [exact C1|]. split; [exact C2|]. split.
  - intros T f h LV. refine (proj2 (C94_right 2 0 9 _ 0 9 false _ [1] _ C1 C2 _ _ _ _ _ _) _ T f h LV LV).
    + auto.
    + auto.
    + cbn. split; [lia|]. constructor; [now right|constructor].
    + now left.
    + discriminate.
    + intros k K; cbn in K; lia.
    + intros k K; cbn in K; lia.
    + split.
      * intros idx R. inversion R as [|i ? l ? Hi R']; subst. inversion R'; subst. cbn. lia.
      * intros i j Ri Rj _ _. right. cbn [a_shape] in *. inversion Rj as [|j0 ? l ? Hj R'']; subst. inversion R''; subst.
        replace (rank [j0] [8]) with j0 by (cbn; lia). change (prod [8]) with 8. rewrite sight_first by lia. lia.
  - intros H. destruct (H nat Nat.add [Some (repeat 1 9)]) as (h' & E & X); [eexists; split; reflexivity|].
    vm_compute in E. injection E as <-. specialize (X [1]). assert (R : in_range [1] [8]) by (repeat constructor; lia). specialize (X R). vm_compute in X. discriminate.
Qed.
(** x[.., ..2] += 1 and += itself on three rows of three: two strides, so the portable loop runs *)
Example C94_other_ex : exists a, chain 0 9 false a /\ ~ straight (a_shape a) (a_stride a) /\ right_strides a a (a_stride a) /\
  snd_assign 2 Nat.add [Some (seq 1 9)] a a = nd_assign (fun x y => Ok (x + y)) [Some (seq 1 9)] a a /\
  snd_assign_scalar 2 Nat.add [Some (seq 1 9)] a 5 = nd_assign_scalar (fun x y => Ok (x + y)) [Some (seq 1 9)] a 5.
Proof.
  destruct (nd_slice (fresh_arr 0 9 [3; 3]) [IFull; ITo 2]) as [r| |] eqn:E; try discriminate. exists r.
  split; [eapply (Ch_slice 0 9 false (fresh_arr 0 9 [3; 3]) [IFull; ITo 2]); [apply Ch_new; [reflexivity|lia]| |exact E]; vm_compute; repeat constructor; lia|].
  vm_compute in E. injection E as <-. split; [|split; [now left|split; reflexivity]].
  intros S0. specialize (S0 0 ltac:(cbn; lia)). cbn in S0. lia.
Qed.
