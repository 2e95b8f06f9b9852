(** PropsBcast.v: what whole-array reductions, copies and fill do on every view, broadcast
    ones included. *)
From Coq Require Import List Arith Lia Bool ZArith.
From Verif Require Import Base Spec Layout SpecFacts LayoutFacts Views ViewsFacts ViewsFacts2 ViewsFacts3
  Kernels Access HeapFacts KernelFacts OpFacts AccessFacts Chain ChainFacts ViewsFacts4 Reduce ReduceFacts
  PropsViews PropsOps PropsReduce.
Import ListNotations.
Open Scope res_scope.

(** The strides look like those of one run with a constant step: each is 0 or the next
    length times the next stride.  A stretched axis (stride 0) passes this test. *)
Definition evenly (sh st : list nat) : Prop :=
  forall k, S k < length sh -> nth k st 0 = 0 \/ nth k st 0 = nth (S k) sh 0 * nth (S k) st 0.

(** the values found at the given distances from the first element *)
Definition at_steps {T} (h : heap T) (a : arr) (os : list nat) : res (list T) :=
  mapM (fun o => load h (a_blk a) (a_off a + o)) os.

(** 0, s, 2s, ...: the distances of a run of [count] cells with step [s] *)
Definition run (count s : nat) : list nat := map (fun k => k * s) (seq 0 count).

(** ** has_uniform_stride decides [evenly] *)
Lemma evenly_tail n s sh st : evenly (n :: sh) (s :: st) -> evenly sh st.
Proof. intros H k K. apply (H (S k)). cbn [length]. lia. Qed.

Lemma uniform_go_dec sh : forall n s st, length st = length sh ->
  (evenly (n :: sh) (s :: st) /\ has_uniform_go s sh st = Some (last (s :: st) 0)) \/
  (~ evenly (n :: sh) (s :: st) /\ has_uniform_go s sh st = None).
Proof.
  induction sh as [|n' sh IH]; intros n s [|s' st] L; cbn [length] in L; try discriminate.
  - left. split; [|reflexivity]. intros k K. cbn [length] in K. lia.
  - cbn [has_uniform_go]. destruct (Nat.eqb_spec s 0) as [Z|NZ]; cbn [negb andb].
    + destruct (IH n' s' st ltac:(lia)) as [[E U]|[E U]]; rewrite U.
      * left. split; [|reflexivity]. intros [|k] K; [now left|]. apply (E k). cbn [length] in *. lia.
      * right. split; [|reflexivity]. intros H. now apply evenly_tail in H.
    + destruct (Nat.eqb_spec s (n' * s')) as [M|NM]; cbn [negb].
      * destruct (IH n' s' st ltac:(lia)) as [[E U]|[E U]]; rewrite U.
        -- left. split; [|reflexivity]. intros [|k] K; [now right|]. apply (E k). cbn [length] in *. lia.
        -- right. split; [|reflexivity]. intros H. now apply evenly_tail in H.
      * right. split; [|reflexivity]. intros H. destruct (H 0); cbn [length nth] in *; lia.
Qed.

Lemma uniform_dec sh st : length st = length sh ->
  (evenly sh st /\ has_uniform_stride sh st = Some (last st 0)) \/ (~ evenly sh st /\ has_uniform_stride sh st = None).
Proof.
  destruct sh as [|n sh], st as [|s st]; cbn [length]; intros L; try discriminate.
  - left. split; [|reflexivity]. intros k K. cbn [length] in K. lia.
  - apply uniform_go_dec. lia.
Qed.

Lemma evenly_uniform sh st : length st = length sh -> evenly sh st -> has_uniform_stride sh st = Some (last st 0).
Proof. intros L E. destruct (uniform_dec sh st L) as [[_ U]|[N _]]; [exact U|contradiction]. Qed.
Lemma unevenly_uniform sh st : length st = length sh -> ~ evenly sh st -> has_uniform_stride sh st = None.
Proof. intros L E. destruct (uniform_dec sh st L) as [[N _]|[_ U]]; [contradiction|exact U]. Qed.

(** the last stride is 0 only if all are *)
Lemma evenly_zero sh : forall st, length st = length sh -> evenly sh st -> last st 0 = 0 -> Forall (fun s => s = 0) st.
Proof.
  induction sh as [|n sh IH]; intros [|s st] L E Z; cbn [length] in L; try discriminate; constructor.
  - destruct st as [|s' st]; [exact Z|].
    assert (F : Forall (fun s => s = 0) (s' :: st)) by (apply IH; [lia|now apply evenly_tail in E|exact Z]).
    inversion F; subst. destruct sh as [|n' sh]; [discriminate|]. destruct (E 0); cbn [length nth] in *; lia.
  - destruct st as [|s' st]; [constructor|]. apply IH; [lia|now apply evenly_tail in E|exact Z].
Qed.

(** when a run with the last stride visits the elements *)
Lemma offsets_zero sh st : length st = length sh -> Forall (fun s => s = 0) st -> offsets sh st = run (prod sh) 0.
Proof.
  intros L F. unfold run. assert (D : forall idx, dot idx st = 0).
  { clear L. induction F as [|s st E F IH]; intros [|i idx]; cbn [dot]; auto. rewrite IH, E. lia. }
  assert (G : forall l k, map (fun idx => dot idx st) l = map (fun k => k * 0) (seq k (length l))).
  { induction l as [|x l IH]; intros k; [reflexivity|]. cbn [map length seq]. rewrite (IH (S k)), D. f_equal. lia. }
  unfold offsets. rewrite <- (indices_length sh). apply G.
Qed.

Lemma unit_rank sh : forall j, j < length sh -> pos sh -> 1 < nth j sh 0 ->
  exists idx, in_range idx sh /\ 0 < rank idx sh /\ forall st, length st = length sh -> nth j st 0 = 0 -> dot idx st = 0.
Proof.
  induction sh as [|n sh IH]; intros j J P N; [cbn in J; lia|]. inversion P; subst.
  destruct j as [|j].
  - exists (1 :: repeat 0 (length sh)). split.
    + constructor; [exact N|]. apply in_range_zeros. now apply pos_prod.
    + split; [cbn [rank]; rewrite rank_zeros; apply pos_prod in H2; lia|].
      intros [|s st] L Z; [discriminate|]. cbn in Z. cbn [dot]. rewrite dot_zeros. lia.
  - cbn [length nth] in *. destruct (IH j ltac:(lia) H2 N) as (idx & R & K & D). exists (0 :: idx). split; [now constructor|].
    split; [cbn [rank]; lia|]. intros [|s st] L Z; [discriminate|]. cbn [dot]. cbn [length nth] in *. rewrite D; [lia|lia|exact Z].
Qed.

Lemma not_no_bcast sh : forall st, length st = length sh -> ~ no_bcast sh st ->
  exists j, j < length sh /\ 1 < nth j sh 0 /\ nth j st 0 = 0.
Proof.
  induction sh as [|n sh IH]; intros [|s st] L N; cbn [length] in L; try discriminate; [exfalso; apply N; constructor|].
  destruct (le_lt_dec n 1) as [H|H].
  - destruct (IH st ltac:(lia)) as (j & J & A & B); [intros Q; apply N; constructor; auto|]. exists (S j). cbn [length nth]. split; [lia|auto].
  - destruct (Nat.eq_dec s 0) as [Z|Z]; [exists 0; cbn [length nth]; split; [lia|auto]|].
    destruct (IH st ltac:(lia)) as (j & J & A & B); [intros Q; apply N; constructor; auto|]. exists (S j). cbn [length nth]. split; [lia|auto].
Qed.

Lemma no_bcast_dec sh st : length st = length sh -> no_bcast sh st \/ ~ no_bcast sh st.
Proof.
  revert st. induction sh as [|n sh IH]; intros [|s st] L; cbn [length] in L; try discriminate; [left; constructor|].
  destruct (IH st ltac:(lia)) as [H|H].
  - destruct (le_lt_dec n 1), (Nat.eq_dec s 0); try (left; constructor; auto; fail). right. intros Q. inversion Q; subst. lia.
  - right. intros Q. inversion Q; subst. contradiction.
Qed.

Lemma run_nth c s k : k < c -> nth_error (run c s) k = Some (k * s).
Proof. intros K. unfold run. rewrite nth_error_map, nth_error_seq by exact K. reflexivity. Qed.

Lemma run_elements sh st : length st = length sh -> 0 < prod sh -> evenly sh st ->
  offsets sh st = run (prod sh) (last st 0) <-> last st 0 = 0 \/ no_bcast sh st.
Proof.
  intros L P E. split.
  - intros O. destruct (no_bcast_dec sh st L) as [NB|NB]; [now right|]. left.
    destruct (not_no_bcast sh st L NB) as (j & J & A & B).
    destruct (unit_rank sh j J ltac:(now apply pos_prod) A) as (idx & R & K & D).
    pose proof (offsets_nth sh st _ R) as N. rewrite O, run_nth, (D st L B) in N by now apply rank_lt.
    injection N as N. nia.
  - intros [Z|NB].
    + rewrite Z. apply offsets_zero; [exact L|]. now apply (evenly_zero sh).
    + apply has_uniform_spec; [now symmetry|exact NB|now apply evenly_uniform].
Qed.

(** ** reading the cells of a live block *)
Lemma live_load {T} (h : heap T) b n o : live h b n -> (o < n -> exists x, load h b o = Ok x) /\ (n <= o -> load h b o = Oob).
Proof.
  intros (l & E & L). unfold load. rewrite E. split; intros O.
  - destruct (nth_error l o) as [x|] eqn:N; [eauto|]. apply nth_error_None in N. lia.
  - destruct (nth_error l o) as [x|] eqn:N; [|reflexivity]. assert (o < length l) by (apply nth_error_Some; congruence). lia.
Qed.

Lemma at_steps_ok {T} (h : heap T) a n os : live h (a_blk a) n -> (forall o, In o os -> a_off a + o < n) ->
  exists vs, at_steps h a os = Ok vs.
Proof.
  intros LV. unfold at_steps. induction os as [|o os IH]; intros H; [now exists []|]. cbn [mapM].
  destruct (proj1 (live_load h _ _ (a_off a + o) LV) (H o (or_introl eq_refl))) as (x & ->). cbn [bind].
  destruct IH as (vs & ->); [intros; apply H; now right|]. cbn [bind]. eauto.
Qed.

Lemma at_steps_oob {T} (h : heap T) a n os : live h (a_blk a) n -> (exists o, In o os /\ n <= a_off a + o) -> at_steps h a os = Oob.
Proof.
  intros LV. unfold at_steps. induction os as [|o os IH]; intros (x & I & H); [destruct I|]. cbn [mapM].
  destruct (le_lt_dec n (a_off a + o)) as [O|O].
  - now rewrite (proj2 (live_load h _ _ (a_off a + o) LV) O).
  - destruct (proj1 (live_load h _ _ (a_off a + o) LV) O) as (y & ->). cbn [bind].
    rewrite IH; [reflexivity|]. destruct I as [<-|I]; [lia|eauto].
Qed.

Lemma fold_idx_oob {T} (g : T -> T -> res T) (h : heap T) p n is : live h (fst p) n -> (forall x y, exists z, g x y = Ok z) ->
  forall acc, (exists o, In o is /\ n <= snd p + o) -> fold_idx g h p is acc = Oob.
Proof.
  intros LV G. induction is as [|o is IH]; intros acc (x & I & H); [destruct I|]. cbn [fold_idx]. unfold ld. cbn [padd fst snd].
  destruct (le_lt_dec n (snd p + o)) as [O|O].
  - now rewrite (proj2 (live_load h _ _ _ LV) O).
  - destruct (proj1 (live_load h _ _ _ LV) O) as (y & ->). cbn [bind]. destruct (G y acc) as (z & ->). cbn [bind].
    apply IH. destruct I as [<-|I]; [lia|eauto].
Qed.

Lemma k_reduce_run {T} (g : T -> T -> res T) (h : heap T) dflt p sh st : length st = length sh -> evenly sh st ->
  k_reduce g dflt h p sh st = fold_idx g h p (run (prod sh) (last st 0)) dflt.
Proof.
  intros L E. unfold k_reduce. rewrite (evenly_uniform sh st L E). unfold run.
  destruct (Nat.eqb_spec (last st 0) 1) as [->|_]; apply fold_run_idx.
Qed.

(** ** C65 reductions.  On every reachable view, broadcast or not: if the strides pass the
    test, the reduction folds over a run of cells with the last stride as its step, in
    order, and goes out of bounds exactly when that run leaves the buffer; otherwise it
    folds over the elements. *)
Theorem C65_reduce_run : forall T (g : T -> T -> res T) (h : heap T) blk n bc a dflt,
  live h blk n -> chain blk n bc a -> evenly (a_shape a) (a_stride a) ->
  let cells := run (prod (a_shape a)) (last (a_stride a) 0) in
  ((forall o, In o cells -> a_off a + o < n) ->
     exists vs, at_steps h a cells = Ok vs /\
       (forall v, foldM g vs dflt = Ok v -> exists h' r, nd_reduce g dflt h a = Ok (h', r) /\ fresh_result h h' r [] (fun _ => Ok v)) /\
       (foldM g vs dflt = Panic -> nd_reduce g dflt h a = Panic)) /\
  ((exists o, In o cells /\ n <= a_off a + o) -> (forall x y, exists z, g x y = Ok z) -> nd_reduce g dflt h a = Oob).
Proof.
  intros T g h blk n bc a dflt LV C E cells. pose proof (chain_inv _ _ _ _ C) as I.
  pose proof (i_wf _ _ _ _ I) as W. pose proof (i_blk _ _ _ _ I) as B. rewrite <- B in LV.
  unfold nd_reduce. rewrite (k_reduce_run g h dflt (a_ptr a) _ _ W E). fold cells. split.
  - intros H. destruct (at_steps_ok h a n cells LV H) as (vs & A). exists vs. split; [exact A|].
    rewrite fold_idx_eq.
    + change (mapM (fun i => ld h (padd (a_ptr a) i)) cells) with (at_steps h a cells). rewrite A. cbn [bind]. split.
      * intros v ->. cbn [bind]. apply scalar_result.
      * now intros ->.
    + intros o O. apply (proj1 (live_load h _ _ (a_off a + o) LV)). now apply H.
  - intros O G. rewrite (fold_idx_oob g h (a_ptr a) n cells LV G dflt O). reflexivity.
Qed.
Print Assumptions C65_reduce_run.

Theorem C65_reduce_elements : forall T (g : T -> T -> res T) (h : heap T) blk n bc a dflt,
  live h blk n -> chain blk n bc a -> ~ evenly (a_shape a) (a_stride a) -> length (a_shape a) <= MAX_DIMS ->
  exists vs, elems h a = Ok vs /\
    (forall v, foldM g vs dflt = Ok v -> exists h' r, nd_reduce g dflt h a = Ok (h', r) /\ fresh_result h h' r [] (fun _ => Ok v)) /\
    (foldM g vs dflt = Panic -> nd_reduce g dflt h a = Panic).
Proof.
  intros T g h blk n bc a dflt LV C E MD. apply (C19_fold_partial T g h blk n a dflt LV); [|exact MD].
  destruct bc; [right|now left]. split; [exact C|]. apply unevenly_uniform; [|exact E]. apply (i_wf _ _ _ _ (chain_inv _ _ _ _ C)).
Qed.
Print Assumptions C65_reduce_elements.

(** a buffer whose cells hold their own positions tells cells apart *)
Definition ruler (blk n : nat) : heap nat := repeat (Some []) blk ++ [Some (seq 0 n)].
Lemma ruler_live blk n : live (ruler blk n) blk n.
Proof.
  exists (seq 0 n). split; [|apply seq_length]. unfold ruler.
  rewrite nth_error_app2; rewrite repeat_length; [|lia]. now rewrite Nat.sub_diag.
Qed.
Lemma ruler_load blk n o x : load (ruler blk n) blk o = Ok x -> x = o.
Proof.
  unfold load, ruler. rewrite nth_error_app2; rewrite repeat_length; [|lia]. rewrite Nat.sub_diag. cbn [nth_error].
  destruct (nth_error (seq 0 n) o) as [y|] eqn:E; [|discriminate]. intros Q. injection Q as <-.
  assert (o < n) by (rewrite <- (seq_length n 0); apply nth_error_Some; congruence).
  rewrite nth_error_seq in E by assumption. cbn in E. congruence.
Qed.
Lemma ruler_steps n a os vs : at_steps (ruler (a_blk a) n) a os = Ok vs -> vs = map (fun o => a_off a + o) os.
Proof.
  unfold at_steps. revert vs. induction os as [|o os IH]; intros vs E; cbn [mapM] in E; [injection E as <-; reflexivity|].
  destruct (load _ _ _) as [x| |] eqn:X; try discriminate. apply ruler_load in X. cbn [bind] in E.
  destruct (mapM _ os) as [ys| |]; try discriminate. cbn [bind] in E. injection E as <-. cbn [map]. f_equal; [exact X|]. now apply IH.
Qed.

Lemma steps_elements blk n bc a os : chain blk n bc a ->
  (forall T (h : heap T), live h blk n -> at_steps h a os = elems h a) <-> os = offsets (a_shape a) (a_stride a).
Proof.
  intros C. pose proof (chain_inv _ _ _ _ C) as I. pose proof (i_blk _ _ _ _ I) as B. split.
  - intros H. specialize (H nat (ruler blk n) (ruler_live blk n)).
    destruct (valid_elems (ruler blk n) a) as (vs & E); [eapply chain_valid; eauto using ruler_live|].
    rewrite E in H. rewrite elems_offsets in E. rewrite <- B in H, E. apply ruler_steps in H.
    change (mapM (fun i => ld (ruler (a_blk a) n) (padd (a_ptr a) i)) (offsets (a_shape a) (a_stride a)))
      with (at_steps (ruler (a_blk a) n) a (offsets (a_shape a) (a_stride a))) in E.
    apply ruler_steps in E. rewrite H in E. revert E. generalize (offsets (a_shape a) (a_stride a)). clear.
    induction os as [|o os IH]; intros [|x l] E; cbn [map] in E; try discriminate; [reflexivity|].
    injection E as E1 E2. f_equal; [lia|]. now apply IH.
  - intros -> T h LV. now rewrite elems_offsets.
Qed.

(** The run consists of the elements, in their order, exactly when no axis is stretched
    or every stride is 0. *)
Theorem C65_reduce_right : forall blk n bc a, chain blk n bc a -> 0 < prod (a_shape a) -> evenly (a_shape a) (a_stride a) ->
  (forall T (h : heap T), live h blk n -> at_steps h a (run (prod (a_shape a)) (last (a_stride a) 0)) = elems h a) <->
  Forall (fun s => s = 0) (a_stride a) \/ no_bcast (a_shape a) (a_stride a).
Proof.
  intros blk n bc a C P E. pose proof (i_wf _ _ _ _ (chain_inv _ _ _ _ C)) as W.
  rewrite (steps_elements blk n bc a _ C).
  assert (Z : Forall (fun s => s = 0) (a_stride a) <-> last (a_stride a) 0 = 0).
  { split; [|now apply (evenly_zero (a_shape a))]. clear. induction 1 as [|s st Z F IH]; [reflexivity|].
    cbn [last]. destruct st; [exact Z|exact IH]. }
  rewrite Z, <- (run_elements (a_shape a) (a_stride a) W P E). split; congruence.
Qed.
Print Assumptions C65_reduce_right.

(** ** C65 copies.  The flag that selects the block copy is set exactly when the strides
    pass the test and the last one is 0 or 1; the copy then takes [len] consecutive cells. *)
Theorem C65_copy_flag : forall blk n bc a, chain blk n bc a ->
  f_contig (a_fl a) = true <-> evenly (a_shape a) (a_stride a) /\ last (a_stride a) 0 <= 1.
Proof.
  intros blk n bc a C. pose proof (chain_inv _ _ _ _ C) as I. destruct (i_fl _ _ _ _ I) as [_ ->].
  destruct (uniform_dec (a_shape a) (a_stride a) (i_wf _ _ _ _ I)) as [[E ->]|[E ->]].
  - rewrite Nat.leb_le. tauto.
  - split; [discriminate|tauto].
Qed.
Print Assumptions C65_copy_flag.

Theorem C65_copy_run : forall T (h : heap T) blk n bc a,
  live h blk n -> chain blk n bc a -> f_contig (a_fl a) = true ->
  (a_off a + a_len a <= n ->
     exists vs, length vs = a_len a /\ at_steps h a (seq 0 (a_len a)) = Ok vs /\
       nd_data_slice h a = Ok vs /\
       nd_clone h a = Ok (h ++ [Some vs], fresh_arr (length h) (a_len a) (a_shape a)) /\
       nd_flatten h a = Ok (h ++ [Some vs], fresh_arr (length h) (a_len a) [prod (a_shape a)])) /\
  (n < a_off a + a_len a -> 0 < a_len a -> nd_data_slice h a = Oob /\ nd_clone h a = Oob /\ nd_flatten h a = Oob).
Proof.
  intros T h blk n bc a LV C CT. rewrite <- (i_blk _ _ _ _ (chain_inv _ _ _ _ C)) in LV.
  unfold nd_data_slice, nd_clone, nd_flatten, clone_data. rewrite CT. cbn [guard bind].
  change (read_run h (a_ptr a) (a_len a)) with (at_steps h a (seq 0 (a_len a))). split.
  - intros H. destruct (at_steps_ok h a n (seq 0 (a_len a)) LV) as (vs & E).
    { intros o O. apply in_seq in O. lia. }
    assert (L : length vs = a_len a).
    { unfold at_steps in E. apply mapM_length in E. now rewrite seq_length in E. }
    exists vs. rewrite E. cbn [bind]. unfold from_buffer, alloc. rewrite L. repeat split; auto.
  - intros H P. rewrite (at_steps_oob h a n (seq 0 (a_len a)) LV); [now repeat split|].
    exists (a_len a - 1). split; [apply in_seq; lia|lia].
Qed.
Print Assumptions C65_copy_run.

(** the copied cells are the elements exactly when no axis is stretched and the recorded
    length is the number of elements *)
Theorem C65_copy_right : forall blk n bc a, chain blk n bc a -> 0 < prod (a_shape a) -> f_contig (a_fl a) = true ->
  (forall T (h : heap T), live h blk n -> at_steps h a (seq 0 (a_len a)) = elems h a) <->
  no_bcast (a_shape a) (a_stride a) /\ a_len a = prod (a_shape a).
Proof.
  intros blk n bc a C P CT. pose proof (chain_inv _ _ _ _ C) as I. pose proof (i_wf _ _ _ _ I) as W.
  apply (C65_copy_flag _ _ _ _ C) in CT as [E S1]. rewrite (steps_elements blk n bc a _ C). split.
  - intros O. assert (L : a_len a = prod (a_shape a)).
    { apply (f_equal (@length nat)) in O. now rewrite seq_length, offsets_length in O. }
    split; [|exact L]. destruct (no_bcast_dec _ _ W) as [NB|NB]; [exact NB|exfalso].
    destruct (not_no_bcast _ _ W NB) as (j & J & A & B).
    destruct (unit_rank _ j J ltac:(now apply pos_prod) A) as (idx & R & K & D).
    pose proof (offsets_nth _ (a_stride a) _ R) as N. pose proof (rank_lt _ _ R).
    rewrite <- O, nth_error_seq, (D _ W B) in N by lia. injection N as N. lia.
  - intros [NB L]. rewrite L. rewrite (proj2 (run_elements _ _ W P E) (or_intror NB)). unfold run.
    destruct (Nat.eq_dec (last (a_stride a) 0) 1) as [->|NE].
    + rewrite <- (map_id (seq 0 _)) at 1. apply map_ext. intros; lia.
    + assert (Z : last (a_stride a) 0 = 0) by lia.
      assert (P1 : prod (a_shape a) = 1).
      { pose proof (evenly_zero _ _ W E Z) as F. clear -NB F P. unfold no_bcast in NB. induction NB as [|m s sh st N NB IH]; [reflexivity|].
        inversion F; subst. rewrite prod_cons in *. assert (0 < prod sh) by nia. rewrite IH by assumption. destruct N as [N|N]; lia. }
      now rewrite P1.
Qed.
Print Assumptions C65_copy_right.

(** ** C65 fill *)
(** loads inside the first [n] cells of [b] succeed, others are out of bounds *)
Definition sized {T} (h : heap T) (b n : nat) : Prop :=
  forall o, (o < n -> exists x, load h b o = Ok x) /\ (n <= o -> load h b o = Oob).

Lemma written_sized {T} (h h' : heap T) p os v n : sized h (fst p) n -> (forall x, In x os -> snd p + x < n) ->
  written h h' p os v -> sized h' (fst p) n.
Proof.
  intros S B W o. split; intros O.
  - destruct (proj1 (S o) O) as (x & E). eapply written_live; eauto.
  - destruct W as (_ & _ & W). rewrite W; [now apply S|]. intros [_ (x & I & ->)]. apply B in I. lia.
Qed.

Lemma st_oob {T} (h : heap T) p v : load h (fst p) (snd p) = Oob -> st h p v = Oob.
Proof.
  unfold st, store, load. destruct (nth_error h (fst p)) as [[l|]|]; auto.
  destruct (nth_error l (snd p)) eqn:E; [discriminate|]. intros _.
  assert (U : upd l (snd p) v = None).
  { revert E. generalize (snd p). clear. induction l as [|x l IH]; intros [|k] E; cbn in *; try discriminate; auto. now rewrite IH. }
  now rewrite U.
Qed.

Definition effect {T} (n : nat) (act : heap T -> ptr -> res (heap T)) (os : list nat) (v : T) : Prop :=
  forall h p, sized h (fst p) n ->
    ((forall x, In x os -> snd p + x < n) -> exists h', act h p = Ok h' /\ written h h' p os v) /\
    ((exists x, In x os /\ n <= snd p + x) -> act h p = Oob).

Lemma fill_uniform_effect {T} (n count s : nat) (v : T) : effect n (fun h p => fill_uniform h p count s v) (run count s) v.
Proof.
  intros h p S. split.
  - intros B. apply fill_uniform_ok. intros k K. apply (proj1 (S _)). apply B. apply in_map_iff. exists k. split; [reflexivity|]. apply in_seq. lia.
  - revert h p S. induction count as [|c IH]; intros h p S (x & I & O); [destruct I|].
    cbn [fill_uniform]. destruct (le_lt_dec n (snd p)) as [N|N].
    + now rewrite (st_oob h p v (proj2 (S _) N)).
    + destruct (fill_uniform_ok 1 h p 0 v) as (h1 & E & W).
      { intros k K. apply S. lia. }
      cbn [fill_uniform] in E. destruct (st h p v) as [h2| |]; try discriminate. cbn [bind] in E. injection E as ->. cbn [bind].
      apply IH.
      * apply (written_sized h h1 p _ v n S) with (2 := W). intros y Y. cbn in Y. lia.
      * apply in_map_iff in I as (k & <- & K). apply in_seq in K. destruct k as [|k]; [lia|].
        exists (k * s). split; [apply in_map_iff; exists k; split; [reflexivity|apply in_seq; lia]|cbn [padd snd]; lia].
Qed.

Lemma loop_effect {T} (n m s : nat) (body : heap T -> ptr -> res (heap T)) os v : effect n body os v ->
  effect n (fun h p => loop_ptr body h p m s) (flat_map (fun i => map (Nat.add (i * s)) os) (seq 0 m)) v.
Proof.
  intros HB. assert (SH : forall m, flat_map (fun i => map (Nat.add (i * s)) os) (seq 0 (S m)) =
      os ++ map (Nat.add s) (flat_map (fun i => map (Nat.add (i * s)) os) (seq 0 m))).
  { intros m'. cbn [seq flat_map]. f_equal; [rewrite <- (map_id os) at 2; apply map_ext; intros; lia|].
    rewrite <- seq_shift, flat_map_map_in, flat_map_map. apply flat_map_ext. intros i. rewrite map_map. apply map_ext. intros; lia. }
  induction m as [|m IH]; intros h p S; [split; [intros _; exists h; split; [reflexivity|apply written_nil]|intros (x & [] & _)]|].
  rewrite SH. cbn [loop_ptr]. destruct (HB h p S) as [H1 H2]. split.
  - intros B. destruct H1 as (h1 & E1 & W1); [intros x I; apply B, in_or_app; now left|]. rewrite E1. cbn [bind].
    destruct (IH h1 (padd p s)) as [H _].
    { apply (written_sized h h1 p os v n S); [|exact W1]. intros x I. apply B, in_or_app. now left. }
    destruct H as (h2 & E2 & W2).
    { intros x I. cbn [padd snd]. rewrite <- Nat.add_assoc. apply B, in_or_app. right. now apply in_map. }
    exists h2. split; [exact E2|]. apply (written_app h h1 h2 p os _ v W1). now apply written_shift.
  - intros (x & I & O). assert (D : (forall y, In y os -> snd p + y < n) \/ exists y, In y os /\ n <= snd p + y).
    { clear. induction os as [|y os [IH|(z & I & O)]]; [left; intros ? []| |right; exists z; split; [now right|exact O]].
      destruct (le_lt_dec n (snd p + y)); [right; exists y; split; [now left|lia]|left; intros z [<-|Z]; auto]. }
    destruct D as [D|D]; [|now rewrite (H2 D)].
    destruct (H1 D) as (h1 & E1 & W1). rewrite E1. cbn [bind].
    apply in_app_or in I as [I|I]; [apply D in I; lia|]. apply in_map_iff in I as (y & <- & I).
    apply (IH h1 (padd p s)); [exact (written_sized h h1 p os v n S D W1)|]. exists y. split; [exact I|cbn [padd snd]; lia].
Qed.

(** The cells fill writes, as distances from the first element: the axes from [j] on are
    treated as one run; the axes before it are walked. *)
Definition fill_cells (j : nat) (sh st : list nat) (len : nat) : list nat :=
  let s := last st 0 in
  let count := if s =? 1 then (if j =? 0 then len else nth j sh 0 * nth j st 0) else prod (skipn j sh) in
  flat_map (fun o => map (Nat.add o) (run count s)) (offsets (firstn j sh) (firstn j st)).

Lemma k_fill_effect {T} n (v : T) sh : forall st len, length st = length sh ->
  exists j, evenly (skipn j sh) (skipn j st) /\ (forall i, i < j -> ~ evenly (skipn i sh) (skipn i st)) /\
    effect n (fun h p => k_fill h p sh st len v) (fill_cells j sh st len) v.
Proof.
  induction sh as [|m sh IH]; intros [|s st] len L; cbn [length] in L; try discriminate.
  - exists 0. split; [intros k K; cbn in K; lia|]. split; [intros; lia|]. cbn [k_fill has_uniform_stride].
    change (fill_cells 0 [] [] len) with (run 1 0). exact (fill_uniform_effect n 1 0 v).
  - cbn [k_fill]. destruct (uniform_dec (m :: sh) (s :: st) ltac:(cbn [length]; lia)) as [[E ->]|[E ->]].
    + exists 0. split; [exact E|]. split; [intros; lia|]. unfold fill_cells. cbn [firstn skipn Nat.eqb]. rewrite offsets_nil.
      set (u := last (s :: st) 0). cbn [flat_map]. rewrite app_nil_r.
      assert (Q : forall l, map (Nat.add 0) l = l) by (intros; rewrite <- (map_id l) at 2; apply map_ext; reflexivity). rewrite Q.
      destruct (Nat.eqb_spec u 1) as [->|_]; apply fill_uniform_effect.
    + destruct sh as [|m1 sh]; [exfalso; apply E; intros k K; cbn [length] in K; lia|]. destruct st as [|s1 st]; [discriminate|].
      destruct (IH (s1 :: st) (m1 * s1) ltac:(lia)) as (j & EJ & MJ & HE). exists (S j). split; [exact EJ|]. split.
      { intros [|i] I; [exact E|]. cbn [skipn]. apply MJ. lia. }
      unfold vget. cbn [nth_error bind].
      assert (F : fill_cells (S j) (m :: m1 :: sh) (s :: s1 :: st) len =
        flat_map (fun i => map (Nat.add (i * s)) (fill_cells j (m1 :: sh) (s1 :: st) (m1 * s1))) (seq 0 m)).
      { unfold fill_cells. cbn [skipn]. change (last (s :: s1 :: st) 0) with (last (s1 :: st) 0).
        change (nth (S j) (m :: m1 :: sh) 0) with (nth j (m1 :: sh) 0). change (nth (S j) (s :: s1 :: st) 0) with (nth j (s1 :: st) 0).
        change (S j =? 0) with false. cbv iota.
        assert (Q : (if j =? 0 then m1 * s1 else nth j (m1 :: sh) 0 * nth j (s1 :: st) 0) = nth j (m1 :: sh) 0 * nth j (s1 :: st) 0)
          by (destruct j; reflexivity). rewrite Q.
        set (R := run _ _). cbn [firstn]. change (offsets (m :: firstn j (m1 :: sh)) (s :: firstn j (s1 :: st))) with
          (offsets (m :: firstn j (m1 :: sh)) (s :: firstn j (s1 :: st))).
        rewrite offsets_cons, flat_map_concat_map, (flat_map_concat_map _ (seq 0 m)).
        generalize (offsets (firstn j (m1 :: sh)) (firstn j (s1 :: st))). intros l. clear.
        induction (seq 0 m) as [|i is IH]; [reflexivity|]. cbn [flat_map map concat]. rewrite map_app, concat_app, IH. f_equal.
        clear. induction l as [|o l IH]; [reflexivity|]. cbn [map concat flat_map]. rewrite map_app, <- IH. f_equal.
        rewrite map_map. apply map_ext. intros; lia. }
      rewrite F. now apply loop_effect.
Qed.

(** On every reachable view there is one least number of leading axes after which the
    strides pass the test; fill writes the cells above, and nothing else, if they are all
    inside the buffer, and is out of bounds otherwise. *)
Theorem C65_fill : forall T (h : heap T) blk n bc a v, live h blk n -> chain blk n bc a ->
  exists j, evenly (skipn j (a_shape a)) (skipn j (a_stride a)) /\
    (forall i, i < j -> ~ evenly (skipn i (a_shape a)) (skipn i (a_stride a))) /\
    let cells := fill_cells j (a_shape a) (a_stride a) (a_len a) in
    ((forall o, In o cells -> a_off a + o < n) ->
       exists h', nd_fill h a v = Ok h' /\ (forall o, In o cells -> load h' blk (a_off a + o) = Ok v) /\
         same_elsewhere h h' (fun b c => b = blk /\ exists o, In o cells /\ c = a_off a + o)) /\
    ((exists o, In o cells /\ n <= a_off a + o) -> nd_fill h a v = Oob).
Proof.
  intros T h blk n bc a v LV C. pose proof (chain_inv _ _ _ _ C) as I. rewrite <- (i_blk _ _ _ _ I) in *.
  destruct (k_fill_effect n v (a_shape a) (a_stride a) (a_len a) (i_wf _ _ _ _ I)) as (j & E & M & H).
  exists j. split; [exact E|]. split; [exact M|]. cbv zeta.
  destruct (H h (a_ptr a)) as [H1 H2]; [intros o; now apply live_load|]. cbn [a_ptr fst snd] in H1, H2. split.
  - intros B. destruct (H1 B) as (h' & EF & L & A & O). exists h'. split; [exact EF|]. split; [exact A|].
    split; [now symmetry|]. intros b c N. now apply O.
  - exact H2.
Qed.
Print Assumptions C65_fill.

(** ** C65 an array repeated along new leading axes.  If no axis has length 1, broadcasting
    a new array to more leading axes, at least two copies in all, makes every total
    reduction, clone, flatten, data_slice and fill run out of the buffer. *)
Lemma bstride_go_rm sh : Forall (fun n => n <> 1) sh -> forall st, length st = length sh -> bstride_go st sh sh = Ok st.
Proof.
  induction 1 as [|n sh N F IH]; intros [|s st] L; cbn [length] in L; try discriminate; [reflexivity|].
  cbn [bstride_go]. destruct (Nat.eqb_spec n 1); [contradiction|]. rewrite Nat.eqb_refl. cbn [bind]. rewrite IH by lia. reflexivity.
Qed.
Lemma bshape_ok_refl sh : bshape_ok sh sh = true.
Proof. induction sh as [|n sh IH]; [reflexivity|]. cbn [bshape_ok]. rewrite Nat.eqb_refl, orb_true_r, IH. reflexivity. Qed.
Lemma rm_last n sh : last (rm_stride (n :: sh)) 0 = 1.
Proof. revert n. induction sh as [|m sh IH]; intros n; [reflexivity|]. specialize (IH m). cbn [rm_stride] in *. exact IH. Qed.
Lemma last_repeat k (l : list nat) : l <> [] -> last (repeat 0 k ++ l) 0 = last l 0.
Proof. intros N. induction k as [|k IH]; [reflexivity|]. cbn [repeat app last]. rewrite IH. destruct (repeat 0 k ++ l) eqn:E; [|reflexivity]. apply app_eq_nil in E as [_ E]. contradiction. Qed.
Lemma rm_evenly sh : evenly sh (rm_stride sh).
Proof.
  induction sh as [|n sh IH]; [intros k K; cbn in K; lia|]. intros [|k] K; [|apply IH; cbn [length] in K; lia].
  destruct sh as [|m sh]; [cbn in K; lia|]. right. cbn [rm_stride nth]. now rewrite prod_cons.
Qed.
Lemma lead_evenly lead sh st : evenly sh st -> evenly (lead ++ sh) (repeat 0 (length lead) ++ st).
Proof.
  intros E. induction lead as [|m lead IH]; [exact E|]. cbn [length repeat app]. intros [|k] K; [now left|].
  apply IH. cbn [length app] in K. lia.
Qed.

Theorem C65_repeated : forall T (h : heap T) b sh lead,
  live h b (prod sh) -> sh <> [] -> Forall (fun n => 2 <= n) sh -> 2 <= prod lead ->
  exists r, nd_broadcast_to (fresh_arr b (prod sh) sh) (lead ++ sh) = Ok r /\ (exists vs, elems h r = Ok vs) /\
    (forall g dflt, (forall x y : T, exists z, g x y = Ok z) -> nd_reduce g dflt h r = Oob) /\
    nd_clone h r = Oob /\ nd_flatten h r = Oob /\ nd_data_slice h r = Oob /\ (forall v, nd_fill h r v = Oob).
Proof.
  intros T h b sh lead LV NE F2 P.
  assert (P1 : 0 < prod sh).
  { apply pos_prod. unfold pos. eapply Forall_impl; [|exact F2]. cbn. lia. }
  assert (F1 : Forall (fun n => n <> 1) sh) by (eapply Forall_impl; [|exact F2]; cbn; lia).
  assert (E : exists r, nd_broadcast_to (fresh_arr b (prod sh) sh) (lead ++ sh) = Ok r /\ a_off r = 0 /\ a_len r = prod (lead ++ sh) /\
    a_shape r = lead ++ sh /\ a_stride r = repeat 0 (length lead) ++ rm_stride sh).
  { unfold nd_broadcast_to, broadcast_shape, broadcast_stride. cbn [fresh_arr a_shape a_stride]. rewrite app_length.
    destruct (Nat.ltb_spec (length lead + length sh) (length sh)); [lia|].
    replace (length lead + length sh - length sh) with (length lead) by lia.
    rewrite skipn_app, skipn_all, Nat.sub_diag. cbn [skipn app]. rewrite bshape_ok_refl. cbn [guard bind].
    rewrite app_length. destruct (Nat.ltb_spec (length lead + length sh) (length sh)); [lia|].
    replace (length lead + length sh - length sh) with (length lead) by lia.
    rewrite skipn_app, skipn_all, Nat.sub_diag. cbn [skipn app].
    rewrite stride_from_shape_rm, bstride_go_rm by (auto; apply rm_stride_length). cbn [bind].
    eexists. split; [reflexivity|]. repeat split. }
  destruct E as (r & E & OF & LE & SH & ST). exists r. split; [exact E|].
  assert (C : chain b (prod sh) true r) by (eapply Ch_broadcast; [|exact E]; apply Ch_new; auto).
  pose proof (i_blk _ _ _ _ (chain_inv _ _ _ _ C)) as B.
  split; [apply valid_elems; eapply chain_valid; eauto|].
  assert (EV : evenly (a_shape r) (a_stride r)) by (rewrite SH, ST; apply lead_evenly, rm_evenly).
  assert (LS : last (a_stride r) 0 = 1).
  { rewrite ST, last_repeat; [|destruct sh; [contradiction|discriminate]]. destruct sh; [contradiction|apply rm_last]. }
  assert (PP : prod sh < prod (a_shape r)).
  { rewrite SH, prod_app. nia. }
  assert (CT : f_contig (a_fl r) = true) by (apply (C65_copy_flag _ _ _ _ C); split; [exact EV|lia]).
  split; [|split; [|split; [|split]]].
  - intros g dflt G. apply (C65_reduce_run T g h b (prod sh) true r dflt LV C EV); [|exact G].
    exists (prod sh). rewrite LS, OF. split; [|lia]. apply in_map_iff. exists (prod sh). split; [lia|]. apply in_seq. lia.
  - apply (C65_copy_run T h b (prod sh) true r LV C CT); [rewrite OF, LE, <- SH|rewrite LE, <- SH]; lia.
  - apply (C65_copy_run T h b (prod sh) true r LV C CT); [rewrite OF, LE, <- SH|rewrite LE, <- SH]; lia.
  - apply (C65_copy_run T h b (prod sh) true r LV C CT); [rewrite OF, LE, <- SH|rewrite LE, <- SH]; lia.
  - intros v. destruct (C65_fill T h b (prod sh) true r v LV C) as (j & _ & M & _ & O). apply O.
    assert (j = 0) by (destruct j as [|j]; [reflexivity|]; exfalso; apply (M 0); [lia|exact EV]). subst j.
    exists (prod sh). rewrite OF. split; [|lia]. unfold fill_cells. rewrite LS. cbn [Nat.eqb firstn]. rewrite offsets_nil. cbn [flat_map].
    rewrite app_nil_r. apply in_map_iff. exists (prod sh). split; [reflexivity|]. apply in_map_iff. exists (prod sh). split; [lia|]. apply in_seq.
    rewrite LE, <- SH. lia.
Qed.
Print Assumptions C65_repeated.

(** ** examples *)
(** Cells 0, 1, 2 of a buffer of twelve, broadcast to 2x3, pass the test without being a
    run: the sum reads cells 0 to 5.  The first column of a 4x3 array broadcast to 2x4
    reads 0, 3, ..., 21.  Repeating along the last axis instead does not pass the test. *)
Definition exrow : heap nat := [Some (seq 0 12)].
Example C65_ex : exists a b c, live exrow 0 12 /\ chain 0 12 true a /\ chain 0 12 true b /\ chain 0 12 true c /\
  evenly (a_shape a) (a_stride a) /\ evenly (a_shape b) (a_stride b) /\ ~ evenly (a_shape c) (a_stride c) /\
  at_steps exrow a (run (prod (a_shape a)) (last (a_stride a) 0)) = Ok [0; 1; 2; 3; 4; 5] /\
  elems exrow a = Ok [0; 1; 2; 0; 1; 2] /\
  (exists h' r, nd_reduce (fun x acc => Ok (acc + x)) 0 exrow a = Ok (h', r) /\ get h' r [] = Ok 15) /\
  at_steps exrow b (run (prod (a_shape b)) (last (a_stride b) 0)) = Oob /\
  elems exrow c = Ok [0; 0; 1; 1; 2; 2] /\
  (exists h' r, nd_reduce (fun x acc => Ok (acc + x)) 0 exrow c = Ok (h', r) /\ get h' r [] = Ok 6) /\
  fill_cells 0 (a_shape a) (a_stride a) (a_len a) = [0; 1; 2; 3; 4; 5].
Proof.
  destruct (nd_slice (fresh_arr 0 12 [12]) [ITo 3]) as [r1| |] eqn:E1; try discriminate.
  destruct (nd_slice_along (fresh_arr 0 12 [4; 3]) 1 (IUsize 0)) as [r2| |] eqn:E2; try discriminate.
  assert (C1 : chain 0 12 false r1).
  { eapply (Ch_slice 0 12 false (fresh_arr 0 12 [12])); [apply Ch_new; cbn; lia| |exact E1]. split; [cbn; lia|repeat constructor]. }
  assert (C2 : chain 0 12 false r2).
  { eapply (Ch_slice_along 0 12 false (fresh_arr 0 12 [4; 3]) 1 1 (IUsize 0)); [apply Ch_new; cbn; lia|reflexivity|cbn; lia|exact E2]. }
  destruct (nd_unsqueeze ByRef r1 1) as [r3| |] eqn:E3; [|vm_compute in E1; injection E1 as <-; discriminate..].
  assert (C3 : chain 0 12 false r3) by (eapply (Ch_unsqueeze 0 12 false r1 ByRef 1); [exact C1|exact E3]).
  destruct (nd_broadcast_to r1 [2; 3]) as [a| |] eqn:EA; [|vm_compute in E1; injection E1 as <-; discriminate..].
  destruct (nd_broadcast_to r2 [2; 4]) as [b| |] eqn:EB; [|vm_compute in E2; injection E2 as <-; discriminate..].
  destruct (nd_broadcast_to r3 [3; 2]) as [c| |] eqn:EC;
    [|vm_compute in E1; injection E1 as <-; vm_compute in E3; injection E3 as <-; discriminate..].
  exists a, b, c. split; [exists (seq 0 12); now split|].
  split; [exact (Ch_broadcast 0 12 false r1 _ a C1 EA)|]. split; [exact (Ch_broadcast 0 12 false r2 _ b C2 EB)|]. split; [exact (Ch_broadcast 0 12 false r3 _ c C3 EC)|].
  vm_compute in E1. injection E1 as <-. vm_compute in E2. injection E2 as <-. vm_compute in E3. injection E3 as <-.
  vm_compute in EA. injection EA as <-. vm_compute in EB. injection EB as <-. vm_compute in EC. injection EC as <-.
  split; [intros [|k] K; cbn in *; [auto|lia]|]. split; [intros [|k] K; cbn in *; [auto|lia]|].
  split; [intros H; destruct (H 0); cbn in *; lia|].
  split; [reflexivity|]. split; [reflexivity|]. split; [eexists _, _; split; vm_compute; reflexivity|].
  split; [reflexivity|]. split; [reflexivity|]. split; [eexists _, _; split; vm_compute; reflexivity|]. reflexivity.
Qed.
Example C65_repeated_ex : live [Some [1; 2; 3]] 0 (prod [3]) /\ [3] <> [] /\ Forall (fun n => 2 <= n) [3] /\ 2 <= prod [4].
Proof. split; [exists [1; 2; 3]; now split|]. split; [discriminate|]. split; [repeat constructor|cbn; lia]. Qed.
