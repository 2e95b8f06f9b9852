(** PropsIter.v: iteration over sub-arrays. *)
From Coq Require Import List Arith Lia Bool ZArith.
From Verif Require Import Base Spec Layout SpecFacts LayoutFacts Views ViewsFacts ViewsFacts2 ViewsFacts3
  Kernels Access HeapFacts KernelFacts OpFacts AccessFacts Chain ChainFacts Reduce ReduceFacts Iter PropsViews PropsOps PropsReduce.
Import ListNotations.
Open Scope res_scope.

Lemma split_one data k : k < length data -> split_by_indices data [k] = Ok ([nth k data 0], delete_at k data).
Proof.
  intros K. unfold split_by_indices. cbn [length]. unfold csub. rewrite (proj2 (Nat.ltb_ge _ _)) by lia. cbn [bind set_bits].
  unfold vget. rewrite nth_error_repeat by exact K. cbn [bind].
  assert (E : exists bits, vset (repeat false (length data)) k true = Ok bits /\
     map snd (filter fst (combine bits data)) = [nth k data 0] /\ map snd (filter (fun p => negb (fst p)) (combine bits data)) = delete_at k data).
  { assert (F0 : forall l : list nat, map snd (filter fst (combine (repeat false (length l)) l)) = []).
    { induction l as [|x l IH]; cbn [length repeat combine filter fst map]; auto. }
    assert (F1 : forall l : list nat, map snd (filter (fun p => negb (fst p)) (combine (repeat false (length l)) l)) = l).
    { induction l as [|x l IH]; cbn [length repeat combine filter fst negb map snd]; [reflexivity|]. now rewrite IH. }
    revert k K. induction data as [|x data IH]; intros k K; [cbn in K; lia|]. cbn [length repeat]. destruct k as [|k].
    - exists (true :: repeat false (length data)). split; [reflexivity|]. cbn [combine filter fst negb map snd nth]. now rewrite F0, F1.
    - destruct (IH k ltac:(cbn in K; lia)) as (bits & E & H1 & H2). exists (false :: bits). unfold vset in *. cbn [upd].
      destruct (upd (repeat false (length data)) k true) as [b|]; [|discriminate]. injection E as ->. split; [reflexivity|].
      cbn [combine filter fst negb map snd nth]. split; [exact H1|]. rewrite H2. reflexivity. }
  destruct E as (bits & -> & H1 & H2). cbn [bind]. now rewrite H1, H2.
Qed.

Lemma in_range_delete k : forall sh idx j, k < length sh -> in_range idx (delete_at k sh) -> j < nth k sh 0 -> in_range (insert_at k j idx) sh.
Proof.
  induction k as [|k IH]; intros [|n sh] idx j K R J; cbn [length] in K; try lia; unfold delete_at, insert_at in *; cbn [firstn skipn app] in *.
  - constructor; [exact J|exact R].
  - destruct idx as [|i idx]; [inversion R|]. apply in_range_cons in R as [I R]. cbn [firstn skipn app]. constructor; [exact I|]. apply IH; auto. lia.
Qed.
Lemma dot_insert k : forall (st idx : list nat) j, k < length st -> length idx = length (delete_at k st) ->
  dot (insert_at k j idx) st = dot idx (delete_at k st) + j * nth k st 0.
Proof.
  induction k as [|k IH]; intros [|s st] idx j K L; cbn [length] in K; try lia; unfold delete_at, insert_at in *; cbn [firstn skipn app] in *.
  - cbn [dot nth]. lia.
  - destruct idx as [|i idx]; [discriminate|]. cbn [length] in L. cbn [firstn skipn app dot nth]. specialize (IH st idx j ltac:(lia) ltac:(lia)). lia.
Qed.
Lemma delete_at_length k (l : list nat) : k < length l -> length (delete_at k l) = length l - 1.
Proof. intros K. unfold delete_at. rewrite app_length, firstn_length, skipn_length. lia. Qed.
Lemma no_bcast_delete k sh st : no_bcast sh st -> no_bcast (delete_at k sh) (delete_at k st).
Proof.
  intros H. revert k. induction H as [|n s sh st N F IH]; intros [|k]; unfold delete_at; cbn [firstn skipn app]; [constructor..|exact F|].
  constructor; [exact N|]. apply IH.
Qed.

(** one step of the single-axis iterator *)
Section One.
  Context {T : Type}.
  Variables (h : heap T) (a : arr) (k : nat).
  Hypothesis V : valid h a.
  Hypothesis K : k < length (a_shape a).
  Let n := nth k (a_shape a) 0.
  Let s := nth k (a_stride a) 0.
  Let osh := delete_at k (a_shape a).
  Let ost := delete_at k (a_stride a).
  Hypothesis NB : has_uniform_stride osh ost = Some 0 \/ has_uniform_stride osh ost = Some 1 -> no_bcast osh ost.
  Hypothesis MD : length osh <= MAX_DIMS.

  Definition sub_it (j : nat) : nditer :=
    mkIt (set_off (reshaped_view ByRef a osh ost) (a_off a + j * s)) [n] [s] [j] j (prod [n]).

  Lemma sub_from : nditer_from a [k] = Ok (sub_it 0).
  Proof.
    unfold nditer_from. destruct V as [W _]. rewrite !split_one by lia. cbn [bind fst snd length repeat]. unfold sub_it. fold n s osh ost.
    cbn [Nat.mul]. rewrite Nat.add_0_r. reflexivity.
  Qed.

  Lemma sub_next h' j : extends h h' -> j < n ->
    exists vs, nditer_next h' (sub_it j) = Ok (Some (h' ++ [Some vs], fresh_arr (length h') (prod osh) osh, sub_it (S j))) /\
      length vs = prod osh /\ mapM (fun idx => get h a (insert_at k j idx)) (indices osh) = Ok vs.
  Proof.
    intros X J. set (r := set_off (reshaped_view ByRef a osh ost) (a_off a + j * s)). destruct V as [W VG].
    assert (LO : length ost = length osh) by (unfold ost, osh; rewrite !delete_at_length; lia).
    assert (G : forall idx, in_range idx osh -> get h' r idx = get h a (insert_at k j idx)).
    { intros idx R. assert (RI := in_range_delete k _ _ j K R J). destruct (VG _ RI) as (v & E). pose proof (in_range_length _ _ R) as LI.
      unfold get in *. cbn [r set_off reshaped_view a_blk a_off a_stride]. rewrite dot_insert in * by (fold ost; lia). fold ost s in E |- *.
      replace (a_off a + j * s + dot idx ost) with (a_off a + (dot idx ost + j * s)) by lia. rewrite E.
      destruct X as [_ X]. rewrite X; [exact E|]. eapply load_lt; eauto. }
    destruct (nd_clone_ok h' r) as (vs & E & L & EC & _).
    - split; [exact LO|]. cbn [r set_off reshaped_view a_shape]. intros idx R. rewrite G by exact R. apply VG. now apply in_range_delete.
    - unfold r, set_off, flags_ok. cbn [reshaped_view a_fl a_shape a_stride drop_own f_unif f_contig]. apply update_flags_ok.
    - intros _. reflexivity.
    - cbn [r set_off reshaped_view a_fl a_shape a_stride drop_own f_contig]. intros C. apply NB.
      destruct (update_flags_ok (a_fl a) osh ost) as [_ Q]. rewrite Q in C. destruct (has_uniform_stride osh ost) as [[|[|u]]|]; auto; discriminate.
    - exact MD.
    - exists vs. cbn [r set_off reshaped_view a_shape] in EC, L, E. fold r in EC. split; [|split; [exact L|]].
      + unfold nditer_next. cbn [sub_it it_k it_size it_res it_shape it_stride it_idx prod fold_right]. rewrite Nat.mul_1_r.
        rewrite (proj2 (Nat.eqb_neq _ _)) by lia. fold r. rewrite EC. cbn [bind nditer_carry]. rewrite (proj2 (Nat.eqb_neq j n)) by lia. cbn [negb bind fst snd].
        unfold sub_it. cbn [r set_off reshaped_view a_off a_blk a_len a_cap a_shape a_stride a_fl prod fold_right]. rewrite Nat.mul_1_r.
        replace (a_off a + j * s + s) with (a_off a + S j * s) by lia. reflexivity.
      + rewrite <- E. unfold elems. symmetry. apply mapM_ext. intros idx I. apply in_indices in I. now apply G.
  Qed.

  Lemma sub_collect : forall m j h', j + m = n -> extends h h' ->
    exists vss, nditer_collect (S m) h' (sub_it j) = Ok (h' ++ map Some vss, map (fun i => fresh_arr (length h' + i) (prod osh) osh) (seq 0 m)) /\
      length vss = m /\ forall i, i < m -> exists vs, nth_error vss i = Some vs /\ length vs = prod osh /\
        mapM (fun idx => get h a (insert_at k (j + i) idx)) (indices osh) = Ok vs.
  Proof.
    induction m as [|m IH]; intros j h' J X.
    - exists []. cbn [nditer_collect]. unfold nditer_next. cbn [sub_it it_k it_size prod fold_right]. rewrite Nat.mul_1_r, (proj2 (Nat.eqb_eq _ _)) by lia.
      cbn [bind map seq]. rewrite app_nil_r. split; [reflexivity|]. split; [reflexivity|]. intros; lia.
    - destruct (sub_next h' j X ltac:(lia)) as (vs & E & L & EV).
      destruct (IH (S j) (h' ++ [Some vs]) ltac:(lia)) as (vss & EC & LV & HV).
      { destruct X as [X1 X2]. split; [rewrite app_length; lia|]. intros b o B. rewrite load_app_old by lia. now apply X2. }
      exists (vs :: vss). cbn [nditer_collect] in *. rewrite E. cbn [bind]. rewrite EC. cbn [bind fst snd map seq]. split; [|split; [cbn; lia|]].
      + f_equal. f_equal; [now rewrite <- app_assoc|]. f_equal; [now rewrite Nat.add_0_r|]. rewrite <- seq_shift, map_map. apply map_ext. intros i.
        rewrite app_length. cbn [length]. f_equal. lia.
      + intros [|i] I; cbn [nth_error].
        * exists vs. rewrite Nat.add_0_r. auto.
        * rewrite <- Nat.add_succ_comm. apply HV. lia.
  Qed.
End One.

Lemma get_block {T} (h : heap T) vss i vs sh n idx : nth_error vss i = Some vs -> length vs = prod sh -> in_range idx sh ->
  exists v, nth_error vs (rank idx sh) = Some v /\ get (h ++ map Some vss) (fresh_arr (length h + i) n sh) idx = Ok v.
Proof.
  intros N L R. unfold get, fresh_arr. cbn [a_blk a_off a_stride]. rewrite stride_from_shape_rm, <- rank_dot. cbn [plus].
  unfold load. rewrite nth_error_app2 by lia. replace (length h + i - length h) with i by lia. rewrite (map_nth_error _ _ _ N).
  destruct (nth_error vs (rank idx sh)) as [v|] eqn:E; [eauto|]. apply nth_error_None in E. pose proof (rank_lt idx sh R). lia.
Qed.

(** ** C38.  [iter_along axis] for one axis; [iter] is axis 0.  Item j is a fresh array holding
    the elements whose coordinate on the axis is j.  Missing: two or more axes (refuted below)
    and broadcast sub-arrays flagged contiguous (items are clones, see C17). *)
Theorem C38_iter_along_partial : forall T (h : heap T) a axis,
  valid h a -> let nd := length (a_shape a) in nd <= S MAX_DIMS ->
  (- Z.of_nat nd <= axis < Z.of_nat nd)%Z ->
  let k := Z.to_nat (axis mod Z.of_nat nd) in
  let osh := delete_at k (a_shape a) in
  no_bcast osh (delete_at k (a_stride a)) ->
  exists h' rs, nd_iter_along h a axis = Ok (h', rs) /\ extends h h' /\ length rs = nth k (a_shape a) 0 /\
    forall j, j < nth k (a_shape a) 0 -> exists r, nth_error rs j = Some r /\ a_blk r = length h + j /\ a_shape r = osh /\ valid h' r /\
      forall idx, in_range idx osh -> get h' r idx = get h a (insert_at k j idx).
Proof.
  intros T h a axis V nd MD IN k osh NB.
  assert (K : k < length (a_shape a)). { unfold k. fold nd. pose proof (Z.mod_pos_bound axis (Z.of_nat nd)). lia. }
  assert (MD' : length (delete_at k (a_shape a)) <= MAX_DIMS) by (rewrite delete_at_length by exact K; fold nd; lia).
  unfold nd_iter_along. fold nd. rewrite (as_absolute_ok axis nd IN). fold k. cbn [bind]. unfold nd_nditer.
  rewrite (sub_from h a k V K MD'). cbn [bind]. cbn [sub_it it_size prod fold_right]. rewrite Nat.mul_1_r.
  destruct (sub_collect h a k V K (fun _ => NB) MD' (nth k (a_shape a) 0) 0 h eq_refl) as (vss & E & L & H); [split; [lia|auto]|].
  { rewrite E. eexists _, _. split; [reflexivity|]. split; [apply extends_app|]. split; [now rewrite map_length, seq_length|].
    intros j J. destruct (H j J) as (vs & N & LV & EV). fold osh in LV, EV |- *. exists (fresh_arr (length h + j) (prod osh) osh).
    split; [now apply (map_nth_error (fun i => fresh_arr (length h + i) (prod osh) osh)), nth_error_seq|]. split; [reflexivity|]. split; [reflexivity|]. split.
    + split; [cbn; apply stride_from_shape_length|]. intros idx R. destruct (get_block h vss j vs osh (prod osh) idx N LV R) as (v & _ & G). eauto.
    + intros idx R. destruct (get_block h vss j vs osh (prod osh) idx N LV R) as (v & NV & G). rewrite G.
      destruct (mapM_nth _ _ _ _ _ EV (nth_indices_rank _ _ R)) as (v' & NV' & EG). cbn [plus] in EG. congruence. }
Qed.
Print Assumptions C38_iter_along_partial.

(** ** Several axes *)
(** keep only the listed axes, in array order *)
Definition take_axes (ax : list nat) (l : list nat) : list nat :=
  map snd (filter (fun p => existsb (Nat.eqb (fst p)) ax) (combine (seq 0 (length l)) l)).

(** neighbouring iterated axes are nested without gaps *)
Definition nested_strides (sh st : list nat) : Prop :=
  forall i, S i < length sh -> nth i st 0 = nth (S i) sh 0 * nth (S i) st 0.

Lemma take_mask A l : drop (mask_of (length l) A) l = take_axes A l.
Proof.
  unfold mask_of, take_axes. generalize 0. induction l as [|x l IH]; intros k; [reflexivity|].
  cbn [length seq map drop combine filter fst]. destruct (existsb (Nat.eqb k) A); [|apply IH]. cbn [map snd]. f_equal. apply IH.
Qed.
Lemma take_in_range mask : forall idx sh, length mask = length sh -> in_range idx sh -> in_range (drop mask idx) (drop mask sh).
Proof.
  induction mask as [|m mask IH]; intros idx sh L R; [constructor|].
  destruct R as [|i n idx sh H R]; [constructor|]. injection L as L. cbn [drop]. destruct m; [|now apply IH].
  constructor; [exact H|]. now apply IH.
Qed.
Lemma dot_split mask : forall idx st, length mask = length st -> length idx = length st ->
  dot idx st = dot (drop mask idx) (drop mask st) + dot (keep mask idx) (keep mask st).
Proof.
  induction mask as [|m mask IH]; intros [|i idx] [|s st] L1 L2; try discriminate; [reflexivity|].
  injection L1 as L1. injection L2 as L2. cbn [drop keep]. destruct m; cbn [dot]; rewrite (IH _ _ L1 L2); lia.
Qed.
Fixpoint merge (mask : list bool) (c o : list nat) : list nat :=
  match mask with
  | [] => []
  | true :: m => match c with x :: c' => x :: merge m c' o | [] => [] end
  | false :: m => match o with x :: o' => x :: merge m c o' | [] => [] end
  end.
Lemma merge_spec mask : forall sh c o, length mask = length sh -> in_range c (drop mask sh) -> in_range o (keep mask sh) ->
  in_range (merge mask c o) sh /\ drop mask (merge mask c o) = c /\ keep mask (merge mask c o) = o.
Proof.
  induction mask as [|[|] mask IH]; intros [|n sh] c o L C O; try discriminate; cbn [drop keep merge] in *.
  - inversion C; inversion O; subst. repeat split. constructor.
  - injection L as L. inversion C; subst. destruct (IH sh l o L H3 O) as (R & D & K). rewrite D, K. repeat split. now constructor.
  - injection L as L. inversion O; subst. destruct (IH sh c l L C H3) as (R & D & K). rewrite D, K. repeat split. now constructor.
Qed.
Lemma mask_of_length nd A : length (mask_of nd A) = nd.
Proof. unfold mask_of. now rewrite map_length, seq_length. Qed.

Lemma set_bits_ok nd : forall A B, (forall k, In k A -> k < nd) -> NoDup (rev A ++ B) -> set_bits (mask_of nd B) A = Ok (mask_of nd (rev A ++ B)).
Proof.
  induction A as [|y A IH]; intros B L N; [reflexivity|]. cbn [set_bits rev]. cbn [rev] in N. rewrite <- app_assoc in N. cbn [app] in N.
  assert (K : y < nd) by (apply L; now left). unfold vget. rewrite mask_of_nth by exact K. cbn [bind].
  assert (NI : ~ In y B). { apply NoDup_remove_2 in N. intros I. apply N. apply in_or_app. now right. }
  destruct (existsb (Nat.eqb y) B) eqn:E; [apply existsb_In in E; contradiction|].
  destruct (upd_ok (mask_of nd B) y true) as (l & U); [now rewrite mask_of_length|].
  unfold vset. rewrite U. cbn [bind]. rewrite (mask_upd _ _ _ _ K U), (IH (y :: B)); [now rewrite <- app_assoc| |exact N].
  intros k I. apply L. now right.
Qed.
Lemma set_bits_panic nd : forall A B, (~ NoDup (rev A ++ B) \/ exists k, In k A /\ nd <= k) -> NoDup B -> set_bits (mask_of nd B) A = Panic.
Proof.
  induction A as [|y A IH]; intros B H NB; [destruct H as [H|(k & [] & _)]; contradiction|]. cbn [set_bits].
  destruct (Nat.lt_ge_cases y nd) as [K|K].
  - unfold vget. rewrite mask_of_nth by exact K. cbn [bind]. destruct (existsb (Nat.eqb y) B) eqn:E; [reflexivity|].
    destruct (upd_ok (mask_of nd B) y true) as (l & U); [now rewrite mask_of_length|].
    unfold vset. rewrite U. cbn [bind]. rewrite (mask_upd _ _ _ _ K U). apply IH.
    + destruct H as [H|(k & [ ->|I] & G)]; [left|lia|right; eauto]. cbn [rev] in H. now rewrite <- app_assoc in H.
    + constructor; [|exact NB]. intros I. apply existsb_In in I. congruence.
  - unfold vget. rewrite (proj2 (nth_error_None _ _)); [reflexivity|]. now rewrite mask_of_length.
Qed.
Lemma filter_mask_drop mask : forall l, map snd (filter fst (combine mask l)) = drop mask l.
Proof. induction mask as [|[|] mask IH]; intros [|x l]; cbn [combine filter fst map snd drop]; auto. now rewrite IH. Qed.
Lemma filter_mask_keep mask : forall l, map snd (filter (fun p => negb (fst p)) (combine mask l)) = keep mask l.
Proof. induction mask as [|[|] mask IH]; intros [|x l]; cbn [combine filter fst negb map snd keep]; auto. now rewrite IH. Qed.
Lemma mask_of_rev nd A : mask_of nd (rev A) = mask_of nd A.
Proof.
  unfold mask_of. apply map_ext. intros k. destruct (existsb (Nat.eqb k) A) eqn:E.
  - apply existsb_In. apply existsb_In in E. now apply -> in_rev.
  - destruct (existsb (Nat.eqb k) (rev A)) eqn:E'; [|reflexivity]. apply existsb_In in E'. apply in_rev, existsb_In in E'. congruence.
Qed.
Lemma split_ok A data : NoDup A -> (forall k, In k A -> k < length data) ->
  split_by_indices data A = Ok (drop (mask_of (length data) A) data, keep (mask_of (length data) A) data).
Proof.
  intros N L. unfold split_by_indices.
  assert (LE : length A <= length data).
  { replace (length data) with (length (seq 0 (length data))) by apply seq_length. apply NoDup_incl_length; [exact N|].
    intros k I. apply in_seq. specialize (L k I). lia. }
  unfold csub. rewrite (proj2 (Nat.ltb_ge _ _)) by exact LE. cbn [bind]. rewrite <- mask_of_nil, (set_bits_ok _ A []); [|exact L|rewrite app_nil_r; now apply NoDup_rev].
  cbn [bind]. rewrite app_nil_r, mask_of_rev. now rewrite filter_mask_drop, filter_mask_keep.
Qed.
Lemma split_panics A data : ~ (NoDup A /\ forall k, In k A -> k < length data) -> split_by_indices data A = Panic.
Proof.
  intros H. unfold split_by_indices, csub. destruct (length data <? length A); [reflexivity|]. cbn [bind].
  rewrite <- mask_of_nil, (set_bits_panic _ A []); [reflexivity| |constructor]. rewrite app_nil_r.
  destruct (in_dec Bool.bool_dec false (map (fun k => k <? length data) A)) as [I|I].
  - right. apply in_map_iff in I as (k & E & I). apply Nat.ltb_ge in E. eauto.
  - left. intros N. apply H. split; [rewrite <- (rev_involutive A); now apply NoDup_rev|]. intros k IK. apply Nat.ltb_lt.
    destruct (k <? length data) eqn:E; [reflexivity|]. exfalso. apply I. apply in_map_iff. eauto.
Qed.

Lemma nested_cons n s sh st : nested_strides (n :: sh) (s :: st) -> nested_strides sh st.
Proof. intros H i L. apply (H (S i)). cbn [length]. lia. Qed.
Lemma nested_dot : forall sh st c, nested_strides sh st -> length st = length sh -> in_range c sh -> dot c st = rank c sh * last st 0.
Proof.
  induction sh as [|n sh IH]; intros [|s st] c N L R; try discriminate; [inversion R; subst; reflexivity|].
  destruct c as [|x c]; [inversion R|]. apply in_range_cons in R as [X R]. injection L as L. cbn [dot rank].
  rewrite (IH st c (nested_cons _ _ _ _ N) L R).
  assert (E : s = prod sh * last (s :: st) 0).
  { clear - N L. revert n s st N L. induction sh as [|m sh IH]; intros n s [|t st] N L; try discriminate; [cbn; lia|].
    injection L as L. change (last (s :: t :: st) 0) with (last (t :: st) 0). rewrite prod_cons, <- Nat.mul_assoc, <- (IH m t st (nested_cons _ _ _ _ N) L).
    specialize (N 0 ltac:(cbn; lia)). cbn [nth] in N. exact N. }
  destruct st as [|t st]; [destruct sh; [|discriminate]|].
  - inversion R; subst. cbn [rank last prod fold_right]. lia.
  - change (last (s :: t :: st) 0) with (last (t :: st) 0) in *. rewrite E at 1. lia.
Qed.

(** the carry loop counts in base n + 1 on every axis; with nested strides each step still
    moves the pointer by the innermost stride *)
Lemma carry_spec : forall sh st idx off, length st = length sh -> nested_strides sh st -> Forall (fun n => 0 < n) sh -> sh <> [] ->
  in_range idx (map S sh) -> dot idx st <= off ->
  (rank idx (map S sh) + 1 < prod (map S sh) -> exists idx', nditer_carry sh st idx off = Ok (idx', off + last st 0, true) /\
     in_range idx' (map S sh) /\ rank idx' (map S sh) = rank idx (map S sh) + 1 /\ dot idx' st <= off + last st 0) /\
  (rank idx (map S sh) + 1 = prod (map S sh) -> exists n s, hd_error sh = Some n /\ hd_error st = Some s /\ n * s <= off /\
     nditer_carry sh st idx off = Ok (repeat 0 (length sh), off + last st 0 - n * s, false)).
Proof.
  induction sh as [|n sh IH]; intros [|s st] idx off L N P NE R D; try discriminate; [contradiction|].
  destruct idx as [|i idx]; [inversion R|]. cbn [map] in R. apply in_range_cons in R as [I R]. injection L as L. inversion P as [|? ? Pn P']; subst.
  cbn [map rank]. rewrite !prod_cons. cbn [dot] in D. destruct sh as [|m sh].
  - destruct st as [|t st]; [|discriminate]. inversion R; subst. cbn [map rank prod fold_right last nditer_carry bind negb hd_error length repeat dot] in *. split; intros B.
    + rewrite (proj2 (Nat.eqb_neq i n)) by lia. exists [S i]. split; [reflexivity|]. split; [constructor; [lia|constructor]|]. cbn [rank prod fold_right dot]. lia.
    + rewrite (proj2 (Nat.eqb_eq i n)) by lia. exists n, s. split; [reflexivity|]. split; [reflexivity|]. replace i with n in * by lia. split; [lia|]. cbn [negb].
      unfold csub. rewrite (proj2 (Nat.ltb_ge _ _)) by lia. cbn [bind]. assert (s * (n - 1) + s = n * s) by (rewrite Nat.mul_sub_distr_l, Nat.mul_1_r, Nat.mul_comm; nia).
      rewrite (proj2 (Nat.ltb_ge _ _)) by lia. cbn [bind]. f_equal. f_equal. f_equal. lia.
  - destruct st as [|t st]; [discriminate|]. change (last (s :: t :: st) 0) with (last (t :: st) 0).
    pose proof (N 0 ltac:(cbn; lia)) as N0. cbn [nth] in N0.
    assert (D' : dot idx (t :: st) <= off) by lia.
    destruct (IH (t :: st) idx off L (nested_cons _ _ _ _ N) P' ltac:(discriminate) R D') as [H1 H2].
    pose proof (rank_lt _ _ R) as RL. set (W := prod (map S (m :: sh))) in *. set (q := rank idx (map S (m :: sh))) in *.
    remember (m :: sh) as sh1 eqn:ES. remember (t :: st) as st1 eqn:ET. cbn [nditer_carry].
    destruct (Nat.lt_ge_cases (q + 1) W) as [B|B].
    + destruct (H1 B) as (idx' & -> & R' & Q & D1). cbn [bind]. split; [intros _|].
      * exists (i :: idx'). split; [reflexivity|]. split; [now apply in_range_cons|]. cbn [rank]. rewrite Q. fold W. fold q. split; [lia|]. cbn [dot].
        assert (DR : dot idx' st1 <= off + last st1 0 - i * s); [|lia].
        destruct (IH st1 idx (off - i * s) L (nested_cons _ _ _ _ N) P' ltac:(subst; discriminate) R ltac:(lia)) as [H1' _].
        destruct (H1' B) as (idx2 & _ & R2 & Q2 & D2). assert (idx2 = idx') as -> by (eapply rank_inj; eauto; lia). lia.
      * intros C. exfalso. assert (i * W + q + 1 < S n * W) by (assert (i * W <= n * W) by (apply Nat.mul_le_mono_r; lia); cbn [Nat.mul]; lia). lia.
    + assert (QW : q + 1 = W) by lia. destruct (H2 QW) as (m' & t' & E1 & E2 & LE & ->). subst sh1 st1. cbn [hd_error] in E1, E2. injection E1 as <-. injection E2 as <-. cbn [bind].
      rewrite <- N0 in *.
      assert (LEs : i * s + s <= off).
      { destruct (IH (t :: st) idx (off - i * s) L (nested_cons _ _ _ _ N) P' ltac:(discriminate) R ltac:(lia)) as [_ H2'].
        destruct (H2' QW) as (m' & t' & E1 & E2 & LE' & _). cbn [hd_error] in E1, E2. injection E1 as <-. injection E2 as <-. rewrite <- N0 in LE'. 
        destruct s; lia. }
      split; intros C.
      * assert (NI : i <> n) by (intros ->; cbn [Nat.mul] in C; lia). rewrite (proj2 (Nat.eqb_neq _ _)) by exact NI. cbn [negb].
        eexists. split; [f_equal; f_equal; f_equal; lia|]. split; [apply in_range_cons; split; [lia|]|].
        { rewrite <- (map_length S (m :: sh)). apply in_range_zeros. clear. induction (m :: sh) as [|x l IHl]; [cbn; lia|]. cbn [map]. rewrite prod_cons. cbn [Nat.mul]. lia. }
        cbn [rank dot]. fold W. rewrite dot_zeros. rewrite <- (map_length S (m :: sh)), rank_zeros. cbn [Nat.mul]. lia.
      * assert (i = n). { destruct (Nat.eq_dec i n) as [E|E]; [exact E|]. exfalso. assert (S i * W <= n * W) by (apply Nat.mul_le_mono_r; lia). cbn [Nat.mul] in *. lia. }
        subst i. rewrite Nat.eqb_refl. cbn [negb]. unfold csub. rewrite (proj2 (Nat.ltb_ge n 1)) by lia. cbn [bind].
        assert (s * (n - 1) + s = n * s) by (rewrite Nat.mul_sub_distr_l, Nat.mul_1_r, Nat.mul_comm; nia).
        rewrite (proj2 (Nat.ltb_ge _ _)) by lia. cbn [bind]. exists n, s. split; [reflexivity|]. split; [reflexivity|]. split; [lia|].
        cbn [length repeat]. f_equal. f_equal. f_equal. lia.
Qed.

  Lemma prod_S l : l <> [] -> 0 < prod l -> prod l + 1 <= prod (map S l).
  Proof.
    induction l as [|n l IH]; intros N P; [contradiction|]. cbn [map]. rewrite prod_cons in P. rewrite !prod_cons.
    destruct l as [|m l]; [cbn [prod fold_right map] in *; lia|]. assert (P' : 0 < prod (m :: l)) by (destruct (prod (m :: l)); lia).
    specialize (IH ltac:(discriminate) P'). assert (n * (prod (m :: l) + 1) <= n * prod (map S (m :: l))) by now apply Nat.mul_le_mono_l. cbn [Nat.mul]. lia.
  Qed.

Section Many.
  Context {T : Type}.
  Variables (h : heap T) (a : arr) (mask : list bool).
  Hypothesis V : valid h a.
  Hypothesis LM : length mask = length (a_shape a).
  Let ish := drop mask (a_shape a).
  Let ist := drop mask (a_stride a).
  Let osh := keep mask (a_shape a).
  Let ost := keep mask (a_stride a).
  Hypothesis LI : length ist = length ish.
  Hypothesis LO : length ost = length osh.
  Hypothesis NE : nested_strides ish ist.
  Hypothesis NB : no_bcast osh ost.
  Hypothesis MD : length osh <= MAX_DIMS.

  Definition many_it (idx : list nat) (j : nat) : nditer :=
    mkIt (set_off (reshaped_view ByRef a osh ost) (a_off a + j * last ist 0)) ish ist idx j (prod ish).
  Definition counter (idx : list nat) (j : nat) : Prop :=
    ish = [] /\ idx = [] \/ in_range idx (map S ish) /\ rank idx (map S ish) = j /\ dot idx ist <= a_off a + j * last ist 0.

  Lemma many_next h' idx j : extends h h' -> j < prod ish -> counter idx j ->
    exists vs it', nditer_next h' (many_it idx j) = Ok (Some (h' ++ [Some vs], fresh_arr (length h') (prod osh) osh, it')) /\
      it_k it' = S j /\ it_size it' = prod ish /\ (S j < prod ish -> exists idx', counter idx' (S j) /\ it' = many_it idx' (S j)) /\
      length vs = prod osh /\
      forall i, in_range i (a_shape a) -> rank (drop mask i) ish = j -> exists v, get h a i = Ok v /\ nth_error vs (rank (keep mask i) osh) = Some v.
  Proof.
    intros X J CT. set (r := set_off (reshaped_view ByRef a osh ost) (a_off a + j * last ist 0)). destruct V as [W VG].
    assert (G : forall i, in_range i (a_shape a) -> rank (drop mask i) ish = j -> get h' r (keep mask i) = get h a i).
    { intros i R E. destruct (VG _ R) as (v & EG). pose proof (in_range_length _ _ R) as L.
      unfold get in *. cbn [r set_off reshaped_view a_blk a_off a_stride].
      assert (ED : dot i (a_stride a) = j * last ist 0 + dot (keep mask i) ost).
      { rewrite (dot_split mask) by lia. fold ist ost. rewrite (nested_dot ish ist) by (auto; now apply take_in_range). now rewrite E. }
      rewrite ED in *.
      replace (a_off a + j * last ist 0 + dot (keep mask i) ost) with (a_off a + (j * last ist 0 + dot (keep mask i) ost)) by lia. rewrite EG.
      destruct X as [_ X]. rewrite X; [exact EG|]. eapply load_lt; eauto. }
    assert (exists c, in_range c ish /\ rank c ish = j) as (c & C & CJ).
    { destruct (nth_error (indices ish) j) as [c|] eqn:EC; [|apply nth_error_None in EC; rewrite indices_length in EC; lia].
      destruct (nth_indices_inv _ _ _ EC). eauto. }
    destruct (nd_clone_ok h' r) as (vs & E & L & EC & _).
    - split; [exact LO|]. cbn [r set_off reshaped_view a_shape]. intros o O. destruct (merge_spec mask (a_shape a) c o LM C O) as (R & D & K).
      rewrite <- K, G; auto. now rewrite D.
    - unfold r, set_off, flags_ok. cbn [reshaped_view a_fl a_shape a_stride drop_own f_unif f_contig]. apply update_flags_ok.
    - intros _. reflexivity.
    - intros _. exact NB.
    - exact MD.
    - cbn [r set_off reshaped_view a_shape] in EC, L, E. fold r in EC.
      assert (V3 : forall i, in_range i (a_shape a) -> rank (drop mask i) ish = j -> exists v, get h a i = Ok v /\ nth_error vs (rank (keep mask i) osh) = Some v).
      { intros i R EJ. unfold elems in E. cbn [r set_off reshaped_view a_shape] in E. fold r in E.
        assert (RK : in_range (keep mask i) osh) by now apply keep_in_range.
        destruct (mapM_nth _ _ _ _ _ E (nth_indices_rank _ _ RK)) as (v & NV & EG). exists v. split; [|exact NV]. rewrite <- (G i R EJ). exact EG. }
      unfold nditer_next. cbn [many_it it_k it_size it_res it_shape it_stride it_idx]. rewrite (proj2 (Nat.eqb_neq _ _)) by lia. fold r. rewrite EC. cbn [bind].
      destruct CT as [[IE ->]|(R & RJ & D)].
      + assert (E0 : nditer_carry ish ist [] (a_off r) = Ok ([], a_off r, false)) by (destruct ish; [reflexivity|discriminate]). rewrite E0. cbn [bind fst snd].
        exists vs. eexists. split; [reflexivity|]. split; [reflexivity|]. split; [reflexivity|]. split; [|auto].
        intros B. exfalso. rewrite IE in B. cbn in B. lia.
      + destruct (list_eq_dec Nat.eq_dec ish []) as [IE|IE].
        { assert (E0 : nditer_carry ish ist idx (a_off r) = Ok ([], a_off r, false)) by (rewrite IE; reflexivity). rewrite E0. cbn [bind fst snd].
          exists vs. eexists. split; [reflexivity|]. split; [reflexivity|]. split; [reflexivity|]. split; [|auto].
          intros B. exfalso. rewrite IE in B. cbn in B. lia. }
        assert (PS : Forall (fun n => 0 < n) ish).
        { assert (P : 0 < prod ish) by lia. clear - P. induction ish as [|n l IH]; [constructor|]. rewrite prod_cons in P. constructor; [lia|]. apply IH. destruct (prod l); lia. }
        pose proof (prod_S ish IE ltac:(lia)) as PP.
        destruct (carry_spec ish ist idx (a_off r) LI NE PS IE R D) as [H _]. rewrite RJ in H. destruct (H ltac:(lia)) as (idx' & -> & R' & RJ' & D'). cbn [bind fst snd].
        exists vs. eexists. split; [reflexivity|]. split; [reflexivity|]. split; [reflexivity|]. split; [|auto]. intros _. exists idx'. 
        assert (EO : a_off r + last ist 0 = a_off a + S j * last ist 0) by (cbn [r set_off a_off]; lia). split.
        * right. split; [exact R'|]. split; [lia|]. now rewrite <- EO.
        * unfold many_it. rewrite EO. reflexivity.
  Qed.

  Lemma many_collect : forall m j h' idx, j + m = prod ish -> extends h h' -> (0 < m -> counter idx j) ->
    forall it, it_k it = j -> it_size it = prod ish -> (0 < m -> it = many_it idx j) ->
    exists vss, nditer_collect (S m) h' it = Ok (h' ++ map Some vss, map (fun i => fresh_arr (length h' + i) (prod osh) osh) (seq 0 m)) /\
      length vss = m /\ forall i, in_range i (a_shape a) -> j <= rank (drop mask i) ish -> exists vs v,
        nth_error vss (rank (drop mask i) ish - j) = Some vs /\ length vs = prod osh /\ get h a i = Ok v /\ nth_error vs (rank (keep mask i) osh) = Some v.
  Proof.
    induction m as [|m IH]; intros j h' idx J X CT it K Z EI.
    - exists []. cbn [nditer_collect]. unfold nditer_next. rewrite K, Z, (proj2 (Nat.eqb_eq _ _)) by lia.
      cbn [bind map seq]. rewrite app_nil_r. split; [reflexivity|]. split; [reflexivity|]. intros i R B. exfalso.
      pose proof (rank_lt _ _ (take_in_range mask _ _ LM R)) as RL. fold ish in RL. lia.
    - rewrite (EI ltac:(lia)). destruct (many_next h' idx j X ltac:(lia) (CT ltac:(lia))) as (vs & it' & E & K' & Z' & NX & L & EV).
      assert (exists idx', (0 < m -> counter idx' (S j)) /\ (0 < m -> it' = many_it idx' (S j))) as (idx' & CT' & EI').
      { destruct m; [exists []; split; lia|]. destruct (NX ltac:(lia)) as (idx' & ? & ?). eauto. }
      destruct (IH (S j) (h' ++ [Some vs]) idx' ltac:(lia)) with (it := it') as (vss & EC & LV & HV); auto.
      { destruct X as [X1 X2]. split; [rewrite app_length; lia|]. intros b o B. rewrite load_app_old by lia. now apply X2. }
      exists (vs :: vss). cbn [nditer_collect] in *. rewrite E. cbn [bind]. rewrite EC. cbn [bind fst snd map seq]. split; [|split; [cbn; lia|]].
      + f_equal. f_equal; [now rewrite <- app_assoc|]. f_equal; [now rewrite Nat.add_0_r|]. rewrite <- seq_shift, map_map. apply map_ext. intros i.
        rewrite app_length. cbn [length]. f_equal. lia.
      + intros i R B. destruct (Nat.eq_dec (rank (drop mask i) ish) j) as [EJ|NJ].
        * destruct (EV i R EJ) as (v & G & N). exists vs, v. rewrite EJ, Nat.sub_diag. auto.
        * destruct (HV i R ltac:(lia)) as (vs' & v & N & L' & G & NV). exists vs', v.
          replace (rank (drop mask i) ish - j) with (S (rank (drop mask i) ish - S j)) by lia. auto.
  Qed.
End Many.

(** *** C38, several axes.  Item number [rank (take_axes A idx)] holds, at the remaining
    coordinates, the element of the array at [idx]: every element is in the right item.  The
    iterated axes must be nested without gaps (a leading block of a row-major array is) — the
    carry test is off by one, and only then do the errors cancel.  No axes at all gives the
    whole array once. *)
Theorem C38_nditer_partial : forall T (h : heap T) a A, let sh := a_shape a in
  valid h a -> NoDup A -> (forall k, In k A -> k < length sh) ->
  nested_strides (take_axes A sh) (take_axes A (a_stride a)) ->
  no_bcast (drop_axes A sh) (drop_axes A (a_stride a)) -> length (drop_axes A sh) <= MAX_DIMS ->
  exists h' rs, nd_nditer h a A = Ok (h', rs) /\ extends h h' /\ length rs = prod (take_axes A sh) /\
    forall idx, in_range idx sh -> let j := rank (take_axes A idx) (take_axes A sh) in
      exists r, nth_error rs j = Some r /\ a_blk r = length h + j /\ a_shape r = drop_axes A sh /\ valid h' r /\
        get h' r (drop_axes A idx) = get h a idx.
Proof.
  intros T h a A sh V N B NE NB MD. pose proof V as [W VG]. fold sh in W. assert (LS : length (a_stride a) = length sh) by exact W.
  set (mask := mask_of (length sh) A). assert (LM : length mask = length sh) by apply mask_of_length.
  assert (Lm : forall m (l l' : list nat), length l = length l' -> length (drop m l) = length (drop m l') /\ length (keep m l) = length (keep m l')).
  { induction m as [|[|] m IHm]; intros [|x l] [|x' l'] L; try discriminate; auto; cbn [drop keep length]; destruct (IHm l l' ltac:(cbn in L; lia)); auto. }
  rewrite <- !take_mask, LS in NE. rewrite <- !keep_mask, LS in NB. rewrite <- keep_mask in MD. fold mask in NE, NB, MD.
  destruct (Lm mask _ _ LS) as [LI LO].
  unfold nd_nditer, nditer_from. fold sh. rewrite !split_ok by (auto; rewrite LS; auto). cbn [bind fst snd it_size]. rewrite LS. fold mask.
  set (it := mkIt _ _ _ _ _ _).
  assert (EA : length A = length (drop mask sh)).
  { unfold mask. rewrite take_mask. unfold take_axes. rewrite map_length. apply Nat.le_antisymm.
    - rewrite <- (map_length fst (filter _ _)). apply NoDup_incl_length; [exact N|]. intros k I. apply in_map_iff. exists (k, nth k sh 0). split; [reflexivity|].
      apply filter_In. split; [|now apply existsb_In]. specialize (B k I). clear - B.
      assert (H : forall s k, k < length sh -> In (s + k, nth k sh 0) (combine (seq s (length sh)) sh)); [|apply (H 0); exact B].
      clear. induction sh as [|n sh IH]; intros s k K; cbn [length] in K; [lia|]. cbn [length seq combine]. destruct k; [left; f_equal; lia|]. right.
      replace (s + S k) with (S s + k) by lia. apply IH. lia.
    - rewrite <- (map_length fst (filter _ _)). apply NoDup_incl_length.
      + clear. generalize 0. induction sh as [|n sh IH]; intros s; [constructor|]. cbn [length seq combine filter fst].
        destruct (existsb (Nat.eqb s) A); [|apply IH]. cbn [map fst]. constructor; [|apply IH]. intros I. apply in_map_iff in I as ((k & x) & E & I).
        apply filter_In in I as [I _]. apply in_combine_l, in_seq in I. cbn in E. lia.
      + intros k I. apply in_map_iff in I as ((k' & x) & E & I). cbn in E. subst. apply filter_In in I as [_ I]. now apply existsb_In in I. }
  destruct (many_collect h a mask V LM LI LO NE NB MD (prod (drop mask sh)) 0 h (repeat 0 (length A)) eq_refl) with (it := it) as (vss & E & L & H).
  - split; [lia|auto].
  - intros P. fold sh. destruct (list_eq_dec Nat.eq_dec (drop mask sh) []) as [IE|IE].
    + left. split; [exact IE|]. rewrite EA, IE. reflexivity.
    + right. rewrite EA, <- (map_length S). split; [|split; [apply rank_zeros|rewrite dot_zeros; lia]].
      apply in_range_zeros. pose proof (prod_S (drop mask (a_shape a)) IE P). lia.
  - reflexivity.
  - reflexivity.
  - intros _. unfold it, many_it. cbn [Nat.mul]. rewrite Nat.add_0_r. reflexivity.
  - change (@nditer_collect T) with (@nditer_collect T) in *. rewrite E. eexists _, _. split; [reflexivity|]. split; [apply extends_app|].
    rewrite map_length, seq_length. split; [unfold mask; now rewrite take_mask|].
    intros idx R. set (j := rank (take_axes A idx) (take_axes A sh)). destruct (H idx R (Nat.le_0_l _)) as (vs & v & NV & LV & G & NX). fold sh in NV, LV, NX. rewrite Nat.sub_0_r in NV.
    assert (EJ : rank (drop mask idx) (drop mask sh) = j).
    { unfold j, mask. pose proof (in_range_length _ _ R) as LR. rewrite take_mask. fold sh in LR. rewrite <- LR, take_mask. reflexivity. }
    rewrite EJ in NV. assert (EK : keep mask idx = drop_axes A idx).
    { unfold mask. pose proof (in_range_length _ _ R) as LR. fold sh in LR. rewrite <- LR. apply keep_mask. }
    rewrite <- keep_mask. fold mask. rewrite <- EK. exists (fresh_arr (length h + j) (prod (keep mask sh)) (keep mask sh)). split.
    { apply (map_nth_error (fun i => fresh_arr (length h + i) (prod (keep mask sh)) (keep mask sh))). rewrite nth_error_seq; [reflexivity|].
      rewrite <- L. apply nth_error_Some. congruence. }
    split; [reflexivity|]. split; [reflexivity|]. split.
    + split; [cbn; apply stride_from_shape_length|]. intros o O. destruct (get_block h vss j vs _ (prod (keep mask sh)) o NV LV O) as (v' & _ & G'). eauto.
    + assert (RK : in_range (keep mask idx) (keep mask sh)) by now apply keep_in_range.
      destruct (get_block h vss j vs _ (prod (keep mask sh)) _ NV LV RK) as (v' & NV' & G'). rewrite G', G. congruence.
Qed.
Print Assumptions C38_nditer_partial.

(** an axis out of range or repeated is rejected *)
Theorem C38_bad_axes_panic : forall T (h : heap T) a A,
  ~ (NoDup A /\ forall k, In k A -> k < length (a_shape a)) -> nd_nditer h a A = Panic.
Proof. intros T h a A H. unfold nd_nditer, nditer_from. rewrite split_panics by exact H. reflexivity. Qed.
Print Assumptions C38_bad_axes_panic.

(** *** C38 fails for axes with a gap: axes 0 and 2 of a 2 x 2 x 2 array.  The third item
    should hold the elements at (1, _, 0). *)
Definition ia : arr := fresh_arr 0 8 [2; 2; 2].
Definition ih : heap nat := [Some [0; 1; 2; 3; 4; 5; 6; 7]].
Theorem C38_two_axes_refuted : exists (h h' : heap nat) a rs r, valid h a /\ nd_nditer h a [0; 2] = Ok (h', rs) /\ length rs = 4 /\
  nth_error rs 2 = Some r /\ get h a [1; 0; 0] = Ok 4 /\ get h' r [0] = Ok 2.
Proof.
  exists ih. eexists _, ia, _, _. split; [exact (fresh_valid [] [2; 2; 2] (seq 0 8) 8 eq_refl)|].
  split; [vm_compute; reflexivity|]. repeat split.
Qed.
Print Assumptions C38_two_axes_refuted.

(** concrete cases *)
Example C38_one_axis_case : exists h' rs, nd_iter_along ih ia (-2) = Ok (h', rs) /\ mapM (elems h') rs = Ok [[0; 1; 4; 5]; [2; 3; 6; 7]].
Proof. eexists _, _. split; vm_compute; reflexivity. Qed.
Example C38_two_axes_case : nested_strides (take_axes [1; 0] (a_shape ia)) (take_axes [1; 0] (a_stride ia)) /\
  exists h' rs, nd_nditer ih ia [1; 0] = Ok (h', rs) /\ mapM (elems h') rs = Ok [[0; 1]; [2; 3]; [4; 5]; [6; 7]].
Proof. split; [intros [|[|i]] L; cbn in *; lia|]. eexists _, _. split; vm_compute; reflexivity. Qed.
Example C38_no_axes_case : exists h' rs, nd_nditer ih ia [] = Ok (h', rs) /\ mapM (elems h') rs = Ok [[0; 1; 2; 3; 4; 5; 6; 7]].
Proof. eexists _, _. split; vm_compute; reflexivity. Qed.
Example C38_repeated_axis_case : nd_nditer ih ia [1; 1] = Panic.
Proof. apply C38_bad_axes_panic. intros [N _]. inversion N; subst. cbn in *. tauto. Qed.

(** ** C58.  advance_by of the flat index generator: the position and the multi-index move, the
    flat index does not. *)
Lemma adv_go_spec sh : forall idx carry, in_range idx sh -> let r := fig_adv_go sh idx carry in
  in_range (fst r) sh /\ snd r * prod sh + rank (fst r) sh = rank idx sh + carry.
Proof.
  induction sh as [|n sh IH]; intros idx carry R; inversion R as [|i m rest sh0 I RR]; subst; cbn [fig_adv_go].
  - split; [constructor|]. cbn. lia.
  - destruct (IH rest carry RR) as [R1 E]. destruct (fig_adv_go sh rest carry) as [idx1 c]. cbn [fst snd] in *. unfold lt in I.
    split; [constructor; [apply Nat.mod_upper_bound; lia|exact R1]|]. cbn [rank]. rewrite prod_cons.
    pose proof (Nat.div_mod (i + c) n ltac:(lia)) as D. set (q := (i + c) / n) in *. set (m := (i + c) mod n) in *.
    assert (Q : (q * n + m) * prod sh = (i + c) * prod sh) by (f_equal; lia). nia.
Qed.

Theorem C58_position_partial : forall g n, in_range (g_idx g) (g_shape g) -> g_size g = prod (g_shape g) ->
  g_iter g = rank (g_idx g) (g_shape g) -> g_iter g + n < g_size g ->
  let g' := fig_advance_by g n in
  g_shape g' = g_shape g /\ g_stride g' = g_stride g /\ g_size g' = g_size g /\ g_iter g' = g_iter g + n /\
  in_range (g_idx g') (g_shape g) /\ rank (g_idx g') (g_shape g) = g_iter g' /\ g_flat g' = g_flat g.
Proof.
  intros g n R S I L. unfold fig_advance_by. rewrite Nat.min_l by lia. destruct (Nat.eqb_spec n 0) as [->|NZ].
  - cbn zeta. repeat split; auto; lia.
  - destruct (adv_go_spec (g_shape g) (g_idx g) n R) as [R1 E]. destruct (fig_adv_go (g_shape g) (g_idx g) n) as [idx c]. cbn zeta. cbn [g_shape g_stride g_size g_iter g_idx g_flat fst snd] in *.
    pose proof (rank_lt _ _ R1). assert (c = 0) by nia. subst c. repeat split; auto; lia.
Qed.
Print Assumptions C58_position_partial.

(** so after skipping elements of a new generator the next item is always 0 *)
Theorem C58_next_item_partial : forall sh st g n r, fig_from sh st = Ok g -> n < g_size g ->
  fig_next (fig_advance_by g n) = Ok r -> exists g', r = Some (0, g').
Proof.
  intros sh st g n r E L EN. unfold fig_from in E. destruct (collapse sh st) as [s t]. destruct (MAX_DIMS <? length s); [discriminate|].
  injection E as <-. cbn [g_size] in L.
  assert (R : in_range (repeat 0 (length s)) s).
  { assert (P : 0 < prod s) by lia. clear - P. induction s as [|d s IH]; [constructor|]. rewrite prod_cons in P. cbn [length repeat]. constructor; [nia|apply IH; nia]. }
  destruct (C58_position_partial (mkFig s t (prod s) 0 (repeat 0 (length s)) 0) n) as (_ & _ & ES & EI & _ & _ & EF); cbn [g_shape g_stride g_size g_iter g_idx g_flat] in *; auto.
  - now rewrite rank_zeros.
  - unfold fig_next in EN. rewrite ES, EI, EF in EN. destruct (Nat.eqb_spec (0 + n) (prod s)); [lia|].
    destruct (fig_carry _ _ _ _) as [[[i f] c]| |]; [|discriminate..]. cbn [bind] in EN. injection EN as <-. eauto.
Qed.
Print Assumptions C58_next_item_partial.

Theorem C58_skip_refuted : exists g g1 g2 g3 gs, fig_from [2; 3] [1; 2] = Ok g /\
  fig_next g = Ok (Some (0, g1)) /\ fig_next g1 = Ok (Some (2, g2)) /\ fig_next g2 = Ok (Some (4, g3)) /\
  fig_next (fig_advance_by g 2) = Panic /\ fig_next (fig_advance_by g 1) = Ok (Some (0, gs)).
Proof. do 5 eexists. repeat split; vm_compute; reflexivity. Qed.
Print Assumptions C58_skip_refuted.
