(** PropsRequests.v: C72, what slice, slice_along and reshape do with arbitrary requests. *)
From Coq Require Import List Arith Lia Bool ZArith.
From Verif Require Import Base Spec Layout SpecFacts LayoutFacts Views ViewsFacts ViewsFacts2 ViewsFacts3
  Kernels HeapFacts KernelFacts Chain ChainFacts ViewsFacts4 PropsViews PropsBcast.
Import ListNotations.

(** ** Specification *)
(** r denotes, at every index of its own box, the cell the address formula of a gives for
    the index [f idx], whether or not that lies within a *)
Definition addresses (r a : arr) (f : list nat -> list nat) : Prop :=
  a_blk r = a_blk a /\ length (a_stride r) = length (a_shape r) /\
  forall idx, in_range idx (a_shape r) -> a_off r + dot idx (a_stride r) = a_off a + dot (f idx) (a_stride a).

(** the last index of a box *)
Definition top (sh : list nat) : list nat := map pred sh.

(** ** slice *)
Lemma indexed_length_any ix n : 
  match region ix n with
  | PickOne i => index_collapses ix = true /\ index_first ix = i /\ indexed_length ix n = Ok 1
  | PickInt lo hi => index_collapses ix = false /\ index_first ix = lo /\
      (indexed_length ix n = Ok (hi - lo) \/ indexed_length ix n = Panic /\ hi - lo = 0)
  end.
Proof.
  destruct ix; cbn [region indexed_length index_collapses index_first]; unfold csub; repeat split; auto.
  - destruct (Nat.ltb_spec e s); [right; split; [reflexivity|lia]|now left].
  - destruct (Nat.ltb_spec n s); [right; split; [reflexivity|lia]|now left].
  - left. f_equal. lia.
  - destruct (Nat.ltb_spec e s); cbn [bind]; [right; split; [reflexivity|lia]|left; f_equal; lia].
  - left. f_equal. lia.
  - left. f_equal. lia.
Qed.

Lemma slice_go_any ixs : forall sh st, length st = length sh -> length ixs <= length sh ->
  (slice_go ixs sh st = Panic /\ In 0 (pick_shape (regions ixs sh) sh)) \/
  exists o st', slice_go ixs sh st = Ok (o, pick_shape (regions ixs sh) sh, st') /\
    length st' = length (pick_shape (regions ixs sh) sh) /\
    forall idx, in_range idx (pick_shape (regions ixs sh) sh) -> o + dot idx st' = dot (pick_index (regions ixs sh) idx) st.
Proof.
  induction ixs as [|ix ixs IH]; intros sh st L LI.
  - right. exists 0, st. assert (E : regions [] sh = []) by now destruct sh.
    rewrite E. cbn [slice_go pick_shape pick_index]. split; [reflexivity|]. split; [exact L|]. auto.
  - destruct sh as [|n sh], st as [|s st]; cbn [length] in L, LI; try discriminate; [lia|].
    pose proof (indexed_length_any ix n) as K. cbn [slice_go regions pick_shape pick_index].
    destruct (IH sh st ltac:(lia) ltac:(lia)) as [[E I]|(o & st' & E & L' & H)].
    + left. rewrite E. destruct (region ix n) as [i|lo hi].
      * destruct K as (_ & _ & ->). split; [reflexivity|exact I].
      * destruct K as (_ & _ & [-> | [-> _]]); (split; [reflexivity|right; exact I]).
    + rewrite E. destruct (region ix n) as [i|lo hi].
      * right. destruct K as (-> & -> & ->). cbn [bind]. do 2 eexists. split; [reflexivity|]. split; [exact L'|].
        intros idx R. cbn [dot]. rewrite <- (H idx R). lia.
      * destruct K as (-> & -> & [-> | [-> Z]]).
        -- right. cbn [bind]. do 2 eexists. split; [reflexivity|]. split; [cbn [length]; lia|].
           intros idx R. inversion R as [|i n' r sh' Hi Hr]; subst. cbn [dot]. rewrite <- (H r Hr). nia.
        -- left. split; [reflexivity|]. left. exact Z.
Qed.

Lemma strided_len_zero sh : forall st, length st = length sh -> In 0 sh -> strided_len sh st = Panic.
Proof.
  intros st L H. unfold strided_len. enough (E : strided_len_sum sh st = Panic) by now rewrite E.
  revert st L. induction sh as [|n sh IH]; intros [|s st] L; cbn [length] in L; try discriminate; [destruct H|].
  cbn [strided_len_sum]. unfold csub. destruct (Nat.ltb_spec n 1) as [N|N]; [reflexivity|]. cbn [bind].
  destruct H as [H|H]; [lia|]. rewrite IH by (auto; lia). reflexivity.
Qed.

Lemma prod_zero_in sh : prod sh = 0 <-> In 0 sh.
Proof.
  induction sh as [|n sh IH]; [cbn; split; [lia|tauto]|]. rewrite prod_cons, Nat.eq_mul_0, IH. cbn [In]. tauto.
Qed.
Lemma prod_pos_in sh : 0 < prod sh -> forall n, In n sh -> 0 < n.
Proof. intros P n H. destruct n; [|lia]. apply prod_zero_in in H. lia. Qed.

Theorem C72_slice : forall b n bc a ixs, chain b n bc a ->
  let box := pick_shape (regions ixs (a_shape a)) (a_shape a) in
  (length ixs <= length (a_shape a) -> 0 < prod box ->
     exists r, nd_slice a ixs = Ok r /\ a_shape r = box /\ addresses r a (pick_index (regions ixs (a_shape a)))) /\
  (length (a_shape a) < length ixs \/ prod box = 0 -> nd_slice a ixs = Panic).
Proof.
  intros b n bc a ixs C box. pose proof (i_wf _ _ _ _ (chain_inv _ _ _ _ C)) as W. split.
  - intros LI P. unfold nd_slice. destruct (slice_go_any ixs _ _ W LI) as [[_ I]|(o & st' & E & L & H)].
    { fold box in I. apply prod_zero_in in I. lia. }
    rewrite E. cbn [bind]. destruct (strided_len_ok _ _ L (prod_pos_in _ P)) as (l & EL & _). rewrite EL. cbn [bind].
    eexists. split; [reflexivity|]. cbn [a_shape a_stride a_off a_blk]. split; [reflexivity|].
    split; [reflexivity|]. cbn [a_shape a_stride a_off]. split; [exact L|]. intros idx R. rewrite <- (H idx R). lia.
  - intros Z. destruct (Nat.lt_ge_cases (length (a_shape a)) (length ixs)) as [LI|LI]; [now apply nd_slice_too_many|].
    destruct Z as [Z|Z]; [lia|]. unfold nd_slice. destruct (slice_go_any ixs _ _ W LI) as [[E _]|(o & st' & E & L & _)]; rewrite E; [reflexivity|].
    cbn [bind]. rewrite strided_len_zero; [reflexivity|exact L|]. now apply prod_zero_in.
Qed.
Print Assumptions C72_slice.

(** ** slice_along *)
Theorem C72_slice_along : forall b n bc a axis ix, chain b n bc a ->
  let nd := length (a_shape a) in
  let k := Z.to_nat (axis mod Z.of_nat nd) in
  let p := region ix (nth k (a_shape a) 0) in
  ((- Z.of_nat nd <= axis < Z.of_nat nd)%Z -> 0 < prod (along_shape k p (a_shape a)) ->
     exists r, nd_slice_along a axis ix = Ok r /\ a_shape r = along_shape k p (a_shape a) /\ addresses r a (along_index k p)) /\
  (~ (- Z.of_nat nd <= axis < Z.of_nat nd)%Z \/ prod (along_shape k p (a_shape a)) = 0 -> nd_slice_along a axis ix = Panic).
Proof.
  intros b n bc a axis ix C nd k p. pose proof (i_wf _ _ _ _ (chain_inv _ _ _ _ C)) as W. unfold wf in W.
  assert (IN : (- Z.of_nat nd <= axis < Z.of_nat nd)%Z ->
    (nd_slice_along a axis ix = Panic /\ prod (along_shape k p (a_shape a)) = 0) \/
    (0 < prod (along_shape k p (a_shape a)) /\
     exists r, nd_slice_along a axis ix = Ok r /\ a_shape r = along_shape k p (a_shape a) /\ addresses r a (along_index k p))).
  { intros H. pose proof (as_absolute_ok _ _ H) as E. fold nd k in E. unfold nd_slice_along. fold nd. rewrite E. cbn [bind].
    apply as_absolute_inv in E as [K _]. fold nd in W.
    rewrite (@vget_nth _ (a_shape a) k 0), (@vget_nth _ (a_stride a) k 0) by (unfold nd in *; lia). cbn [bind].
    pose proof (indexed_length_any ix (nth k (a_shape a) 0)) as HI. fold p in HI.
    set (m := nth k (a_shape a) 0) in *. set (s := nth k (a_stride a) 0).
    assert (SH : a_shape a = firstn k (a_shape a) ++ m :: skipn (S k) (a_shape a)) by now apply split_nth.
    assert (ST : a_stride a = firstn k (a_stride a) ++ s :: skipn (S k) (a_stride a)) by (apply split_nth; unfold nd in *; lia).
    unfold nd in *. destruct p as [i|lo hi]; cbn [along_shape along_index].
    - destruct HI as (-> & -> & _). rewrite !vremove_ok by lia. cbn [bind].
      change (firstn k (a_shape a) ++ skipn (S k) (a_shape a)) with (delete_at k (a_shape a)).
      change (firstn k (a_stride a) ++ skipn (S k) (a_stride a)) with (delete_at k (a_stride a)).
      assert (LD : length (delete_at k (a_stride a)) = length (delete_at k (a_shape a))).
      { unfold delete_at. rewrite !app_length, !firstn_length, !skipn_length. lia. }
      destruct (Nat.eq_dec (prod (delete_at k (a_shape a))) 0) as [Z|Z].
      + left. rewrite strided_len_zero; [auto|exact LD|now apply prod_zero_in].
      + right. split; [lia|]. assert (PP : 0 < prod (delete_at k (a_shape a))) by lia. destruct (strided_len_ok _ _ LD (prod_pos_in _ PP)) as (l' & EL' & _). rewrite EL'. cbn [bind].
        eexists. split; [reflexivity|]. cbn [a_shape]. split; [reflexivity|]. split; [reflexivity|]. cbn [a_shape a_stride a_off]. split; [exact LD|].
        intros idx R. assert (LI : length idx = length (delete_at k (a_shape a))) by now apply in_range_length.
        assert (LS : length (delete_at k (a_shape a)) = length (a_shape a) - 1).
        { unfold delete_at. rewrite app_length, firstn_length, skipn_length. lia. }
        transitivity (a_off a + dot (insert_at k i idx) (firstn k (a_stride a) ++ s :: skipn (S k) (a_stride a))); [|now rewrite <- ST].
        unfold insert_at, delete_at. rewrite <- (firstn_skipn k idx) at 1.
        rewrite !dot_app by (rewrite ?firstn_length; lia). cbn [dot]. lia.
    - destruct HI as (-> & -> & [EL | [EL Z]]); rewrite EL; cbn [bind].
      2: { left. split; [reflexivity|]. apply prod_zero_in. unfold set_at. apply in_app_iff. right. left. exact Z. }
      unfold vset. rewrite upd_split by lia. cbn [bind].
      change (firstn k (a_shape a) ++ (hi - lo) :: skipn (S k) (a_shape a)) with (set_at k (hi - lo) (a_shape a)).
      assert (LD : length (set_at k (hi - lo) (a_shape a)) = length (a_shape a)).
      { unfold set_at. rewrite app_length, firstn_length. cbn [length]. rewrite skipn_length. lia. }
      destruct (Nat.eq_dec (prod (set_at k (hi - lo) (a_shape a))) 0) as [Z|Z].
      + left. rewrite strided_len_zero; [auto|lia|now apply prod_zero_in].
      + right. split; [lia|]. assert (PP : 0 < prod (set_at k (hi - lo) (a_shape a))) by lia.
        destruct (strided_len_ok (set_at k (hi - lo) (a_shape a)) (a_stride a) ltac:(lia) (prod_pos_in _ PP)) as (l' & EL' & _).
        rewrite EL'. cbn [bind]. eexists. split; [reflexivity|]. cbn [a_shape]. split; [reflexivity|]. split; [reflexivity|].
        cbn [a_shape a_stride a_off]. split; [lia|].
        intros idx R. assert (LI : length idx = length (set_at k (hi - lo) (a_shape a))) by now apply in_range_length.
        assert (IS : idx = firstn k idx ++ nth k idx 0 :: skipn (S k) idx) by (apply split_nth; lia).
        transitivity (a_off a + s * lo + dot (firstn k idx ++ nth k idx 0 :: skipn (S k) idx)
                        (firstn k (a_stride a) ++ s :: skipn (S k) (a_stride a))); [now rewrite <- ST, <- IS|].
        transitivity (a_off a + dot (set_at k (lo + nth k idx 0) idx)
                        (firstn k (a_stride a) ++ s :: skipn (S k) (a_stride a))); [|now rewrite <- ST].
        unfold set_at. rewrite !dot_app by (rewrite ?firstn_length; lia). cbn [dot]. nia. }
  split.
  - intros H P. destruct (IN H) as [[_ Z]|[_ X]]; [lia|exact X].
  - intros [H|Z].
    + unfold nd_slice_along. fold nd. rewrite as_absolute_panic; [reflexivity|lia].
    + destruct (Z_le_dec (- Z.of_nat nd) axis) as [A|A]; [destruct (Z_lt_dec axis (Z.of_nat nd)) as [B|B]|].
      * destruct (IN (conj A B)) as [[E _]|[P _]]; [exact E|lia].
      * unfold nd_slice_along. fold nd. rewrite as_absolute_panic; [reflexivity|lia].
      * unfold nd_slice_along. fold nd. rewrite as_absolute_panic; [reflexivity|lia].
Qed.
Print Assumptions C72_slice_along.

(** ** Memory *)
Lemma top_in_range sh : 0 < prod sh -> in_range (top sh) sh.
Proof.
  intros P. apply pos_prod in P. induction P as [|n sh Hn P IH]; cbn [top map]; constructor; [lia|exact IH].
Qed.
Lemma top_largest sh : forall idx st, in_range idx sh -> length st = length sh -> dot idx st <= dot (top sh) st.
Proof.
  induction sh as [|n sh IH]; intros idx st R L; inversion R as [|i n' r sh' Hi Hr]; subst; [apply le_n|].
  destruct st as [|s st]; [discriminate|]. cbn [top map dot]. specialize (IH r st Hr ltac:(cbn [length] in L; lia)).
  apply Nat.add_le_mono; [|exact IH]. apply Nat.mul_le_mono; lia.
Qed.

(** whether the elements of the result lie in the allocation is decided by its last index *)
Theorem C72_memory : forall T (h : heap T) b n bc a r f, live h b n -> chain b n bc a ->
  addresses r a f -> 0 < prod (a_shape r) ->
  let last_cell := a_off a + dot (f (top (a_shape r))) (a_stride a) in
  (valid h r <-> last_cell < n) /\ (n <= last_cell -> get h r (top (a_shape r)) = Oob).
Proof.
  intros T h b n bc a r f L C (B & LS & A) P lc. pose proof (top_in_range _ P) as TR.
  pose proof (A _ TR) as AT. pose proof (i_blk _ _ _ _ (chain_inv _ _ _ _ C)) as EB.
  assert (G : n <= lc -> get h r (top (a_shape r)) = Oob).
  { intros H. unfold get. rewrite B, EB, AT. now apply (live_load h b n). }
  split; [|exact G]. split.
  - intros [_ V]. destruct (Nat.lt_ge_cases lc n) as [H|H]; [exact H|]. destruct (V _ TR) as (v & E). rewrite (G H) in E. discriminate.
  - intros H. split; [exact LS|]. intros idx R. unfold get. rewrite B, EB.
    apply (live_load h b n); [exact L|]. pose proof (top_largest _ _ _ R LS). unfold lc in H. lia.
Qed.
Print Assumptions C72_memory.

(** 0..4 on an axis of length 3 reads into the next row; 0..7 leaves the allocation *)
Example C72_ex : chain 0 6 false ex23 /\ live exh 0 6 /\
  (exists r, nd_slice ex23 [IUsize 0; ITo 4] = Ok r /\ elems exh r = Ok [10; 11; 12; 13]) /\
  (exists r, nd_slice ex23 [IUsize 0; ITo 7] = Ok r /\ elems exh r = Oob) /\
  nd_slice ex23 [IRange 1 1] = Panic.
Proof.
  split; [apply ex23_chain|]. split; [apply exh_live|]. split; [eexists; split; reflexivity|]. split; [eexists; split; reflexivity|reflexivity].
Qed.

(** ** reshape *)
Theorem C72_reshape : forall b n bc m a sh, chain b n bc a ->
  let s := last (a_stride a) 0 in
  (sh = a_shape a -> exists r, nd_reshape m a sh = Ok r /\ a_shape r = sh /\ views r a (fun idx => idx)) /\
  (sh <> a_shape a -> evenly (a_shape a) (a_stride a) -> prod (a_shape a) = prod sh -> a_shape a <> [] ->
     exists r, nd_reshape m a sh = Ok r /\ a_shape r = sh /\ a_blk r = a_blk a /\ length (a_stride r) = length sh /\
       forall idx, in_range idx sh -> a_off r + dot idx (a_stride r) = a_off a + rank idx sh * s) /\
  (sh <> a_shape a -> ~ (evenly (a_shape a) (a_stride a) /\ prod (a_shape a) = prod sh /\ a_shape a <> []) -> nd_reshape m a sh = Panic).
Proof.
  intros b n bc m a sh C s. pose proof (chain_inv _ _ _ _ C) as I. pose proof (i_wf _ _ _ _ I) as W.
  assert (EQ : list_eqb sh (a_shape a) = true <-> sh = a_shape a) by apply list_eqb_spec.
  assert (FU : f_unif (a_fl a) = true <-> evenly (a_shape a) (a_stride a)).
  { destruct (i_fl _ _ _ _ I) as [F _]. destruct (uniform_dec _ _ W) as [[E U]|[E U]]; rewrite F, U; split; try tauto; try congruence. }
  split; [|split].
  - intros E. unfold nd_reshape. rewrite (proj2 EQ E). eexists. split; [reflexivity|]. unfold nd_view. rewrite reshaped_view_shape.
    split; [now symmetry|]. apply reshaped_view_views; [exact W|]. auto.
  - intros NE EV P NN. unfold nd_reshape. destruct (list_eqb sh (a_shape a)) eqn:Q; [now apply list_eqb_spec in Q|].
    rewrite (proj2 FU EV). cbn [guard bind]. rewrite P, Nat.eqb_refl. cbn [guard bind].
    unfold csub. destruct (a_shape a) as [|d0 sh0] eqn:SH; [congruence|]. cbn [length]. destruct (Nat.ltb_spec (S (length sh0)) 1); [lia|].
    cbn [bind]. assert (LS : length (a_stride a) = S (length sh0)) by (unfold wf in W; rewrite W, SH; reflexivity).
    replace (S (length sh0) - 1) with (length (a_stride a) - 1) by lia.
    assert (VG : vget (a_stride a) (length (a_stride a) - 1) = Ok s).
    { rewrite (@vget_nth _ (a_stride a) _ 0) by lia. unfold s. f_equal. destruct (a_stride a) as [|x l] using rev_ind; [cbn in LS; lia|].
      rewrite app_length. cbn [length]. rewrite last_last, app_nth2 by lia. replace (length l + 1 - 1 - length l) with 0 by lia. reflexivity. }
    rewrite VG. cbn [bind]. eexists. split; [reflexivity|]. rewrite reshaped_view_shape. split; [reflexivity|].
    rewrite reshape_strides_spec. cbn [fst]. destruct m; cbn [reshaped_view a_blk a_stride a_off];
      (split; [reflexivity|]; split; [now rewrite map_length, rm_stride_length|]; intros idx R; rewrite dot_scale, <- rank_dot; lia).
  - intros NE H. unfold nd_reshape. destruct (list_eqb sh (a_shape a)) eqn:Q; [now apply list_eqb_spec in Q|].
    destruct (f_unif (a_fl a)) eqn:FF; [|reflexivity]. cbn [guard bind].
    destruct (Nat.eqb_spec (prod (a_shape a)) (prod sh)) as [P|P]; [|reflexivity]. cbn [guard bind].
    destruct (a_shape a) as [|d0 sh0] eqn:SH; [reflexivity|]. exfalso. apply H. split; [|split; [auto|discriminate]]. now apply FU.
Qed.
Print Assumptions C72_reshape.

Lemma rank_indices sh : map (fun idx => rank idx sh) (indices sh) = seq 0 (prod sh).
Proof.
  rewrite <- offsets_rm. unfold offsets. apply map_ext_in. intros idx H. apply in_indices in H. now apply rank_dot.
Qed.

(** the elements keep their row-major order exactly on views that are not stretched, or
    stretched from a single element *)
Theorem C72_reshape_right : forall b n bc m a sh r, chain b n bc a -> 0 < prod (a_shape a) -> sh <> a_shape a ->
  nd_reshape m a sh = Ok r ->
  (forall T (h : heap T), live h b n -> elems h r = elems h a) <->
  Forall (fun s => s = 0) (a_stride a) \/ no_bcast (a_shape a) (a_stride a).
Proof.
  intros b n bc m a sh r C P NE E. destruct (C72_reshape b n bc m a sh C) as (_ & R1 & R2).
  assert (D : evenly (a_shape a) (a_stride a) /\ prod (a_shape a) = prod sh /\ a_shape a <> []).
  { destruct (uniform_dec _ _ (i_wf _ _ _ _ (chain_inv _ _ _ _ C))) as [[EV _]|[EV _]].
    2: { rewrite R2 in E; [discriminate|exact NE|tauto]. }
    destruct (Nat.eq_dec (prod (a_shape a)) (prod sh)) as [Q|Q]; [|rewrite R2 in E; [discriminate|exact NE|tauto]].
    destruct (a_shape a) as [|x l] eqn:SH; [rewrite R2 in E; [discriminate|exact NE|tauto]|]. split; [exact EV|]. split; [exact Q|discriminate]. }
  destruct D as (EV & PE & NN). destruct (R1 NE EV PE NN) as (r' & E' & SH & B & LS & A).
  assert (r' = r) by congruence. subst r'. rewrite <- (C65_reduce_right b n bc a C P EV).
  assert (X : forall T (h : heap T), elems h r = at_steps h a (run (prod (a_shape a)) (last (a_stride a) 0))).
  { intros T h. unfold elems, at_steps. rewrite PE, SH. unfold run. rewrite <- (rank_indices sh), map_map, mapM_map.
    apply mapM_ext. intros idx Hi. apply in_indices in Hi. unfold get. now rewrite B, (A idx Hi). }
  split; intros H T h L; specialize (H T h L); rewrite X in *; exact H.
Qed.
Print Assumptions C72_reshape_right.

(** a row of three stretched to two rows and reshaped to six elements runs past its buffer *)
Example C72_reshape_ex : exists a r, nd_broadcast_to (fresh_arr 0 3 [3]) [2; 3] = Ok a /\ chain 0 3 true a /\
  nd_reshape ByRef a [6] = Ok r /\ elems [Some [7; 8; 9]] a = Ok [7; 8; 9; 7; 8; 9] /\ elems [Some [7; 8; 9]] r = Oob.
Proof.
  eexists _, _. split; [vm_compute; reflexivity|]. split.
  - eapply (Ch_broadcast 0 3 false (fresh_arr 0 3 [3]) [2; 3]); [apply (Ch_new 0 3 [3]); [reflexivity|lia]|reflexivity].
  - split; [vm_compute; reflexivity|]. split; reflexivity.
Qed.
