(** ViewsFacts2.v: reshape, slicing, broadcasting, diagonals. *)
From Coq Require Import List Arith Lia Bool ZArith Permutation.
From Verif Require Import Base Spec Layout SpecFacts LayoutFacts Views ViewsFacts.
Import ListNotations.
Open Scope res_scope.

(** ** reshape *)
Lemma reshape_strides_spec acc sh :
  reshape_strides acc sh = (map (Nat.mul acc) (rm_stride sh), acc * prod sh).
Proof.
  induction sh as [|n sh IH]; cbn [reshape_strides rm_stride map]; [f_equal; cbn; lia|].
  rewrite IH, prod_cons. f_equal. lia.
Qed.

Lemma has_uniform_go_last sh : forall s st u, length sh = length st ->
  has_uniform_go s sh st = Some u -> nth (length st) (s :: st) 0 = u.
Proof.
  induction sh as [|n sh IH]; intros s [|s' st] u L E; cbn [length] in L; try discriminate.
  - cbn in *. congruence.
  - cbn [has_uniform_go] in E. destruct (_ && _); [discriminate|]. apply IH in E; [|lia]. exact E.
Qed.

Lemma list_eqb_spec l1 l2 : list_eqb l1 l2 = true <-> l1 = l2.
Proof. unfold list_eqb. destruct (list_eq_dec Nat.eq_dec l1 l2); split; congruence. Qed.

Lemma unrank_rank idx sh : in_range idx sh -> unrank (rank idx sh) sh = idx.
Proof. intros R. unfold unrank. apply nth_indices_rank in R. now rewrite nth_nth_error, R. Qed.

Lemma unrank_in_range k sh : k < prod sh -> in_range (unrank k sh) sh /\ rank (unrank k sh) sh = k.
Proof.
  intros H. unfold unrank. apply nth_indices_inv. apply nth_error_nth'. now rewrite indices_length.
Qed.

Lemma nd_reshape_ok m a sh' :
  wf a -> flags_ok a -> no_bcast (a_shape a) (a_stride a) ->
  f_unif (a_fl a) = true -> prod (a_shape a) = prod sh' ->
  a_shape a <> [] \/ sh' = [] ->
  exists r, nd_reshape m a sh' = Ok r /\ a_shape r = sh' /\
    views r a (fun idx => unrank (rank idx sh') (a_shape a)) /\ flags_ok r.
Proof.
  intros W [FU FC] NB U P NE. unfold nd_reshape.
  destruct (list_eqb sh' (a_shape a)) eqn:E.
  - apply list_eqb_spec in E. subst sh'. eexists. split; [reflexivity|].
    unfold nd_view. rewrite reshaped_view_shape. split; [reflexivity|].
    split; [|apply reshaped_view_flags_ok].
    apply reshaped_view_views; [exact W|]. intros idx R. now rewrite unrank_rank.
  - assert (NE' : a_shape a <> []).
    { destruct NE as [NE|NE]; [exact NE|]. intros Z. rewrite Z, NE in E. discriminate. }
    rewrite U. cbn [guard bind]. rewrite P, Nat.eqb_refl. cbn [guard bind].
    destruct (has_uniform_stride (a_shape a) (a_stride a)) as [u|] eqn:HU; [|congruence].
    unfold wf in W. destruct (a_shape a) as [|n sh] eqn:SH; [congruence|].
    destruct (a_stride a) as [|s st] eqn:ST; [discriminate|].
    cbn [length] in *. unfold csub. destruct (Nat.ltb_spec (S (length sh)) 1); [lia|]. cbn [bind].
    replace (S (length sh) - 1) with (length st) by lia.
    assert (LAST : nth (length st) (s :: st) 0 = u) by (apply has_uniform_go_last with (sh := sh); [lia|exact HU]).
    rewrite (@vget_nth _ (s :: st) (length st) 0) by (cbn [length]; lia). rewrite LAST. cbn [bind].
    eexists. split; [reflexivity|]. rewrite reshaped_view_shape. split; [reflexivity|].
    split; [|apply reshaped_view_flags_ok].
    rewrite reshape_strides_spec. cbn [fst].
    apply reshaped_view_views; [now rewrite map_length, rm_stride_length|].
    intros idx R. rewrite SH, ST.
    pose proof (rank_lt _ _ R) as RL. rewrite <- P in RL.
    destruct (unrank_in_range _ _ RL) as [R' K]. split; [exact R'|].
    rewrite dot_scale, <- rank_dot.
    rewrite (uniform_dot (n :: sh) (s :: st) u) by (cbn [length]; auto; lia). rewrite K. lia.
Qed.

Lemma nd_reshape_size_panic m a sh' :
  prod (a_shape a) <> prod sh' -> nd_reshape m a sh' = Panic.
Proof.
  intros H. unfold nd_reshape.
  destruct (list_eqb sh' (a_shape a)) eqn:E; [apply list_eqb_spec in E; subst; congruence|].
  destruct (f_unif (a_fl a)); cbn [guard bind]; [|reflexivity].
  destruct (Nat.eqb_spec (prod (a_shape a)) (prod sh')); [contradiction|reflexivity].
Qed.

(** whatever the layout, success means the requested shape *)
Lemma nd_reshape_shape m a sh' r : nd_reshape m a sh' = Ok r -> a_shape r = sh' /\ prod (a_shape a) = prod sh'.
Proof.
  unfold nd_reshape. destruct (list_eqb sh' (a_shape a)) eqn:E.
  - apply list_eqb_spec in E. intros H; injection H as <-. subst. split; [|reflexivity].
    unfold nd_view; now rewrite reshaped_view_shape.
  - destruct (f_unif (a_fl a)); cbn [guard bind]; [|discriminate].
    destruct (Nat.eqb_spec (prod (a_shape a)) (prod sh')) as [P|P]; cbn [guard bind]; [|discriminate].
    destruct (csub _ _); cbn [bind]; [|discriminate|discriminate].
    destruct (vget _ _); cbn [bind]; [|discriminate|discriminate].
    intros H; injection H as <-. now rewrite reshaped_view_shape.
Qed.

(** ** slicing *)
Definition region (ix : indexer) (n : nat) : pick :=
  match ix with
  | IUsize i => PickOne i
  | IRange s e => PickInt s e
  | IFrom s => PickInt s n
  | IFull => PickInt 0 n
  | IIncl s e => PickInt s (e + 1)
  | ITo e => PickInt 0 e
  | IToIncl e => PickInt 0 (e + 1)
  end.

Fixpoint regions (ixs : list indexer) (sh : list nat) : list pick :=
  match ixs, sh with
  | ix :: ixs', n :: sh' => region ix n :: regions ixs' sh'
  | _, _ => []
  end.

Definition slice_ok (ixs : list indexer) (sh : list nat) : Prop :=
  length ixs <= length sh /\
  Forall2 pick_ok (regions ixs sh) (firstn (length ixs) sh).

Lemma slice_ok_cons ix ixs n sh : slice_ok (ix :: ixs) (n :: sh) <-> pick_ok (region ix n) n /\ slice_ok ixs sh.
Proof.
  unfold slice_ok. cbn [length regions firstn]. split.
  - intros [L F]; inversion F; subst. repeat split; auto; lia.
  - intros (P & L & F). split; [lia|]. now constructor.
Qed.

Lemma indexed_length_ok ix n : pick_ok (region ix n) n ->
  exists l, indexed_length ix n = Ok l /\
    match region ix n with
    | PickOne i => index_collapses ix = true /\ index_first ix = i
    | PickInt lo hi => index_collapses ix = false /\ index_first ix = lo /\ l = hi - lo
    end.
Proof.
  destruct ix; cbn [region pick_ok indexed_length index_collapses index_first]; intros H; unfold csub.
  - eexists; split; [reflexivity|auto].
  - destruct (Nat.ltb_spec e s); [lia|]. eexists; split; [reflexivity|repeat split; lia].
  - destruct (Nat.ltb_spec n s); [lia|]. eexists; split; [reflexivity|repeat split; lia].
  - eexists; split; [reflexivity|repeat split; lia].
  - destruct (Nat.ltb_spec e s); [lia|]. eexists; split; [reflexivity|repeat split; lia].
  - eexists; split; [reflexivity|repeat split; lia].
  - eexists; split; [reflexivity|repeat split; lia].
Qed.

Lemma slice_go_ok ixs : forall sh st, length st = length sh -> slice_ok ixs sh ->
  exists o st', slice_go ixs sh st = Ok (o, pick_shape (regions ixs sh) sh, st') /\
    length st' = length (pick_shape (regions ixs sh) sh) /\
    forall idx, in_range idx (pick_shape (regions ixs sh) sh) ->
      in_range (pick_index (regions ixs sh) idx) sh /\
      o + dot idx st' = dot (pick_index (regions ixs sh) idx) st.
Proof.
  induction ixs as [|ix ixs IH]; intros sh st L OK.
  - exists 0, st. assert (E : regions [] sh = []) by now destruct sh.
    rewrite E. cbn [slice_go pick_shape pick_index]. split; [reflexivity|]. split; [exact L|]. auto.
  - destruct sh as [|n sh], st as [|s st]; cbn [length] in L; try discriminate.
    + destruct OK as [OK _]. cbn in OK. lia.
    + apply slice_ok_cons in OK as [P OK].
      destruct (indexed_length_ok _ _ P) as (l & EL & K).
      destruct (IH sh st ltac:(lia) OK) as (o & st' & E & L' & H).
      cbn [slice_go]. rewrite EL. cbn [bind]. rewrite E. cbn [bind].
      cbn [regions pick_shape pick_index].
      destruct (region ix n) as [i|lo hi].
      * destruct K as [-> ->]. do 2 eexists. split; [reflexivity|]. split; [exact L'|].
        intros idx R. destruct (H idx R) as [R' D]. split; [now constructor|].
        cbn [dot]. lia.
      * destruct K as (-> & -> & ->). do 2 eexists. split; [reflexivity|].
        split; [cbn [length]; lia|].
        intros idx R. inversion R as [|i n' r sh' Hi Hr]; subst.
        destruct (H r Hr) as [R' D]. cbn [pick_ok] in P.
        split; [constructor; [lia|exact R']|]. cbn [dot]. lia.
Qed.

Lemma strided_len_ok sh : forall st, length st = length sh -> (forall n, In n sh -> 0 < n) ->
  exists l, strided_len sh st = Ok l /\ (forall idx, in_range idx sh -> dot idx st < l).
Proof.
  intros st L Pos.
  assert (G : exists l, strided_len_sum sh st = Ok l /\ (forall idx, in_range idx sh -> dot idx st <= l)).
  { revert st L; induction sh as [|n sh IH]; intros [|s st] L; cbn [length] in L; try discriminate.
    - exists 0. split; [reflexivity|]. intros idx R; inversion R; cbn; lia.
    - destruct (IH ltac:(intros; apply Pos; cbn; auto) st ltac:(lia)) as (l & E & H).
      assert (0 < n) by (apply Pos; cbn; auto).
      cbn [strided_len_sum]. unfold csub. destruct (Nat.ltb_spec n 1); [lia|]. cbn [bind]. rewrite E. cbn [bind].
      eexists. split; [reflexivity|]. intros idx R; inversion R as [|i n' r sh' Hi Hr]; subst.
      specialize (H r Hr). cbn [dot]. nia. }
  destruct G as (l & E & H). unfold strided_len. rewrite E. cbn [bind].
  eexists. split; [reflexivity|]. intros idx R. specialize (H idx R). lia.
Qed.

Lemma pick_shape_pos ixs : forall sh, slice_ok ixs sh -> (forall n, In n sh -> 0 < n) ->
  forall n, In n (pick_shape (regions ixs sh) sh) -> 0 < n.
Proof.
  induction ixs as [|ix ixs IH]; intros sh OK Pos n H.
  - apply Pos. now destruct sh.
  - destruct sh as [|m sh]; [exact (Pos n H)|].
    apply slice_ok_cons in OK as [P OK]. cbn [regions pick_shape] in H.
    assert (Pos' : forall k, In k sh -> 0 < k) by (intros; apply Pos; cbn; auto).
    destruct (region ix m) as [i|lo hi]; cbn [pick_ok] in P.
    + eapply IH; eauto.
    + destruct H as [<-|H]; [lia|eapply IH; eauto].
Qed.

Lemma nd_slice_ok a ixs :
  wf a -> slice_ok ixs (a_shape a) -> (forall n, In n (a_shape a) -> 0 < n) ->
  exists r, nd_slice a ixs = Ok r /\ a_shape r = pick_shape (regions ixs (a_shape a)) (a_shape a) /\
    views r a (pick_index (regions ixs (a_shape a))) /\ flags_ok r /\
    (forall idx, in_range idx (a_shape r) -> dot idx (a_stride r) < a_len r).
Proof.
  intros W OK Pos. unfold nd_slice.
  destruct (slice_go_ok _ _ _ W OK) as (o & st' & E & L & H). rewrite E. cbn [bind].
  destruct (strided_len_ok _ _ L (pick_shape_pos _ _ OK Pos)) as (l & EL & HL). rewrite EL. cbn [bind].
  eexists. split; [reflexivity|]. cbn [a_shape a_stride a_len]. split; [reflexivity|]. split; [|split].
  - split; [reflexivity|]. cbn [a_shape a_stride a_off]. split; [exact L|].
    intros idx R. destruct (H idx R) as [R' D]. split; [exact R'|]. lia.
  - unfold flags_ok. cbn. apply update_flags_ok.
  - exact HL.
Qed.

Lemma nd_slice_too_many a ixs : wf a -> length (a_shape a) < length ixs -> nd_slice a ixs = Panic.
Proof.
  intros W H. unfold nd_slice.
  assert (E : slice_go ixs (a_shape a) (a_stride a) = Panic).
  { revert H W. unfold wf. generalize (a_shape a) (a_stride a). clear.
    induction ixs as [|ix ixs IH]; intros sh st H W; cbn [length] in H; [lia|].
    destruct sh as [|n sh], st as [|s st]; cbn [length] in *; try discriminate; [reflexivity|].
    cbn [slice_go]. destruct (indexed_length ix n) eqn:El; cbn [bind]; [|reflexivity|].
    - rewrite IH by lia. reflexivity.
    - exfalso. destruct ix; cbn in El; unfold csub in El; try discriminate;
        repeat match type of El with context [if ?b then _ else _] => destruct b end; discriminate. }
  now rewrite E.
Qed.

(** ** slice_along *)
Lemma vremove_ok {A} (l : list A) k : k < length l -> vremove l k = Ok (firstn k l ++ skipn (S k) l).
Proof.
  revert k; induction l as [|y l IH]; intros [|k] H; cbn in H; try lia; try reflexivity.
  cbn [vremove firstn skipn app]. rewrite IH by lia. reflexivity.
Qed.

Lemma upd_split {A} (l : list A) k x : k < length l -> upd l k x = Some (firstn k l ++ x :: skipn (S k) l).
Proof.
  revert k; induction l as [|y l IH]; intros [|k] H; cbn in H; try lia; try reflexivity.
  cbn [upd firstn skipn app]. rewrite IH by lia. reflexivity.
Qed.

Definition set_at (k x : nat) (l : list nat) : list nat := firstn k l ++ x :: skipn (S k) l.

Lemma split_nth (l : list nat) k : k < length l -> l = firstn k l ++ nth k l 0 :: skipn (S k) l.
Proof.
  revert k; induction l as [|y l IH]; intros [|k] H; cbn in H; try lia; [reflexivity|].
  cbn [firstn nth skipn app]. f_equal. apply IH. lia.
Qed.

Definition along_shape (k : nat) (p : pick) (sh : list nat) : list nat :=
  match p with
  | PickOne _ => delete_at k sh
  | PickInt lo hi => set_at k (hi - lo) sh
  end.

Definition along_index (k : nat) (p : pick) (idx : list nat) : list nat :=
  match p with
  | PickOne i => insert_at k i idx
  | PickInt lo hi => set_at k (lo + nth k idx 0) idx
  end.

Lemma nd_slice_along_ok a axis ix k :
  wf a -> as_absolute axis (length (a_shape a)) = Ok k ->
  pick_ok (region ix (nth k (a_shape a) 0)) (nth k (a_shape a) 0) ->
  (forall n, In n (a_shape a) -> 0 < n) ->
  let p := region ix (nth k (a_shape a) 0) in
  exists r, nd_slice_along a axis ix = Ok r /\ a_shape r = along_shape k p (a_shape a) /\
    views r a (along_index k p) /\ flags_ok r /\
    (forall idx, in_range idx (a_shape r) -> dot idx (a_stride r) < a_len r).
Proof.
  intros W E P Pos. unfold wf in W. unfold nd_slice_along. rewrite E. cbn [bind].
  apply as_absolute_inv in E as [K _].
  rewrite (@vget_nth _ (a_shape a) k 0), (@vget_nth _ (a_stride a) k 0) by lia. cbn [bind].
  destruct (indexed_length_ok _ _ P) as (l & EL & HI).
  set (n := nth k (a_shape a) 0) in *. set (s := nth k (a_stride a) 0).
  assert (SH : a_shape a = firstn k (a_shape a) ++ n :: skipn (S k) (a_shape a)) by now apply split_nth.
  assert (ST : a_stride a = firstn k (a_stride a) ++ s :: skipn (S k) (a_stride a)) by (apply split_nth; lia).
  assert (LF : length (firstn k (a_stride a)) = length (firstn k (a_shape a))) by (rewrite !firstn_length; lia).
  assert (LF' : length (firstn k (a_shape a)) = k) by (rewrite firstn_length; lia).
  destruct (region ix n) as [i|lo hi] eqn:RG; cbn [pick_ok] in P.
  - destruct HI as [-> ->]. rewrite !vremove_ok by lia. cbn [bind].
    change (firstn k (a_shape a) ++ skipn (S k) (a_shape a)) with (delete_at k (a_shape a)).
    change (firstn k (a_stride a) ++ skipn (S k) (a_stride a)) with (delete_at k (a_stride a)).
    destruct (strided_len_ok (delete_at k (a_shape a)) (delete_at k (a_stride a))) as (l' & EL' & HL').
    { unfold delete_at. rewrite !app_length, !firstn_length, !skipn_length. lia. }
    { intros m Hm. apply Pos. unfold delete_at in Hm. rewrite SH. apply in_app_iff in Hm. apply in_app_iff.
      destruct Hm; [left|right; right]; auto. }
    rewrite EL'. cbn [bind]. eexists. split; [reflexivity|]. cbn [a_shape a_stride a_len along_shape along_index].
    split; [reflexivity|]. split; [|split].
    + split; [reflexivity|]. cbn [a_shape a_stride a_off].
      split; [unfold delete_at; rewrite !app_length, !firstn_length, !skipn_length; lia|].
      intros idx R.
      assert (LI : length idx = length (delete_at k (a_shape a))) by now apply in_range_length.
      assert (LD : length (delete_at k (a_shape a)) = length (a_shape a) - 1).
      { unfold delete_at. rewrite app_length, firstn_length, skipn_length. lia. }
      rewrite <- (firstn_skipn k idx) in R. unfold delete_at in R.
      apply in_range_app in R as [R1 R2]; [|rewrite firstn_length; lia].
      split.
      * rewrite SH. unfold insert_at. apply in_range_app; [rewrite firstn_length; lia|].
        split; [exact R1|]. constructor; auto.
      * transitivity (a_off a + dot (insert_at k i idx) (firstn k (a_stride a) ++ s :: skipn (S k) (a_stride a)));
          [|now rewrite <- ST]. unfold insert_at, delete_at.
        rewrite <- (firstn_skipn k idx) at 1.
        rewrite !dot_app by (rewrite ?firstn_length; lia).
        cbn [dot]. lia.
    + unfold flags_ok; cbn; apply update_flags_ok.
    + exact HL'.
  - destruct HI as (-> & -> & ->). rewrite EL. cbn [bind]. unfold vset. rewrite upd_split by lia. cbn [bind].
    change (firstn k (a_shape a) ++ (hi - lo) :: skipn (S k) (a_shape a)) with (set_at k (hi - lo) (a_shape a)).
    destruct (strided_len_ok (set_at k (hi - lo) (a_shape a)) (a_stride a)) as (l' & EL' & HL').
    { unfold set_at. rewrite app_length, firstn_length. cbn [length]. rewrite skipn_length. lia. }
    { intros m Hm. unfold set_at in Hm. apply in_app_iff in Hm. 
      destruct Hm as [Hm|[<-|Hm]]; [|lia|]; apply Pos; rewrite SH; apply in_app_iff; [left|right; right]; auto. }
    rewrite EL'. cbn [bind]. eexists. split; [reflexivity|]. cbn [a_shape a_stride a_len along_shape along_index].
    split; [reflexivity|]. split; [|split].
    + split; [reflexivity|]. cbn [a_shape a_stride a_off].
      split; [unfold set_at; rewrite app_length, firstn_length; cbn [length]; rewrite skipn_length; lia|].
      intros idx R.
      assert (LI : length idx = length (set_at k (hi - lo) (a_shape a))) by now apply in_range_length.
      assert (LD : length (set_at k (hi - lo) (a_shape a)) = length (a_shape a)).
      { unfold set_at. rewrite app_length, firstn_length. cbn [length]. rewrite skipn_length. lia. }
      assert (IS : idx = firstn k idx ++ nth k idx 0 :: skipn (S k) idx) by (apply split_nth; lia).
      rewrite IS in R. unfold set_at in R.
      apply in_range_app in R as [R1 R2]; [|rewrite firstn_length; lia].
      inversion R2 as [|i n' r sh' Hi Hr]; subst i n' r sh'.
      split.
      * rewrite SH. unfold set_at. apply in_range_app; [rewrite firstn_length; lia|].
        split; [exact R1|]. constructor; [lia|exact Hr].
      * transitivity (a_off a + s * lo + dot (firstn k idx ++ nth k idx 0 :: skipn (S k) idx)
                        (firstn k (a_stride a) ++ s :: skipn (S k) (a_stride a))); [now rewrite <- ST, <- IS|].
        transitivity (a_off a + dot (set_at k (lo + nth k idx 0) idx)
                        (firstn k (a_stride a) ++ s :: skipn (S k) (a_stride a))); [|now rewrite <- ST].
        unfold set_at.
        rewrite !dot_app by (rewrite ?firstn_length; lia). cbn [dot]. lia.
    + unfold flags_ok; cbn; apply update_flags_ok.
    + exact HL'.
Qed.
