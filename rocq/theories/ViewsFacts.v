(** ViewsFacts.v: every view operation denotes the expected index map. *)
From Coq Require Import List Arith Lia Bool ZArith Permutation.
From Verif Require Import Base Spec Layout SpecFacts LayoutFacts Views.
Import ListNotations.
Open Scope res_scope.

Definition wf (a : arr) : Prop := length (a_stride a) = length (a_shape a).

(** flags agree with the layout; holds for everything the library builds *)
Definition flags_ok (a : arr) : Prop :=
  f_unif (a_fl a) = match has_uniform_stride (a_shape a) (a_stride a) with Some _ => true | None => false end /\
  f_contig (a_fl a) = match has_uniform_stride (a_shape a) (a_stride a) with Some s => s <=? 1 | None => false end.

Lemma update_flags_ok fl sh st :
  f_unif (update_flags fl sh st) = match has_uniform_stride sh st with Some _ => true | None => false end /\
  f_contig (update_flags fl sh st) = match has_uniform_stride sh st with Some s => s <=? 1 | None => false end.
Proof. unfold update_flags. destruct (has_uniform_stride sh st); auto. Qed.

Lemma reshaped_view_flags_ok m a sh st : flags_ok (reshaped_view m a sh st).
Proof. unfold flags_ok. destruct m; cbn; apply update_flags_ok. Qed.

Lemma views_get {T} (h : heap T) r a f idx :
  views r a f -> in_range idx (a_shape r) -> get h r idx = get h a (f idx).
Proof. intros (B & _ & H) R. unfold get. destruct (H idx R) as [_ E]. now rewrite B, E. Qed.

Lemma views_valid {T} (h : heap T) r a f : views r a f -> valid h a -> valid h r.
Proof.
  intros V [_ H]. split; [apply V|]. intros idx R.
  rewrite (views_get h _ _ _ _ V R). apply H. now apply V.
Qed.

Lemma views_refl a : wf a -> views a a (fun i => i).
Proof. intros W. split; [reflexivity|split; [exact W|auto]]. Qed.

Lemma views_trans r b a f g : views r b f -> views b a g -> views r a (fun i => g (f i)).
Proof.
  intros (B1 & L1 & H1) (B2 & L2 & H2). split; [congruence|split; [exact L1|]].
  intros idx R. destruct (H1 idx R) as [R1 E1]. destruct (H2 _ R1) as [R2 E2].
  split; [exact R2|congruence].
Qed.

(** ** dot and sums *)
Lemma dot_map {A} (f g : A -> nat) l : dot (map f l) (map g l) = list_sum (map (fun k => f k * g k) l).
Proof. induction l as [|x l IH]; [reflexivity|]. cbn [map dot]. rewrite IH. reflexivity. Qed.

Lemma list_sum_perm l1 l2 : Permutation l1 l2 -> list_sum l1 = list_sum l2.
Proof. induction 1; cbn [list_sum fold_right] in *; unfold list_sum in *; cbn [fold_right]; lia. Qed.

Lemma map_nth_seq {A} (l : list A) d : map (fun k => nth k l d) (seq 0 (length l)) = l.
Proof.
  induction l as [|x l IH]; [reflexivity|]. cbn [length seq map nth]. f_equal.
  rewrite <- seq_shift, map_map. exact IH.
Qed.

Lemma dot_nth idx st n : length idx = n -> length st = n ->
  dot idx st = list_sum (map (fun k => nth k idx 0 * nth k st 0) (seq 0 n)).
Proof.
  intros L1 L2. rewrite <- (map_nth_seq idx 0) at 1. rewrite <- (map_nth_seq st 0) at 1.
  rewrite L1, L2. apply dot_map.
Qed.

Lemma dot_app i1 i2 s1 s2 : length i1 = length s1 -> dot (i1 ++ i2) (s1 ++ s2) = dot i1 s1 + dot i2 s2.
Proof.
  revert s1; induction i1 as [|i i1 IH]; intros [|s s1] L; cbn [length] in L; try discriminate; [reflexivity|].
  cbn [app dot]. rewrite IH by lia. lia.
Qed.

(** ** as_absolute *)
Lemma as_absolute_ok axis nd : (- Z.of_nat nd <= axis < Z.of_nat nd)%Z ->
  as_absolute axis nd = Ok (Z.to_nat (axis mod Z.of_nat nd)).
Proof.
  intros H. unfold as_absolute.
  destruct (Z.ltb_spec axis (- Z.of_nat nd)); [lia|].
  rewrite Z.geb_leb. destruct (Z.leb_spec (Z.of_nat nd) axis); [lia|]. cbn [orb].
  do 2 f_equal. destruct (Z.ltb_spec axis 0).
  - rewrite <- (Z.mod_add axis 1 (Z.of_nat nd)) by lia. rewrite Z.mod_small; lia.
  - rewrite Z.mod_small; lia.
Qed.

Lemma as_absolute_panic axis nd : (axis < - Z.of_nat nd \/ Z.of_nat nd <= axis)%Z ->
  as_absolute axis nd = Panic.
Proof.
  intros H. unfold as_absolute. rewrite Z.geb_leb.
  destruct (Z.ltb_spec axis (- Z.of_nat nd)); [reflexivity|].
  destruct (Z.leb_spec (Z.of_nat nd) axis); [reflexivity|lia].
Qed.

Lemma as_absolute_inv axis nd k : as_absolute axis nd = Ok k -> k < nd /\ Z.of_nat k = (axis mod Z.of_nat nd)%Z
  /\ (- Z.of_nat nd <= axis < Z.of_nat nd)%Z.
Proof.
  intros E.
  assert (D : (- Z.of_nat nd <= axis < Z.of_nat nd)%Z \/ (axis < - Z.of_nat nd \/ Z.of_nat nd <= axis)%Z) by lia.
  destruct D as [D|D]; [|now rewrite (as_absolute_panic _ _ D) in E].
  rewrite (as_absolute_ok _ _ D) in E. injection E as <-.
  pose proof (Z.mod_pos_bound axis (Z.of_nat nd) ltac:(lia)). lia.
Qed.

Lemma as_absolute_nat k nd : k < nd -> as_absolute (Z.of_nat k) nd = Ok k.
Proof. intros H. rewrite as_absolute_ok by lia. f_equal. rewrite Z.mod_small; lia. Qed.

(** ** view *)
Lemma nd_view_views m a : wf a -> views (nd_view m a) a (fun i => i).
Proof. intros W. destruct m; (split; [reflexivity|split; [exact W|auto]]). Qed.

(** ** transpose *)
Lemma vget_nth {A} (l : list A) i d : i < length l -> vget l i = Ok (nth i l d).
Proof. intros H. unfold vget. now rewrite (nth_error_nth' l d H). Qed.

Lemma vget_panic {A} (l : list A) i : length l <= i -> vget l i = Panic.
Proof. intros H. unfold vget. apply nth_error_None in H. now rewrite H. Qed.

Lemma upd_length {A} (l l' : list A) i x : upd l i x = Some l' -> length l' = length l.
Proof.
  revert i l'; induction l as [|y l IH]; intros i l' H; [discriminate|].
  destruct i as [|i]; cbn in H; [injection H as <-; reflexivity|].
  destruct (upd l i x) as [r|] eqn:E; [|discriminate]. injection H as <-. cbn. f_equal. eauto.
Qed.

Lemma upd_nth_error {A} (l l' : list A) i x j : upd l i x = Some l' ->
  nth_error l' j = if j =? i then Some x else nth_error l j.
Proof.
  revert i j l'; induction l as [|y l IH]; intros i j l' H; [discriminate|].
  destruct i as [|i]; cbn in H.
  - injection H as <-. destruct j; reflexivity.
  - destruct (upd l i x) as [r|] eqn:E; [|discriminate]. injection H as <-.
    destruct j as [|j]; [reflexivity|]. cbn [nth_error Nat.eqb]. now apply IH.
Qed.

Lemma upd_some {A} (l : list A) i x : i < length l -> exists l', upd l i x = Some l'.
Proof.
  revert i; induction l as [|y l IH]; intros i H; cbn in H; [lia|].
  destruct i as [|i]; cbn; [eauto|]. destruct (IH i ltac:(lia)) as [r ->]. eauto.
Qed.

Lemma upd_none {A} (l : list A) i x : length l <= i -> upd l i x = None.
Proof.
  revert i; induction l as [|y l IH]; intros i H; [reflexivity|].
  destruct i as [|i]; cbn in *; [lia|]. rewrite IH; [reflexivity|lia].
Qed.

Lemma nth_nth_error {A} (l : list A) i d : nth i l d = match nth_error l i with Some x => x | None => d end.
Proof. revert i; induction l as [|x l IH]; intros [|i]; cbn; auto. Qed.

Lemma nth_error_ext_len {A} (l1 l2 : list A) :
  (forall k, nth_error l1 k = nth_error l2 k) -> l1 = l2.
Proof.
  revert l2; induction l1 as [|x l1 IH]; intros [|y l2] H; auto.
  - specialize (H 0); discriminate.
  - specialize (H 0); discriminate.
  - pose proof (H 0) as H0. cbn in H0. injection H0 as ->. f_equal. apply IH. intros k. apply (H (S k)).
Qed.

Lemma vswap_ok (l : list nat) i j : i < length l -> j < length l -> vswap l i j = Ok (swap_at i j l).
Proof.
  intros Hi Hj. unfold vswap. rewrite !(@vget_nth _ _ _ 0) by assumption. cbn [bind]. unfold vset.
  destruct (@upd_some _ l i (nth j l 0) Hi) as [l1 E1]. rewrite E1. cbn [bind].
  pose proof (upd_length _ _ _ _ E1) as L1.
  destruct (@upd_some _ l1 j (nth i l 0) ltac:(lia)) as [l2 E2]. rewrite E2. f_equal.
  pose proof (upd_length _ _ _ _ E2) as L2.
  apply nth_error_ext_len. intros k. rewrite (upd_nth_error _ _ _ _ k E2), (upd_nth_error _ _ _ _ k E1).
  unfold swap_at. destruct (Nat.ltb_spec k (length l)) as [K|K].
  - rewrite nth_error_map, nth_error_seq by exact K. cbn [option_map Nat.add].
    unfold swap_pos. 
    destruct (Nat.eqb_spec k j), (Nat.eqb_spec k i); subst; auto.
    now rewrite (nth_error_nth' l 0 K).
  - assert (nth_error l k = None) as -> by now apply nth_error_None.
    destruct (Nat.eqb_spec k j); [lia|]. destruct (Nat.eqb_spec k i); [lia|].
    symmetry. apply nth_error_None. rewrite map_length, seq_length. exact K.
Qed.

Lemma swap_at_length i j l : length (swap_at i j l) = length l.
Proof. unfold swap_at. now rewrite map_length, seq_length. Qed.

Lemma swap_pos_lt i j k n : i < n -> j < n -> k < n -> swap_pos i j k < n.
Proof. unfold swap_pos. intros. destruct (k =? i), (k =? j); auto. Qed.

Lemma swap_pos_invol i j k : swap_pos i j (swap_pos i j k) = k.
Proof.
  unfold swap_pos. destruct (Nat.eqb_spec k i); subst.
  - destruct (Nat.eqb_spec j i); subst; auto. now rewrite Nat.eqb_refl.
  - destruct (Nat.eqb_spec k j); subst.
    + now rewrite Nat.eqb_refl.
    + destruct (Nat.eqb_spec k i); [contradiction|]. destruct (Nat.eqb_spec k j); [contradiction|]. reflexivity.
Qed.

Lemma swap_at_nth i j l k : i < length l -> j < length l -> k < length l ->
  nth k (swap_at i j l) 0 = nth (swap_pos i j k) l 0.
Proof.
  intros Hi Hj Hk. unfold swap_at. rewrite nth_nth_error, nth_error_map, nth_error_seq by exact Hk. reflexivity.
Qed.

Lemma swap_at_invol i j l : i < length l -> j < length l -> swap_at i j (swap_at i j l) = l.
Proof.
  intros Hi Hj. unfold swap_at at 1. rewrite swap_at_length.
  transitivity (map (fun k => nth k l 0) (seq 0 (length l))); [|apply map_nth_seq]. apply map_ext_in. intros k Hk. apply in_seq in Hk.
  assert (swap_pos i j k < length l) by (apply swap_pos_lt; lia).
  rewrite swap_at_nth by (auto; lia). now rewrite swap_pos_invol.
Qed.

Lemma swap_seq_perm i j n : i < n -> j < n -> Permutation (map (swap_pos i j) (seq 0 n)) (seq 0 n).
Proof.
  intros Hi Hj. apply NoDup_Permutation.
  - apply FinFun.Injective_map_NoDup; [|apply seq_NoDup].
    intros a b E. apply (f_equal (swap_pos i j)) in E. now rewrite !swap_pos_invol in E.
  - apply seq_NoDup.
  - intros x. rewrite in_map_iff. split.
    + intros (y & <- & Hy). apply in_seq in Hy. apply in_seq.
      pose proof (@swap_pos_lt i j y n Hi Hj ltac:(lia)). lia.
    + intros Hx. exists (swap_pos i j x). split; [apply swap_pos_invol|].
      apply in_seq in Hx. apply in_seq. pose proof (@swap_pos_lt i j x n Hi Hj ltac:(lia)). lia.
Qed.

Lemma dot_swap i j idx st n : length idx = n -> length st = n -> i < n -> j < n ->
  dot (swap_at i j idx) (swap_at i j st) = dot idx st.
Proof.
  intros L1 L2 Hi Hj. unfold swap_at. rewrite L1, L2, dot_map.
  rewrite (dot_nth idx st n L1 L2).
  transitivity (list_sum (map (fun k => nth k idx 0 * nth k st 0) (map (swap_pos i j) (seq 0 n)))).
  - now rewrite map_map.
  - apply list_sum_perm. apply Permutation_map. now apply swap_seq_perm.
Qed.

Lemma in_range_nth idx sh : in_range idx sh <->
  length idx = length sh /\ forall k, k < length sh -> nth k idx 0 < nth k sh 0.
Proof.
  unfold in_range. split.
  - intros H; induction H as [|i n idx sh Hi H [IH1 IH2]]; [split; [reflexivity|cbn; lia]|].
    split; [cbn; lia|]. intros [|k] K; cbn in *; [exact Hi|apply IH2; lia].
  - revert sh; induction idx as [|i idx IH]; intros [|n sh] [L H]; cbn in L; try discriminate; [constructor|].
    constructor; [apply (H 0); cbn; lia|]. apply IH. split; [lia|]. intros k K. apply (H (S k)). cbn; lia.
Qed.

Lemma in_range_swap i j idx sh : i < length sh -> j < length sh -> 
  in_range idx (swap_at i j sh) -> in_range (swap_at i j idx) sh.
Proof.
  intros Hi Hj R. apply in_range_nth in R as [L R]. rewrite swap_at_length in *.
  apply in_range_nth. rewrite swap_at_length. split; [exact L|].
  intros k K. rewrite swap_at_nth by lia.
  assert (P : swap_pos i j k < length sh) by (apply swap_pos_lt; auto).
  specialize (R _ P). rewrite swap_at_nth in R by auto. now rewrite swap_pos_invol in R.
Qed.

Lemma nd_transpose_ok m a ax1 ax2 i j :
  wf a -> as_absolute ax1 (length (a_shape a)) = Ok i -> as_absolute ax2 (length (a_shape a)) = Ok j ->
  exists r, nd_transpose m a ax1 ax2 = Ok r /\ a_shape r = swap_at i j (a_shape a) /\
            views r a (swap_at i j) /\ flags_ok r /\ a_stride r = swap_at i j (a_stride a).
Proof.
  intros W E1 E2. unfold nd_transpose. rewrite E1, E2. cbn [bind].
  apply as_absolute_inv in E1 as [Hi _], E2 as [Hj _]. unfold wf in W.
  rewrite !vswap_ok by lia. cbn [bind]. eexists. split; [reflexivity|].
  split; [now destruct m|]. split; [|split; [apply reshaped_view_flags_ok|now destruct m]].
  split; [now destruct m|]. split; [destruct m; cbn; now rewrite !swap_at_length|].
  assert (G : forall idx, in_range idx (swap_at i j (a_shape a)) ->
     in_range (swap_at i j idx) (a_shape a) /\
     a_off a + dot idx (swap_at i j (a_stride a)) = a_off a + dot (swap_at i j idx) (a_stride a)).
  { intros idx R. pose proof (in_range_swap _ _ _ _ Hi Hj R) as R'. split; [exact R'|].
    f_equal. pose proof (in_range_length _ _ R) as L. rewrite swap_at_length in L.
    rewrite <- (swap_at_invol i j idx) at 1 by lia.
    apply dot_swap with (n := length (a_shape a)); rewrite ?swap_at_length; auto. }
  destruct m; exact G.
Qed.

(** ** squeeze *)
Lemma squeeze_spec sh : forall st idx, length st = length sh ->
  in_range idx (map fst (squeeze_axes sh st)) ->
  in_range (expand_unit sh idx) sh /\ dot idx (map snd (squeeze_axes sh st)) = dot (expand_unit sh idx) st.
Proof.
  induction sh as [|n sh IH]; intros [|s st] idx L R; cbn [length] in L; try discriminate.
  - cbn in R. inversion R. subst. split; [constructor|reflexivity].
  - unfold squeeze_axes in *. cbn [combine filter fst] in *. destruct (Nat.eqb_spec n 1) as [E|E]; cbn [negb] in *.
    + subst n. destruct (IH st idx ltac:(lia) R) as [R' D].
      cbn [expand_unit Nat.eqb]. split; [constructor; [lia|exact R']|]. cbn [dot]. lia.
    + cbn [map] in *. cbn [fst snd] in *. inversion R as [|i n' r sh' Hi Hr]; subst.
      destruct (IH st r ltac:(lia) Hr) as [R' D]. cbn [expand_unit].
      destruct (Nat.eqb_spec n 1); [contradiction|].
      split; [now constructor|]. cbn [dot]. lia.
Qed.

Lemma squeeze_shape_spec sh : forall st, length st = length sh ->
  map fst (squeeze_axes sh st) = filter (fun n => negb (n =? 1)) sh.
Proof.
  induction sh as [|n sh IH]; intros [|s st] L; cbn [length] in L; try discriminate; [reflexivity|].
  unfold squeeze_axes in *. cbn [combine filter fst]. destruct (negb (n =? 1)); cbn [map fst]; rewrite IH by lia; reflexivity.
Qed.

Lemma nd_squeeze_ok m a : wf a ->
  a_shape (nd_squeeze m a) = filter (fun n => negb (n =? 1)) (a_shape a) /\
  views (nd_squeeze m a) a (expand_unit (a_shape a)) /\ flags_ok (nd_squeeze m a).
Proof.
  intros W. split; [|split; [|apply reshaped_view_flags_ok]].
  - unfold nd_squeeze. rewrite <- (squeeze_shape_spec (a_shape a) (a_stride a) W). now destruct m.
  - split; [now destruct m|]. split; [destruct m; cbn; now rewrite !map_length|].
    assert (G : forall idx, in_range idx (map fst (squeeze_axes (a_shape a) (a_stride a))) ->
       in_range (expand_unit (a_shape a) idx) (a_shape a) /\
       a_off a + dot idx (map snd (squeeze_axes (a_shape a) (a_stride a))) =
       a_off a + dot (expand_unit (a_shape a) idx) (a_stride a)).
    { intros idx R. destruct (squeeze_spec _ _ _ W R) as [R' D]. auto. }
    destruct m; exact G.
Qed.

(** ** unsqueeze *)
Lemma vinsert_ok {A} (l : list A) k x : k <= length l -> vinsert l k x = Ok (firstn k l ++ x :: skipn k l).
Proof.
  revert k; induction l as [|y l IH]; intros [|k] H; cbn in H; try lia; try reflexivity.
  cbn [vinsert firstn skipn app]. rewrite IH by lia. reflexivity.
Qed.

Lemma insert_at_length k x l : k <= length l -> length (insert_at k x l) = S (length l).
Proof.
  intros H. unfold insert_at. rewrite app_length, firstn_length. cbn [length].
  rewrite skipn_length. lia.
Qed.

Lemma delete_insert k x l : k <= length l -> delete_at k (insert_at k x l) = l.
Proof.
  intros H. unfold delete_at, insert_at.
  rewrite firstn_app, firstn_firstn, Nat.min_id, firstn_length.
  replace (k - Nat.min k (length l)) with 0 by lia. cbn [firstn]. rewrite app_nil_r.
  rewrite skipn_app, firstn_length. replace (S k - Nat.min k (length l)) with 1 by lia.
  rewrite skipn_all2 by (rewrite firstn_length; lia). cbn [skipn app]. apply firstn_skipn.
Qed.

Lemma in_range_insert k idx sh : k <= length sh -> in_range idx (insert_at k 1 sh) ->
  in_range (delete_at k idx) sh /\ nth k idx 0 = 0 /\ length idx = S (length sh).
Proof.
  revert k idx; induction sh as [|n sh IH]; intros k idx H R; cbn [length] in H.
  - assert (k = 0) by lia. subst. inversion R as [|i n' r sh' Hi Hr]; subst. inversion Hr; subst.
    cbn. repeat split; [constructor|lia].
  - destruct k as [|k].
    + inversion R as [|i n' r sh' Hi Hr]; subst. unfold delete_at. cbn [firstn skipn app nth].
      repeat split; [exact Hr|lia|cbn; f_equal; now apply in_range_length in Hr].
    + inversion R as [|i n' r sh' Hi Hr]; subst.
      destruct (IH k r ltac:(lia) Hr) as (R' & Z & L). cbn [nth length].
      repeat split; [|exact Z|lia]. unfold delete_at in *. cbn [firstn skipn app]. now constructor.
Qed.

Lemma dot_insert k s idx st : k <= length st -> nth k idx 0 = 0 -> length idx = S (length st) ->
  dot idx (insert_at k s st) = dot (delete_at k idx) st.
Proof.
  revert k idx; induction st as [|s' st IH]; intros k idx H Z L; cbn [length] in *.
  - assert (k = 0) by lia. subst. destruct idx as [|i [|]]; try discriminate. cbn in *. subst; lia.
  - destruct idx as [|i idx]; [discriminate|]. cbn [length] in L. destruct k as [|k].
    + cbn [nth] in Z. subst. cbn [insert_at firstn skipn app dot delete_at]. unfold insert_at, delete_at.
      cbn [firstn skipn app dot]. lia.
    + cbn [nth] in Z. unfold insert_at, delete_at in *. cbn [firstn skipn app dot].
      rewrite IH by (auto; lia). reflexivity.
Qed.

Lemma vget_insert (l : list nat) k x (y : nat) : k < length l ->
  vget (insert_at k x l) (k + 1) = vget l k.
Proof.
  intros H. rewrite !(@vget_nth _ _ _ y) by (rewrite ?insert_at_length; lia).
  unfold insert_at. rewrite app_nth2; rewrite firstn_length; [|lia].
  replace (k + 1 - Nat.min k (length l)) with 1 by lia. cbn [nth].
  f_equal. revert k H; induction l as [|z l IH]; intros [|k] H; cbn in *; try lia. apply IH. lia.
Qed.

Lemma reshaped_view_shape m a sh st : a_shape (reshaped_view m a sh st) = sh.
Proof. now destruct m. Qed.
Lemma reshaped_view_stride m a sh st : a_stride (reshaped_view m a sh st) = st.
Proof. now destruct m. Qed.
Lemma reshaped_view_off m a sh st : a_off (reshaped_view m a sh st) = a_off a.
Proof. now destruct m. Qed.
Lemma reshaped_view_blk m a sh st : a_blk (reshaped_view m a sh st) = a_blk a.
Proof. now destruct m. Qed.

Lemma reshaped_view_views m a sh st f :
  length st = length sh ->
  (forall idx, in_range idx sh -> in_range (f idx) (a_shape a) /\ dot idx st = dot (f idx) (a_stride a)) ->
  views (reshaped_view m a sh st) a f.
Proof.
  intros L H. unfold views.
  rewrite reshaped_view_shape, reshaped_view_stride, reshaped_view_off, reshaped_view_blk.
  split; [reflexivity|split; [exact L|]]. intros idx R. destruct (H idx R) as [R' E]. split; [exact R'|]. now rewrite E.
Qed.

Lemma nd_unsqueeze_ok m a axis k :
  wf a -> as_absolute axis (length (a_shape a) + 1) = Ok k ->
  exists r, nd_unsqueeze m a axis = Ok r /\ a_shape r = insert_at k 1 (a_shape a) /\
            views r a (delete_at k) /\ flags_ok r.
Proof.
  intros W E. unfold nd_unsqueeze. rewrite E. cbn [bind]. apply as_absolute_inv in E as [Hk _].
  unfold wf in W.
  destruct (Nat.eqb_spec k (length (a_shape a))) as [K|K].
  - eexists. split; [reflexivity|]. rewrite reshaped_view_shape.
    assert (E1 : a_shape a ++ [1] = insert_at k 1 (a_shape a)).
    { unfold insert_at. subst k. now rewrite firstn_all, skipn_all. }
    assert (E2 : a_stride a ++ [1] = insert_at k 1 (a_stride a)).
    { unfold insert_at. rewrite K, <- W. now rewrite firstn_all, skipn_all. }
    split; [exact E1|]. split; [|apply reshaped_view_flags_ok].
    rewrite E1, E2. apply reshaped_view_views; [rewrite !insert_at_length; lia|].
    intros idx R. destruct (in_range_insert k idx (a_shape a) ltac:(lia) R) as (R' & Z & L).
    split; [exact R'|]. apply dot_insert; auto; lia.
  - rewrite (vinsert_ok (a_shape a)) by lia. cbn [bind].
    rewrite (@vget_nth _ (a_stride a) k 0) by lia. cbn [bind].
    change (firstn k (a_shape a) ++ 1 :: skipn k (a_shape a)) with (insert_at k 1 (a_shape a)).
    rewrite (vget_insert (a_shape a) k 1 0) by lia. rewrite (@vget_nth _ (a_shape a) k 0) by lia. cbn [bind].
    rewrite vinsert_ok by lia. cbn [bind].
    eexists. split; [reflexivity|]. rewrite reshaped_view_shape. split; [reflexivity|].
    split; [|apply reshaped_view_flags_ok].
    change (firstn k (a_stride a) ++ ?x :: skipn k (a_stride a)) with (insert_at k x (a_stride a)).
    apply reshaped_view_views; [rewrite !insert_at_length; lia|].
    intros idx R. destruct (in_range_insert k idx (a_shape a) ltac:(lia) R) as (R' & Z & L).
    split; [exact R'|]. apply dot_insert; auto; lia.
Qed.
