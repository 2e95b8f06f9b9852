(** ChainFacts.v: invariant of view chains. *)
From Coq Require Import List Arith Lia Bool ZArith.
From Verif Require Import Base Spec Layout SpecFacts LayoutFacts Views ViewsFacts ViewsFacts2 ViewsFacts3
  Kernels Access HeapFacts KernelFacts OpFacts AccessFacts Chain.
Import ListNotations.
Open Scope res_scope.

Definition pos (sh : list nat) : Prop := Forall (fun n => 0 < n) sh.
Definition nz (st : list nat) : Prop := Forall (fun s => s <> 0) st.
Definition inj_on (sh : list nat) (f : list nat -> list nat) : Prop :=
  forall i j, in_range i sh -> in_range j sh -> f i = f j -> i = j.

(** the length field is the element count or one more than the largest offset *)
Definition len_ok (a : arr) : Prop :=
  a_len a = prod (a_shape a) \/
  (covers a /\ exists idx, in_range idx (a_shape a) /\ S (dot idx (a_stride a)) = a_len a).

Record inv (b n : nat) (bc : bool) (a : arr) : Prop := {
  i_wf : wf a;
  i_fl : flags_ok a;
  i_blk : a_blk a = b;
  i_in : forall idx, in_range idx (a_shape a) -> a_off a + dot idx (a_stride a) < n;
  i_wr : f_write (a_fl a) = negb bc;
  i_nb : bc = false -> pos (a_shape a) /\ nz (a_stride a) /\ distinct a /\ len_ok a }.

Lemma pos_prod sh : pos sh <-> 0 < prod sh.
Proof.
  induction sh as [|n sh IH]; [cbn; split; [lia|constructor]|]. rewrite prod_cons. split.
  - intros P; inversion P; subst. apply IH in H2. nia.
  - intros P. constructor; [nia|]. apply IH. nia.
Qed.

(** ** injective index maps *)
Lemma views_distinct r a f : views r a f -> inj_on (a_shape r) f -> distinct a -> distinct r.
Proof.
  intros (_ & _ & V) I D i j Ri Rj E. apply I; auto. destruct (V i Ri), (V j Rj). apply D; auto. lia.
Qed.

Lemma views_onto r a f idx : views r a f -> inj_on (a_shape r) f -> prod (a_shape r) = prod (a_shape a) ->
  in_range idx (a_shape a) -> exists idx', in_range idx' (a_shape r) /\ f idx' = idx.
Proof.
  intros (_ & _ & V) I P R.
  assert (INC : incl (indices (a_shape a)) (map f (indices (a_shape r)))).
  { apply NoDup_length_incl.
    - assert (G : forall l, (forall x, In x l -> in_range x (a_shape r)) -> NoDup l -> NoDup (map f l)).
      { induction l as [|x l IH]; intros HI ND; [constructor|]. inversion ND; subst. cbn [map]. constructor.
        - intros Q. apply in_map_iff in Q as (y & E & Iy). apply I in E; [subst; contradiction| |]; apply HI; auto with datatypes.
        - apply IH; auto with datatypes. }
      apply G; [intros x; apply in_indices|apply NoDup_indices].
    - rewrite map_length, !indices_length. lia.
    - intros x Ix. apply in_map_iff in Ix as (y & <- & Iy). apply in_indices in Iy. apply in_indices. apply (V y Iy). }
  apply in_indices in R. apply INC in R. apply in_map_iff in R as (i' & E & I'). apply in_indices in I'. eauto.
Qed.

Lemma len_ok_byvalue r a f : views r a f -> inj_on (a_shape r) f -> prod (a_shape r) = prod (a_shape a) ->
  a_off r = a_off a -> a_len r = a_len a -> len_ok a -> len_ok r.
Proof.
  intros VV I P O L [E|(C & idx & R & E)].
  - left. congruence.
  - right. pose proof VV as (_ & _ & V). split.
    + intros i Ri. destruct (V i Ri) as [R' D]. specialize (C _ R'). lia.
    + destruct (views_onto r a f idx VV I P R) as (i' & Ri & <-). exists i'. split; [exact Ri|]. destruct (V i' Ri). lia.
Qed.

Lemma inj_swap i j sh : i < length sh -> j < length sh -> inj_on (swap_at i j sh) (swap_at i j).
Proof.
  intros Hi Hj x y Rx Ry E. apply in_range_length in Rx, Ry. rewrite swap_at_length in *.
  rewrite <- (swap_at_invol i j x), <- (swap_at_invol i j y) by lia. now rewrite E.
Qed.

Lemma inj_expand sh : inj_on (filter (fun n => negb (n =? 1)) sh) (expand_unit sh).
Proof.
  induction sh as [|n sh IH]; intros x y Rx Ry E; cbn [filter] in *.
  - inversion Rx; inversion Ry; reflexivity.
  - cbn [expand_unit] in E. destruct (Nat.eqb_spec n 1); cbn [negb] in *.
    + injection E as E. now apply IH.
    + inversion Rx; inversion Ry; subst. injection E as -> E. f_equal. now apply IH.
Qed.

Lemma insert_delete k l : k < length l -> insert_at k (nth k l 0) (delete_at k l) = l.
Proof.
  intros H. unfold insert_at, delete_at.
  rewrite firstn_app, firstn_firstn, Nat.min_id, firstn_length, Nat.min_l by lia.
  rewrite Nat.sub_diag, firstn_O, app_nil_r, skipn_app, firstn_length, Nat.min_l by lia.
  rewrite Nat.sub_diag, skipn_O. rewrite (skipn_all2 (firstn k l)) by (rewrite firstn_length; lia). cbn [app].
  symmetry. now apply split_nth.
Qed.

Lemma inj_delete k sh : k <= length sh -> inj_on (insert_at k 1 sh) (delete_at k).
Proof.
  intros H x y Rx Ry E. apply in_range_insert in Rx as (_ & X & LX); auto. apply in_range_insert in Ry as (_ & Y & LY); auto.
  rewrite <- (insert_delete k x), <- (insert_delete k y) by lia. congruence.
Qed.

Lemma inj_unrank sh sh' : prod sh = prod sh' -> inj_on sh' (fun idx => unrank (rank idx sh') sh).
Proof.
  intros P x y Rx Ry E. apply (rank_inj _ _ sh'); auto.
  pose proof (rank_lt _ _ Rx). pose proof (rank_lt _ _ Ry).
  rewrite <- (proj2 (unrank_in_range (rank x sh') sh ltac:(lia))), <- (proj2 (unrank_in_range (rank y sh') sh ltac:(lia))). now rewrite E.
Qed.

Lemma inj_pick ixs : forall sh, length ixs <= length sh -> inj_on (pick_shape (regions ixs sh) sh) (pick_index (regions ixs sh)).
Proof.
  induction ixs as [|ix ixs IH]; intros [|n sh] L; cbn [length] in L; try lia; cbn [regions pick_shape pick_index]; try (intros ? ? ? ? E; exact E).
  destruct (region ix n) as [i|lo hi]; intros x y Rx Ry E.
  - injection E as E. apply (IH sh); auto; lia.
  - inversion Rx; inversion Ry; subst. injection E as E1 E2. f_equal; [lia|]. apply (IH sh); auto; lia.
Qed.

Lemma delete_insert' k x l : k <= length l -> delete_at k (insert_at k x l) = l.
Proof. apply delete_insert. Qed.

Lemma inj_along k p sh : k < length sh -> inj_on (along_shape k p sh) (along_index k p).
Proof.
  intros Hk x y Rx Ry E. apply in_range_length in Rx, Ry. unfold along_shape, along_index, set_at in *.
  destruct p as [i|lo hi].
  - unfold delete_at in *. rewrite app_length, firstn_length, skipn_length in *.
    rewrite <- (delete_insert k i x), <- (delete_insert k i y) by lia. now rewrite E.
  - rewrite app_length in *. cbn [length] in *. rewrite firstn_length, skipn_length in *.
    assert (LX : k < length x) by lia. assert (LY : k < length y) by lia.
    assert (E1 : firstn k x = firstn k y).
    { apply (f_equal (firstn k)) in E. rewrite !firstn_app, !firstn_firstn, !Nat.min_id, !firstn_length in E.
      rewrite !Nat.min_l in E by lia. now rewrite Nat.sub_diag, !firstn_O, !app_nil_r in E. }
    rewrite E1 in E. apply app_inv_head in E. pose proof (f_equal (hd 0) E) as E2. pose proof (f_equal (@tl nat) E) as E3. cbn [hd tl] in E2, E3.
    rewrite (split_nth x k LX), (split_nth y k LY). rewrite E1, E3. f_equal. f_equal. lia.
Qed.

Lemma undiag_nth1 n : forall i ax1 ax2 x y rest, i <= ax1 < i + n -> 
  length (undiag i ax1 ax2 x y n rest) = n -> nth (ax1 - i) (undiag i ax1 ax2 x y n rest) 0 = x.
Proof.
  induction n as [|n IH]; intros i ax1 ax2 x y rest H L; [lia|]. cbn [undiag] in *.
  destruct (Nat.eqb_spec i ax1) as [->|N1].
  - now rewrite Nat.sub_diag.
  - replace (ax1 - i) with (S (ax1 - S i)) by lia.
    destruct (Nat.eqb_spec i ax2); [cbn [nth length] in *; apply IH; lia|].
    destruct rest as [|r rest]; [discriminate|]. cbn [nth length] in *. apply IH; lia.
Qed.

Lemma undiag_drop n : forall i ax1 ax2 x y rest,
  length rest = length (drop_two i ax1 ax2 (repeat 0 n)) -> drop_two i ax1 ax2 (undiag i ax1 ax2 x y n rest) = rest.
Proof.
  induction n as [|n IH]; intros i ax1 ax2 x y rest L; cbn [repeat drop_two undiag] in *.
  - destruct rest; [reflexivity|discriminate].
  - destruct (Nat.eqb_spec i ax1); cbn [orb] in *.
    + cbn [drop_two]. destruct (Nat.eqb_spec i ax1); [|contradiction]. cbn [orb]. now apply IH.
    + destruct (Nat.eqb_spec i ax2); cbn [orb] in *.
      * cbn [drop_two]. destruct (Nat.eqb_spec i ax1), (Nat.eqb_spec i ax2); try contradiction. cbn [orb]. now apply IH.
      * destruct rest as [|r rest]; [discriminate|]. cbn [drop_two length] in *.
        destruct (Nat.eqb_spec i ax1), (Nat.eqb_spec i ax2); try contradiction. cbn [orb]. f_equal. apply IH. lia.
Qed.

Lemma inj_diag sh i j off m : i < length sh ->
  (forall idx, in_range idx (drop_two 0 i j sh ++ [m]) -> length (diag_index (length sh) i j off idx) = length sh) ->
  inj_on (drop_two 0 i j sh ++ [m]) (diag_index (length sh) i j off).
Proof.
  intros Hi HL x y Rx Ry E. pose proof (HL _ Rx) as Lx. pose proof (HL _ Ry) as Ly.
  apply in_range_length in Rx, Ry. rewrite app_length in *. cbn [length] in *.
  assert (Nx : x <> []) by (intros ->; cbn in Rx; lia). assert (Ny : y <> []) by (intros ->; cbn in Ry; lia).
  rewrite (app_removelast_last 0 Nx), (app_removelast_last 0 Ny).
  assert (D : length (drop_two 0 i j sh) = length (drop_two 0 i j (repeat 0 (length sh)))).
  { apply drop_two_length. now rewrite repeat_length. }
  assert (LRx : length (removelast x) = length (drop_two 0 i j (repeat 0 (length sh)))).
  { rewrite removelast_firstn_len, firstn_length. lia. }
  assert (LRy : length (removelast y) = length (drop_two 0 i j (repeat 0 (length sh)))).
  { rewrite removelast_firstn_len, firstn_length. lia. }
  unfold diag_index in *. f_equal.
  - rewrite <- (undiag_drop (length sh) 0 i j (last x 0 + Z.to_nat (- off)) (last x 0 + Z.to_nat off) (removelast x) LRx).
    rewrite E. now apply undiag_drop.
  - f_equal. pose proof (undiag_nth1 (length sh) 0 i j (last x 0 + Z.to_nat (- off)) (last x 0 + Z.to_nat off) (removelast x)) as Q1.
    pose proof (undiag_nth1 (length sh) 0 i j (last y 0 + Z.to_nat (- off)) (last y 0 + Z.to_nat off) (removelast y)) as Q2.
    specialize (Q1 ltac:(lia) Lx). specialize (Q2 ltac:(lia) Ly). rewrite E in Q1. lia.
Qed.

(** ** strided length: exact *)
Lemma strided_len_attained sh : forall st l, length st = length sh -> pos sh -> strided_len sh st = Ok l ->
  exists idx, in_range idx sh /\ S (dot idx st) = l.
Proof.
  intros st l L P E. unfold strided_len in E. apply bind_Ok_inv in E as (r & E & Q). injection Q as <-.
  enough (exists idx, in_range idx sh /\ dot idx st = r) as (idx & R & D) by (exists idx; split; [exact R|lia]).
  revert st r L P E. induction sh as [|n sh IH]; intros [|s st] r L P E; cbn [length] in L; try discriminate.
  - cbn in E. injection E as <-. exists []. split; [constructor|reflexivity].
  - cbn [strided_len_sum] in E. inversion P; subst. unfold csub in E. destruct (Nat.ltb_spec n 1); [lia|]. cbn [bind] in E.
    apply bind_Ok_inv in E as (r' & E & Q). injection Q as <-.
    destruct (IH st r' ltac:(lia) H2 E) as (idx & R & D). exists (n - 1 :: idx). split; [constructor; [lia|exact R]|].
    cbn [dot]. rewrite D. lia.
Qed.

(** ** preservation *)
Lemma inv_step b n bc a r f : inv b n bc a -> views r a f -> flags_ok r -> f_write (a_fl r) = f_write (a_fl a) ->
  (bc = false -> pos (a_shape a) -> nz (a_stride a) -> len_ok a ->
     pos (a_shape r) /\ nz (a_stride r) /\ inj_on (a_shape r) f /\ len_ok r) ->
  inv b n bc r.
Proof.
  intros I V F W H. destruct I as [I1 I2 I3 I4 I5 I6]. pose proof V as (V1 & V2 & V3). constructor; auto.
  - congruence.
  - intros idx R. destruct (V3 idx R) as [R' ->]. auto.
  - congruence.
  - intros B. destruct (I6 B) as (P & N & D & L). destruct (H B P N L) as (P' & N' & J & L'). repeat split; auto.
    eapply views_distinct; eauto.
Qed.

Lemma reshaped_len m a sh st f : views (reshaped_view m a sh st) a f -> inj_on sh f -> prod sh = prod (a_shape a) ->
  len_ok a -> len_ok (reshaped_view m a sh st).
Proof.
  intros V I P L. destruct m.
  - left. reflexivity.
  - eapply len_ok_byvalue; eauto; rewrite reshaped_view_shape; auto.
Qed.

Lemma reshaped_write m a sh st : f_write (a_fl (reshaped_view m a sh st)) = f_write (a_fl a).
Proof. destruct m; cbn; unfold update_flags; destruct (has_uniform_stride sh st); reflexivity. Qed.

Lemma nz_map_mul c l : c <> 0 -> nz l -> nz (map (Nat.mul c) l).
Proof. intros H F. induction F; constructor; auto. nia. Qed.

Lemma nz_rm sh : pos sh -> nz (rm_stride sh).
Proof.
  induction sh as [|n sh IH]; intros P; [constructor|]. inversion P; subst. cbn [rm_stride]. constructor; [|now apply IH].
  apply pos_prod in H2. lia.
Qed.

Lemma fresh_inv b n sh : prod sh = n -> 0 < n -> inv b n false (fresh_arr b n sh).
Proof.
  intros P N. constructor; cbn [fresh_arr a_blk a_off a_shape a_stride a_fl a_len fresh_flags f_write negb].
  - unfold wf. cbn. apply stride_from_shape_length.
  - unfold flags_ok. cbn. rewrite stride_from_shape_rm. destruct sh as [|m sh]; [split; reflexivity|].
    rewrite rm_uniform. split; reflexivity.
  - reflexivity.
  - intros idx R. rewrite stride_from_shape_rm, <- rank_dot. apply rank_lt in R. lia.
  - reflexivity.
  - intros _. rewrite stride_from_shape_rm. assert (PS : pos sh) by (apply pos_prod; lia).
    split; [exact PS|]. split; [now apply nz_rm|]. split.
    + intros i j Ri Rj E. cbn in *. rewrite stride_from_shape_rm, <- !rank_dot in E. eapply rank_inj; eauto.
    + left. cbn. auto.
Qed.

Lemma nz_swap i j l : i < length l -> j < length l -> nz l -> nz (swap_at i j l).
Proof.
  intros Hi Hj F. unfold nz in *. rewrite Forall_forall in *. intros x I. unfold swap_at in I.
  apply in_map_iff in I as (k & <- & K). apply in_seq in K. apply F. apply nth_In. apply swap_pos_lt; lia.
Qed.
Lemma pos_nz l : pos l <-> nz l.
Proof. unfold pos, nz. split; intros H; eapply Forall_impl; try exact H; cbn; lia. Qed.

Lemma nz_app l1 l2 : nz l1 -> nz l2 -> nz (l1 ++ l2).
Proof. intros; apply Forall_app; auto. Qed.
Lemma nz_firstn k l : nz l -> nz (firstn k l).
Proof. revert k; induction l; intros [|k] F; cbn; auto; inversion F; subst; constructor; auto. apply IHl; auto. Qed.
Lemma nz_skipn k l : nz l -> nz (skipn k l).
Proof. revert k; induction l; intros [|k] F; cbn; auto; inversion F; subst. apply IHl; auto. Qed.
Lemma nz_insert k x l : x <> 0 -> nz l -> nz (insert_at k x l).
Proof. intros X F. unfold insert_at. apply nz_app; [now apply nz_firstn|]. constructor; [exact X|now apply nz_skipn]. Qed.
Lemma nz_drop i ax1 ax2 l : nz l -> nz (drop_two i ax1 ax2 l).
Proof. intros F; revert i; induction F; intros i; cbn [drop_two]; [constructor|]. destruct (_ || _); [apply IHF|]. constructor; [auto|apply IHF]. Qed.
Lemma nz_nth k l : nz l -> k < length l -> nth k l 0 <> 0.
Proof. intros F H. unfold nz in F. rewrite Forall_forall in F. apply F. now apply nth_In. Qed.

Lemma view_inv b n bc a m : inv b n bc a -> inv b n bc (nd_view m a).
Proof.
  intros I. pose proof (nd_view_views m a (i_wf _ _ _ _ I)) as V. eapply inv_step; [exact I|exact V|apply reshaped_view_flags_ok|apply reshaped_write|].
  intros _ P N L. unfold nd_view in *. rewrite reshaped_view_shape, reshaped_view_stride. repeat split; auto.
  - intros x y _ _ E; exact E.
  - eapply reshaped_len; eauto. intros x y _ _ E; exact E.
Qed.

Lemma prod_perm l1 l2 : Permutation.Permutation l1 l2 -> prod l1 = prod l2.
Proof. induction 1; rewrite ?prod_cons; nia. Qed.

Lemma transpose_inv b n bc a m ax1 ax2 r : inv b n bc a -> nd_transpose m a ax1 ax2 = Ok r -> inv b n bc r.
Proof.
  intros I E. unfold nd_transpose in E.
  apply bind_Ok_inv in E as (i & Ei & E). apply bind_Ok_inv in E as (j & Ej & E).
  destruct (nd_transpose_ok m a ax1 ax2 i j (i_wf _ _ _ _ I) Ei Ej) as (r' & Er & SH & V & F & ST).
  apply as_absolute_inv in Ei as Hi. apply as_absolute_inv in Ej as Hj. destruct Hi as [Hi _], Hj as [Hj _].
  unfold nd_transpose in Er. rewrite Ei, Ej in Er. cbn [bind] in Er. rewrite E in Er. injection Er as <-.
  pose proof (i_wf _ _ _ _ I) as W. unfold wf in W.
  rewrite !vswap_ok in E by lia. cbn [bind] in E. injection E as <-.
  eapply inv_step; [exact I|exact V|exact F|apply reshaped_write|].
  intros _ P N L. rewrite reshaped_view_shape, reshaped_view_stride.
  assert (J : inj_on (swap_at i j (a_shape a)) (swap_at i j)) by now apply inj_swap.
  assert (PS : pos (swap_at i j (a_shape a))) by (apply pos_nz, nz_swap; auto; now apply pos_nz).
  repeat split; auto; [apply nz_swap; auto; lia|].
  eapply reshaped_len; eauto.
  assert (PP : Permutation.Permutation (swap_at i j (a_shape a)) (a_shape a)).
  { transitivity (map (fun k => nth k (a_shape a) 0) (seq 0 (length (a_shape a)))); [|now rewrite map_nth_seq].
    unfold swap_at. rewrite <- (map_map (swap_pos i j) (fun k => nth k (a_shape a) 0)).
    apply Permutation.Permutation_map, swap_seq_perm; auto. }
  now apply prod_perm.
Qed.

Lemma prod_filter sh : prod (filter (fun n => negb (n =? 1)) sh) = prod sh.
Proof.
  induction sh as [|n sh IH]; [reflexivity|]. cbn [filter]. destruct (Nat.eqb_spec n 1) as [->|]; cbn [negb]; rewrite ?prod_cons, IH; lia.
Qed.

Lemma nz_squeeze sh : forall st, nz st -> nz (map snd (squeeze_axes sh st)).
Proof.
  unfold squeeze_axes. induction sh as [|n sh IH]; intros [|s st] F; cbn [combine filter map]; try constructor.
  inversion F; subst. cbn [fst]. destruct (negb (n =? 1)); cbn [map snd]; [constructor; auto|]; now apply IH.
Qed.

Lemma squeeze_inv b n bc a m : inv b n bc a -> inv b n bc (nd_squeeze m a).
Proof.
  intros I. destruct (nd_squeeze_ok m a (i_wf _ _ _ _ I)) as (SH & V & F).
  eapply inv_step; [exact I|exact V|exact F|apply reshaped_write|].
  intros _ P N L. assert (J : inj_on (a_shape (nd_squeeze m a)) (expand_unit (a_shape a))) by (rewrite SH; apply inj_expand).
  assert (PE : prod (a_shape (nd_squeeze m a)) = prod (a_shape a)) by (rewrite SH; apply prod_filter).
  repeat split; auto.
  - apply pos_prod. rewrite PE. now apply pos_prod.
  - unfold nd_squeeze. rewrite reshaped_view_stride. now apply nz_squeeze.
  - unfold nd_squeeze in *. rewrite reshaped_view_shape in *. eapply reshaped_len; eauto.
Qed.

Lemma prod_insert k sh : prod (insert_at k 1 sh) = prod sh.
Proof. unfold insert_at. rewrite prod_app, prod_cons, Nat.mul_1_l, <- prod_app, firstn_skipn. reflexivity. Qed.

Lemma nd_unsqueeze_stride m a axis r : wf a -> nd_unsqueeze m a axis = Ok r ->
  exists k st, r = reshaped_view m a (insert_at k 1 (a_shape a)) st /\ k <= length (a_shape a) /\
    (pos (a_shape a) -> nz (a_stride a) -> nz st).
Proof.
  intros W E. unfold wf in W. unfold nd_unsqueeze in E. apply bind_Ok_inv in E as (k & Ek & E).
  apply as_absolute_inv in Ek as [Hk _]. destruct (Nat.eqb_spec k (length (a_shape a))) as [->|NE].
  - injection E as <-. exists (length (a_shape a)), (a_stride a ++ [1]). split.
    + f_equal. unfold insert_at. now rewrite firstn_all, skipn_all.
    + split; [lia|]. intros _ N. apply nz_app; [exact N|]. constructor; [lia|constructor].
  - rewrite (vinsert_ok (a_shape a)) in E by lia. cbn [bind] in E.
    change (firstn k (a_shape a) ++ 1 :: skipn k (a_shape a)) with (insert_at k 1 (a_shape a)) in E.
    rewrite (@vget_nth _ (a_stride a) k 0) in E by lia. cbn [bind] in E.
    rewrite (vget_insert (a_shape a) k 1 0) in E by lia. rewrite (@vget_nth _ (a_shape a) k 0) in E by lia. cbn [bind] in E.
    rewrite vinsert_ok in E by lia. cbn [bind] in E. injection E as <-.
    eexists k, _. split; [reflexivity|]. split; [lia|]. intros P N.
    change (nz (insert_at k (nth k (a_stride a) 0 * nth k (a_shape a) 0) (a_stride a))). apply nz_insert; [|exact N].
    assert (nth k (a_stride a) 0 <> 0) by (apply nz_nth; auto; lia).
    assert (nth k (a_shape a) 0 <> 0) by (apply nz_nth; [now apply pos_nz|lia]). nia.
Qed.

Lemma unsqueeze_inv b n bc a m axis r : inv b n bc a -> nd_unsqueeze m a axis = Ok r -> inv b n bc r.
Proof.
  intros I E. pose proof (i_wf _ _ _ _ I) as W.
  assert (EK : exists k, as_absolute axis (length (a_shape a) + 1) = Ok k).
  { unfold nd_unsqueeze in E. apply bind_Ok_inv in E as (k & Ek & _). eauto. }
  destruct EK as (k & Ek). destruct (nd_unsqueeze_ok m a axis k W Ek) as (r' & Er & SH & V & F).
  rewrite E in Er. injection Er as <-.
  destruct (nd_unsqueeze_stride m a axis r W E) as (k' & st & -> & Hk' & HZ).
  apply as_absolute_inv in Ek as [Hk _]. rewrite reshaped_view_shape in SH.
  eapply inv_step; [exact I|exact V|exact F|apply reshaped_write|].
  intros _ P N L. rewrite reshaped_view_shape, reshaped_view_stride.
  assert (J : inj_on (insert_at k' 1 (a_shape a)) (delete_at k)) by (rewrite SH; apply inj_delete; lia).
  repeat split; auto.
  - apply pos_prod. rewrite prod_insert. now apply pos_prod.
  - eapply reshaped_len; eauto. apply prod_insert.
Qed.

Lemma reshape_inv b n a m sh r : inv b n false a -> nd_reshape m a sh = Ok r -> inv b n false r.
Proof.
  intros I E. pose proof (i_wf _ _ _ _ I) as W. destruct (i_nb _ _ _ _ I eq_refl) as (P & N & D & L).
  destruct (nd_reshape_shape _ _ _ _ E) as [SH PE].
  assert (E' := E). unfold nd_reshape in E'. destruct (list_eqb sh (a_shape a)) eqn:Q.
  { injection E' as <-. now apply view_inv. }
  apply bind_Ok_inv in E' as ([] & G1 & E'). apply bind_Ok_inv in E' as ([] & G2 & E').
  apply bind_Ok_inv in E' as (d & G3 & E'). apply bind_Ok_inv in E' as (acc & G4 & E').
  assert (U : f_unif (a_fl a) = true) by (destruct (f_unif (a_fl a)); [reflexivity|discriminate]).
  assert (NE : a_shape a <> []) by (intros Z; rewrite Z in G3; discriminate).
  destruct (nd_reshape_ok m a sh W (i_fl _ _ _ _ I) (nonzero_no_bcast _ _ (eq_sym W) N) U PE (or_introl NE)) as (r' & Er & _ & V & F).
  rewrite E in Er. injection Er as <-. injection E' as <-. rewrite reshape_strides_spec in *. cbn [fst] in *.
  eapply inv_step; [exact I|exact V|exact F|apply reshaped_write|].
  intros _ _ _ _. rewrite reshaped_view_shape, reshaped_view_stride.
  assert (J : inj_on sh (fun idx => unrank (rank idx sh) (a_shape a))) by (apply inj_unrank; exact PE).
  assert (PS : pos sh) by (apply pos_prod; rewrite <- PE; now apply pos_prod).
  repeat split; auto.
  - apply nz_map_mul; [|now apply nz_rm]. unfold vget in G4. destruct (nth_error (a_stride a) d) eqn:ND; [|discriminate].
    injection G4 as <-. apply nth_error_In in ND. unfold nz in N. rewrite Forall_forall in N. auto.
  - eapply reshaped_len; eauto.
Qed.

Lemma slice_go_nz ixs : forall sh st o sh' st', slice_go ixs sh st = Ok (o, sh', st') -> nz st -> nz st'.
Proof.
  induction ixs as [|ix ixs IH]; intros sh st o sh' st' E N; cbn [slice_go] in E.
  - injection E as <- <- <-. exact N.
  - destruct sh as [|m sh]; [discriminate|]. destruct st as [|s st]; [discriminate|].
    apply bind_Ok_inv in E as (l & _ & E). apply bind_Ok_inv in E as ([[o1 sh1] st1] & E1 & E).
    inversion N; subst. pose proof (IH _ _ _ _ _ E1 H2). destruct (index_collapses ix); injection E as <- <- <-; [assumption|]. constructor; auto.
Qed.

Lemma strided_len_pos sh : forall st l, length st = length sh -> strided_len sh st = Ok l -> pos sh.
Proof.
  intros st l L E. unfold strided_len in E. apply bind_Ok_inv in E as (r & E & _). revert st r L E.
  induction sh as [|m sh IH]; intros [|s st] r L E; cbn [length] in L; try discriminate; [constructor|].
  cbn [strided_len_sum] in E. unfold csub in E. destruct (Nat.ltb_spec m 1); [discriminate|]. cbn [bind] in E.
  apply bind_Ok_inv in E as (r' & E & _). constructor; [lia|]. apply (IH st r'); [lia|exact E].
Qed.

Lemma slice_views a ixs r : wf a -> slice_ok ixs (a_shape a) -> nd_slice a ixs = Ok r ->
  a_shape r = pick_shape (regions ixs (a_shape a)) (a_shape a) /\
  views r a (pick_index (regions ixs (a_shape a))) /\ flags_ok r /\ f_write (a_fl r) = f_write (a_fl a) /\
  pos (a_shape r) /\ (nz (a_stride a) -> nz (a_stride r)) /\ covers r /\ len_ok r.
Proof.
  intros W OK E. unfold nd_slice in E. destruct (slice_go_ok _ _ _ W OK) as (o & st' & E1 & L & H).
  rewrite E1 in E. cbn [bind] in E. apply bind_Ok_inv in E as (l & EL & E). injection E as <-.
  cbn [a_shape a_stride a_fl a_len a_off]. pose proof (strided_len_pos _ _ _ L EL) as PS.
  split; [reflexivity|]. split.
  { split; [reflexivity|]. cbn [a_shape a_stride a_off]. split; [exact L|]. intros idx R. destruct (H idx R) as [R' D]. split; [exact R'|lia]. }
  split; [unfold flags_ok; cbn; apply update_flags_ok|].
  split; [cbn; unfold update_flags; destruct (has_uniform_stride _ st'); reflexivity|].
  split; [exact PS|]. split; [apply (slice_go_nz _ _ _ _ _ _ E1)|].
  destruct (strided_len_ok _ st' L (proj1 (Forall_forall _ _) PS)) as (l' & EL' & C). rewrite EL in EL'. injection EL' as <-.
  split; [exact C|]. right. split; [exact C|]. apply strided_len_attained; auto.
Qed.

Lemma slice_inv b n bc a ixs r : inv b n bc a -> slice_ok ixs (a_shape a) -> nd_slice a ixs = Ok r -> inv b n bc r.
Proof.
  intros I OK E. destruct (slice_views a ixs r (i_wf _ _ _ _ I) OK E) as (SH & V & F & WR & PS & N & C & L).
  eapply inv_step; [exact I|exact V|exact F|exact WR|]. intros _ P NZ _. repeat split; auto.
  rewrite SH. apply inj_pick. apply OK.
Qed.

Lemma slice_along_views a i k ix r : wf a -> as_absolute i (length (a_shape a)) = Ok k ->
  pick_ok (region ix (nth k (a_shape a) 0)) (nth k (a_shape a) 0) -> nd_slice_along a i ix = Ok r ->
  a_shape r = along_shape k (region ix (nth k (a_shape a) 0)) (a_shape a) /\
  views r a (along_index k (region ix (nth k (a_shape a) 0))) /\ flags_ok r /\ f_write (a_fl r) = f_write (a_fl a) /\
  pos (a_shape r) /\ (nz (a_stride a) -> nz (a_stride r)) /\ covers r /\ len_ok r.
Proof.
  intros W Ek OK E. pose proof Ek as Hk. apply as_absolute_inv in Hk as [Hk _]. pose proof W as W'. unfold wf in W'.
  assert (PS : pos (a_shape a)).
  { (* positivity of the other axes follows from the length computation *)
    unfold nd_slice_along in E. rewrite Ek in E. cbn [bind] in E.
    rewrite (@vget_nth _ (a_shape a) k 0), (@vget_nth _ (a_stride a) k 0) in E by lia. cbn [bind] in E.
    destruct (index_collapses ix) eqn:IC.
    - rewrite !vremove_ok in E by lia. cbn [bind] in E. apply bind_Ok_inv in E as (l & EL & _).
      apply strided_len_pos in EL; [|rewrite !app_length, !firstn_length, !skipn_length; lia].
      apply Forall_app in EL as [A B]. rewrite (split_nth (a_shape a) k Hk). apply Forall_app. split; [exact A|]. constructor; [|exact B].
      destruct ix; try discriminate. cbn in OK. lia.
    - destruct (indexed_length_ok ix _ OK) as (l0 & E0 & _). rewrite E0 in E. cbn [bind] in E.
      unfold vset in E. rewrite upd_split in E by lia. cbn [bind] in E. apply bind_Ok_inv in E as (l & EL & _).
      apply strided_len_pos in EL; [|rewrite !app_length; cbn [length]; rewrite !firstn_length, !skipn_length; lia].
      apply Forall_app in EL as [A B]. inversion B; subst. rewrite (split_nth (a_shape a) k Hk). apply Forall_app. split; [exact A|]. constructor; [|assumption].
      destruct (region ix (nth k (a_shape a) 0)) eqn:RE; cbn in OK; lia. }
  destruct (nd_slice_along_ok a i ix k W Ek OK (proj1 (Forall_forall _ _) PS)) as (r' & Er & SH & V & F & C).
  rewrite E in Er. injection Er as <-. split; [exact SH|]. split; [exact V|]. split; [exact F|].
  unfold nd_slice_along in E. rewrite Ek in E. cbn [bind] in E.
  rewrite (@vget_nth _ (a_shape a) k 0), (@vget_nth _ (a_stride a) k 0) in E by lia. cbn [bind] in E.
  apply bind_Ok_inv in E as ([sh st] & E2 & E). apply bind_Ok_inv in E as (l & EL & E). injection E as <-.
  cbn [a_fl a_shape a_stride a_len] in *.
  split; [cbn; unfold update_flags; destruct (has_uniform_stride sh st); reflexivity|].
  assert (LS : length st = length sh) by apply V.
  pose proof (strided_len_pos _ _ _ LS EL) as PS2. split; [exact PS2|]. split; [|split].
  - intros N. destruct (index_collapses ix).
    + rewrite !vremove_ok in E2 by lia. cbn [bind] in E2. assert (Q : firstn k (a_stride a) ++ skipn (S k) (a_stride a) = st) by congruence.
      rewrite <- Q. apply nz_app; [now apply nz_firstn|now apply nz_skipn].
    + apply bind_Ok_inv in E2 as (l0 & _ & E2). apply bind_Ok_inv in E2 as (sh0 & _ & E2). injection E2 as _ <-. exact N.
  - exact C.
  - right. split; [exact C|]. apply strided_len_attained; auto.
Qed.

Lemma slice_along_inv b n bc a i k ix r : inv b n bc a -> as_absolute i (length (a_shape a)) = Ok k ->
  pick_ok (region ix (nth k (a_shape a) 0)) (nth k (a_shape a) 0) -> nd_slice_along a i ix = Ok r -> inv b n bc r.
Proof.
  intros I Ek OK E. destruct (slice_along_views a i k ix r (i_wf _ _ _ _ I) Ek OK E) as (SH & V & F & WR & PS & N & C & L).
  eapply inv_step; [exact I|exact V|exact F|exact WR|]. intros _ P NZ _. repeat split; auto.
  rewrite SH. apply inj_along. now apply as_absolute_inv in Ek.
Qed.

(** success of a diagonal means sensible arguments *)
Lemma diagonal_inv_args a off axis1 axis2 r : wf a -> nd_offset_diagonal_along a off axis1 axis2 = Ok r ->
  exists i j, as_absolute axis1 (length (a_shape a)) = Ok i /\ as_absolute axis2 (length (a_shape a)) = Ok j /\ i <> j /\
    ((0 <= off)%Z -> (off < Z.of_nat (nth j (a_shape a) 0%nat))%Z) /\
    ((off < 0)%Z -> (- off < Z.of_nat (nth i (a_shape a) 0%nat))%Z) /\
    f_write (a_fl r) = f_write (a_fl a) /\
    a_stride r = drop_two 0 i j (a_stride a) ++ [nth i (a_stride a) 0 + nth j (a_stride a) 0] /\
    a_len r = prod (a_shape r) /\
    a_shape r = drop_two 0 i j (a_shape a) ++ [Nat.min (nth i (a_shape a) 0 - Z.to_nat (- off)) (nth j (a_shape a) 0 - Z.to_nat off)].
Proof.
  intros W E. unfold wf in W. unfold nd_offset_diagonal_along in E.
  apply bind_Ok_inv in E as ([] & _ & E). apply bind_Ok_inv in E as (i & Ei & E). apply bind_Ok_inv in E as (j & Ej & E).
  apply bind_Ok_inv in E as ([] & NE & E). exists i, j. split; [exact Ei|]. split; [exact Ej|].
  apply as_absolute_inv in Ei as [Hi _], Ej as [Hj _].
  rewrite (@vget_nth _ (a_shape a) i 0), (@vget_nth _ (a_shape a) j 0),
    (@vget_nth _ (a_stride a) i 0), (@vget_nth _ (a_stride a) j 0) in E by lia. cbn [bind] in E.
  destruct (Nat.eqb_spec i j); [discriminate|]. split; [assumption|].
  assert (WQ : forall o sh st, f_write (a_fl (reshaped_view_with_offset a o sh st)) = f_write (a_fl a)).
  { intros. unfold reshaped_view_with_offset. cbn. unfold update_flags. destruct (has_uniform_stride sh st); reflexivity. }
  destruct (Z.leb_spec 0 off) as [O|O].
  - destruct (Nat.leb_spec (nth j (a_shape a) 0) (Z.to_nat off)); [discriminate|]. cbn [bind] in E. injection E as <-.
    split; [lia|]. split; [lia|]. split; [apply WQ|]. split; [reflexivity|]. split; [reflexivity|]. cbn [a_shape reshaped_view_with_offset].
    replace (Z.to_nat (- off)) with 0 by lia. now rewrite Nat.sub_0_r.
  - destruct (Nat.leb_spec (nth i (a_shape a) 0) (Z.to_nat (- off))); [discriminate|]. cbn [bind] in E. injection E as <-.
    split; [lia|]. split; [lia|]. split; [apply WQ|]. split; [reflexivity|]. split; [reflexivity|]. cbn [a_shape reshaped_view_with_offset].
    replace (Z.to_nat off) with 0 by lia. now rewrite Nat.sub_0_r.
Qed.

Lemma in_range_snoc0 sh l : ~ in_range l (sh ++ [0]).
Proof.
  intros R. pose proof (in_range_length _ _ R) as L. rewrite app_length in L. cbn in L.
  destruct l as [|x l _] using rev_ind; [cbn in L; lia|]. rewrite app_length in L. cbn in L.
  apply in_range_app in R as [_ R]; [|lia]. inversion R; lia.
Qed.

Lemma diagonal_inv b n bc a off axis1 axis2 r : inv b n bc a -> nd_offset_diagonal_along a off axis1 axis2 = Ok r -> inv b n bc r.
Proof.
  intros I E. pose proof (i_wf _ _ _ _ I) as W.
  destruct (diagonal_inv_args _ _ _ _ _ W E) as (i & j & Ei & Ej & NE & O1 & O2 & WR & ST & LN & SH).
  pose proof Ei as Hi. pose proof Ej as Hj. apply as_absolute_inv in Hi as [Hi _], Hj as [Hj _].
  destruct (Z_lt_dec (- Z.of_nat (nth i (a_shape a) 0%nat)) off) as [A|A].
  - destruct (Z_lt_dec off (Z.of_nat (nth j (a_shape a) 0%nat))) as [B|B].
    + destruct (nd_diagonal_ok a off axis1 axis2 i j W Ei Ej NE (conj A B)) as (r' & Er & _ & V & F).
      rewrite E in Er. injection Er as <-.
      eapply inv_step; [exact I|exact V|exact F|exact WR|]. intros _ P N _. unfold wf in W.
      assert (PS : pos (a_shape r)).
      { rewrite SH. apply Forall_app. split; [apply pos_nz, nz_drop; now apply pos_nz|]. constructor; [|constructor]. cbv beta. assert (nth i (a_shape a) 0 <> 0) by (apply nz_nth; [now apply pos_nz|lia]). assert (nth j (a_shape a) 0 <> 0) by (apply nz_nth; [now apply pos_nz|lia]). lia. }
      repeat split; auto.
      * rewrite ST. apply nz_app; [now apply nz_drop|]. constructor; [|constructor].
        assert (nth i (a_stride a) 0 <> 0) by (apply nz_nth; auto; lia). lia.
      * rewrite SH. apply inj_diag; [exact Hi|]. intros idx R. rewrite <- SH in R.
        destruct V as (_ & _ & V). destruct (V idx R) as [R' _]. now apply in_range_length in R'.
      * left. exact LN.
    + destruct (Z_lt_dec off 0); [|exfalso; apply B, O1; lia].
      exfalso. assert (Z.of_nat (nth j (a_shape a) 0%nat) < 0)%Z by lia. lia.
  - (* off <= - d1: only possible when d1 = 0 and off = 0, and then the view is empty *)
    destruct (Z_lt_dec off 0); [exfalso; specialize (O2 l); lia|].
    assert (D0 : nth i (a_shape a) 0 = 0) by lia. rewrite D0 in SH. rewrite Nat.min_0_l in SH.
    constructor.
    + unfold wf. rewrite ST, SH, !app_length. cbn [length]. f_equal. now apply drop_two_length.
    + unfold nd_offset_diagonal_along in E. repeat (apply bind_Ok_inv in E as (? & _ & E)).
      destruct x7 as [[? ?] ?]. injection E as <-. unfold flags_ok. cbn. apply update_flags_ok.
    + unfold nd_offset_diagonal_along in E. repeat (apply bind_Ok_inv in E as (? & _ & E)).
      destruct x7 as [[? ?] ?]. injection E as <-. apply (i_blk _ _ _ _ I).
    + intros idx R. rewrite SH in R. now apply in_range_snoc0 in R.
    + rewrite WR. apply (i_wr _ _ _ _ I).
    + intros B. destruct (i_nb _ _ _ _ I B) as (P & _). exfalso. apply pos_nz in P. now apply (nz_nth i _ P) in Hi.
Qed.

Lemma broadcast_inv b n bc a sh r : inv b n bc a -> nd_broadcast_to a sh = Ok r -> inv b n true r.
Proof.
  intros I E. pose proof (i_wf _ _ _ _ I) as W.
  assert (BR : broadcastable (a_shape a) sh).
  { destruct (le_lt_dec (length (a_shape a)) (length sh)) as [L|L].
    - unfold nd_broadcast_to, broadcast_shape in E. destruct (Nat.ltb_spec (length sh) (length (a_shape a))); [lia|].
      split; [exact L|]. apply bshape_ok_spec; [now apply skipn_sub_length|].
      destruct (bshape_ok _ _); [reflexivity|discriminate].
    - unfold nd_broadcast_to, broadcast_shape in E. destruct (Nat.ltb_spec (length sh) (length (a_shape a))); [discriminate|lia]. }
  destruct (nd_broadcast_to_ok a sh W BR) as (r' & Er & SH & V & F & WR). rewrite E in Er. injection Er as <-.
  pose proof V as (V1 & V2 & V3). constructor; auto.
  - rewrite V1. apply (i_blk _ _ _ _ I).
  - intros idx R. destruct (V3 idx R) as [R' ->]. now apply (i_in _ _ _ _ I).
  - discriminate.
Qed.

(** imported here because Einsum.set_at hides Spec.set_at *)
From Verif Require Import Einsum EinsumParse.
Lemma inj_lookup d out sub : NoDup out -> incl out sub -> inj_on (map d out) (fun idx => map (lookup out idx) sub).
Proof.
  intros ND I i j Ri Rj E. apply in_range_length in Ri, Rj. rewrite map_length in Ri, Rj.
  rewrite <- (map_lookup out ND i), <- (map_lookup out ND j) by auto. apply map_ext_in. intros c IC. apply I in IC. revert c IC. now apply map_ext_in_iff.
Qed.

Lemma lsum_nz l : forall sub st, nz st -> length st = length sub -> In l sub -> lsum sub st l <> 0.
Proof.
  induction sub as [|c sub IH]; intros [|s st] N L I; try discriminate; [destruct I|]. apply Forall_cons_iff in N as [N0 N]. cbn [lsum].
  destruct (Z.eqb_spec l c) as [->|NE]; [lia|]. destruct I as [<-|I]; [congruence|]. injection L as L. specialize (IH st N L I). lia.
Qed.

Lemma einsum_inv b n bc a sub out r : inv b n bc a -> Forall letter sub -> Forall letter out -> einsum_view a sub out = Ok (Some r) -> inv b n bc r.
Proof.
  intros I LS LO E. apply letter_letters in LS, LO. pose proof (i_wf _ _ _ _ I) as W.
  destruct (einsum_view_inv a sub out _ LS LO E) as (LM & ND & IO & dm & SH).
  assert (LT : length (a_stride a) = length sub) by (rewrite W, SH; apply map_length).
  destruct (einsum_view_ok dm a sub out LS LO ND IO SH LT LM) as [(c & _ & _ & E')|(IS & E')]; [congruence|]. rewrite E in E'. assert (EQ : r = reshaped_view ByRef a (map dm out) (map (lsum sub (a_stride a)) out)) by congruence. clear E E'. subst r.
  pose proof (einsum_view_views dm a sub out ND IS SH LT) as V.
  eapply inv_step; [exact I|exact V|apply reshaped_view_flags_ok|apply reshaped_write|]. intros _ P N _. rewrite reshaped_view_shape, reshaped_view_stride.
  split; [|split; [|split]].
  - apply Forall_forall. intros d ID. apply in_map_iff in ID as (c & <- & IC). rewrite SH in P. apply (proj1 (Forall_forall _ _) P). apply in_map. auto.
  - apply Forall_forall. intros s ID. apply in_map_iff in ID as (c & <- & IC). apply lsum_nz; auto.
  - now apply inj_lookup.
  - left. reflexivity.
Qed.

Theorem chain_inv b n bc a : chain b n bc a -> inv b n bc a.
Proof.
  induction 1.
  - now apply fresh_inv.
  - now apply view_inv.
  - eapply reshape_inv; eauto.
  - eapply transpose_inv; eauto.
  - now apply squeeze_inv.
  - eapply unsqueeze_inv; eauto.
  - eapply slice_inv; eauto.
  - eapply slice_along_inv; eauto.
  - eapply diagonal_inv; eauto.
  - apply (einsum_inv b n bc a sub out r); assumption.
  - eapply broadcast_inv; eauto.
Qed.

(** ** consequences *)
Lemma chain_valid {T} (h : heap T) b n bc a : live h b n -> chain b n bc a -> valid h a.
Proof.
  intros (l & E & L) C. apply chain_inv in C. split; [apply (i_wf _ _ _ _ C)|]. intros idx R.
  pose proof (i_in _ _ _ _ C idx R) as H. unfold get, load. rewrite (i_blk _ _ _ _ C), E.
  destruct (nth_error l _) eqn:N; [eauto|]. apply nth_error_None in N. lia.
Qed.

Lemma contig_tight a : wf a -> flags_ok a -> nz (a_stride a) -> pos (a_shape a) -> len_ok a -> tight a.
Proof.
  intros W F N P [E|(C & idx & R & E)] CT; [exact E|].
  assert (NB : no_bcast (a_shape a) (a_stride a)) by (apply nonzero_no_bcast; auto).
  rewrite (contig_dot a idx W F NB CT R) in E. pose proof (rank_lt _ _ R).
  assert (Q : prod (a_shape a) - 1 < prod (a_shape a)) by lia.
  destruct (unrank_in_range _ _ Q) as [R' K]. specialize (C _ R'). rewrite (contig_dot a _ W F NB CT R'), K in C. lia.
Qed.

Lemma chain_tight b n a : chain b n false a -> tight a /\ no_bcast (a_shape a) (a_stride a) /\ flags_ok a /\ wf a.
Proof.
  intros C. apply chain_inv in C. destruct (i_nb _ _ _ _ C eq_refl) as (P & N & D & L).
  pose proof (i_wf _ _ _ _ C) as W. pose proof (i_fl _ _ _ _ C) as F. split; [now apply contig_tight|].
  split; [now apply nonzero_no_bcast|]. auto.
Qed.

Lemma chain_covers b n a : chain b n false a -> f_contig (a_fl a) = true -> covers a.
Proof.
  intros C CT idx R. destruct (chain_tight _ _ _ C) as (TI & NB & F & W).
  rewrite (contig_dot a idx W F NB CT R), (TI CT). now apply rank_lt.
Qed.

Lemma uniform1_contig a : flags_ok a -> has_uniform_stride (a_shape a) (a_stride a) = Some 1 -> f_contig (a_fl a) = true.
Proof. intros [_ ->] ->. reflexivity. Qed.

Lemma undiag_nth2 n : forall i ax1 ax2 x y rest, ax1 <> ax2 -> i <= ax2 < i + n ->
  length (undiag i ax1 ax2 x y n rest) = n -> nth (ax2 - i) (undiag i ax1 ax2 x y n rest) 0 = y.
Proof.
  induction n as [|n IH]; intros i ax1 ax2 x y rest NE H L; [lia|]. cbn [undiag] in *.
  destruct (Nat.eqb_spec i ax2) as [->|N2].
  - destruct (Nat.eqb_spec ax2 ax1); [congruence|]. now rewrite Nat.sub_diag.
  - replace (ax2 - i) with (S (ax2 - S i)) by lia.
    destruct (Nat.eqb_spec i ax1); [cbn [nth length] in *; apply IH; auto; lia|].
    destruct rest as [|r rest]; [discriminate|]. cbn [nth length] in *. apply IH; auto; lia.
Qed.
