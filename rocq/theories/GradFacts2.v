(** GradFacts2.v: view operations on gradients, and reduce_gradient. *)
From Coq Require Import List Arith Lia Bool ZArith Permutation Sorted.
From Verif Require Import Base Spec Layout SpecFacts LayoutFacts Views ViewsFacts ViewsFacts2 ViewsFacts3 ViewsFacts4
  Kernels Access HeapFacts KernelFacts OpFacts AccessFacts Chain ChainFacts Reduce ReduceFacts Einsum EinsumFacts2
  PropsViews PropsOps PropsReduce PropsEinsum SpecGrad Autograd GradMath GradFacts.
Import ListNotations.
Open Scope res_scope.

(** ** views *)
Section GViews.
  Context {T : Type}.
  Implicit Types h : heap T.

  Lemma good_views h a sh v r f : good h a sh v -> (exists b n, inv b n false r) -> views r a f -> good h r (a_shape r) (fun i => v (f i)).
  Proof.
    intros (I & <- & G) I' V. split; [auto|]. split; [auto|]. intros idx R. rewrite (views_get _ _ _ _ _ V R). apply G.
    now apply V.
  Qed.

  Lemma view_good h a sh v m : good h a sh v -> good h (nd_view m a) sh v.
  Proof.
    intros G. pose proof (good_shape _ _ _ _ G) as S.
    assert (V := nd_view_views m a (good_wf _ _ _ _ G)). destruct (proj1 G) as (b & n & I).
    pose proof (good_views _ _ _ _ _ _ G (ex_intro _ b (ex_intro _ n (view_inv _ _ _ _ m I))) V) as H.
    unfold nd_view in H at 2. rewrite reshaped_view_shape, S in H. exact H.
  Qed.
  Lemma view_rmaj a m : rmaj a -> rmaj (nd_view m a).
  Proof. unfold rmaj, nd_view. now rewrite reshaped_view_shape, reshaped_view_stride. Qed.
  Lemma view_blk a m : a_blk (nd_view m a) = a_blk a.
  Proof. apply reshaped_view_blk. Qed.

  Lemma cast_good h a sh v : good h a sh v -> good h (lifetime_cast a) sh v.
  Proof. intros ((b & n & [W F B IN WR NB]) & S & G). split; [|now split]. exists b, n. constructor; auto. Qed.
  Lemma cast_rmaj a : rmaj a -> rmaj (lifetime_cast a).
  Proof. auto. Qed.

  Lemma nd_reshape_not_oob m a sh : nd_reshape m a sh <> Oob.
  Proof.
    unfold nd_reshape, guard, csub, vget. destruct (list_eqb sh (a_shape a)); [discriminate|].
    destruct (f_unif (a_fl a)); [|discriminate]. cbn [bind]. destruct (_ =? _); [|discriminate]. cbn [bind].
    destruct (_ <? _); [discriminate|]. cbn [bind]. destruct (nth_error _ _); discriminate.
  Qed.
  Lemma rm_last sh : sh <> [] -> nth_error (rm_stride sh) (length sh - 1) = Some 1.
  Proof.
    induction sh as [|n [|n' sh] IH]; intros H; [congruence|reflexivity|].
    cbn [length]. replace (S (S (length sh)) - 1) with (S (S (length sh) - 1)) by lia.
    change (nth_error (rm_stride (n' :: sh)) (S (length sh) - 1) = Some 1). apply IH. discriminate.
  Qed.
  Lemma map_mul1 l : map (Nat.mul 1) l = l.
  Proof. induction l; cbn [map]; [auto|]. rewrite IHl. f_equal. lia. Qed.

  Lemma reshape_good h a sh v m sh' : good h a sh v ->
    nd_reshape m a sh' = Panic \/
    exists r, nd_reshape m a sh' = Ok r /\ a_blk r = a_blk a /\ prod sh' = prod sh /\
      good h r sh' (fun i => v (unrank (rank i sh') sh)) /\ (rmaj a -> rmaj r).
  Proof.
    intros G. destruct (nd_reshape m a sh') as [r| |] eqn:E; [|now left|now apply nd_reshape_not_oob in E].
    right. exists r. split; [auto|]. destruct (nd_reshape_shape _ _ _ _ E) as [SH P].
    destruct (proj1 G) as (b & n & I). pose proof (good_shape _ _ _ _ G) as S. rewrite S in P.
    assert (V : views r a (fun idx => unrank (rank idx sh') sh) /\ (rmaj a -> rmaj r)).
    { assert (E' := E). unfold nd_reshape in E'. destruct (list_eqb sh' (a_shape a)) eqn:Q.
      - apply list_eqb_spec in Q. injection E' as <-. split; [|apply view_rmaj]. rewrite Q, <- S. unfold nd_view.
        apply reshaped_view_views; [apply (good_wf _ _ _ _ G)|].
        intros idx R. cbv beta. now rewrite unrank_rank.
      - apply bind_Ok_inv in E' as ([] & G1 & E'). apply bind_Ok_inv in E' as ([] & G2 & E').
        apply bind_Ok_inv in E' as (d & G3 & E').
        assert (U : f_unif (a_fl a) = true) by (destruct (f_unif (a_fl a)); [reflexivity|discriminate]).
        assert (NE : a_shape a <> []) by (intros Z; rewrite Z in G3; discriminate).
        split.
        + assert (P' : prod (a_shape a) = prod sh') by congruence.
          destruct (nd_reshape_ok m a sh' (good_wf _ _ _ _ G) (good_flags _ _ _ _ G) (good_nb _ _ _ _ G) U P' (or_introl NE)) as (r' & Er & _ & V & _).
          rewrite E in Er. injection Er as <-. now rewrite <- S.
        + intros RM. apply bind_Ok_inv in E' as (acc & G4 & E'). injection E' as <-. unfold rmaj in *. rewrite reshaped_view_shape, reshaped_view_stride.
          rewrite reshape_strides_spec. cbn [fst]. unfold csub in G3. destruct (_ <? _); [discriminate|]. injection G3 as <-.
          rewrite RM in G4. unfold vget in G4. rewrite rm_last in G4 by auto. injection G4 as <-. apply map_mul1. }
    destruct V as [V RM]. pose proof (good_views _ _ _ _ _ _ G (ex_intro _ b (ex_intro _ n (reshape_inv _ _ _ _ _ _ I E))) V) as H.
    rewrite SH in H. repeat split; auto; [apply V|apply H|apply H].
  Qed.
  Lemma reshape_no_panic h a sh v m sh' : good h a sh v -> prod sh = prod sh' -> sh' = sh \/ (rmaj a /\ sh <> []) ->
    exists r, nd_reshape m a sh' = Ok r.
  Proof.
    intros G P [->|[RM NE]].
    - unfold nd_reshape. destruct (list_eqb sh (a_shape a)) eqn:Q; [eauto|]. rewrite (good_shape _ _ _ _ G) in Q.
      rewrite (proj2 (list_eqb_spec sh sh) eq_refl) in Q. discriminate.
    - destruct (nd_reshape_ok m a sh' (good_wf _ _ _ _ G) (good_flags _ _ _ _ G) (good_nb _ _ _ _ G) (rmaj_uniform _ _ _ _ G RM)) as (r & E & _).
      + now rewrite (good_shape _ _ _ _ G). + left. now rewrite (good_shape _ _ _ _ G). + eauto.
  Qed.

  Lemma axis_inv axis nd k : as_absolute axis nd = Ok k -> k = axis_of axis nd /\ k < nd.
  Proof. intros E. apply as_absolute_inv in E as (L & Q & _). unfold axis_of. split; [|auto]. rewrite <- Q. now rewrite Nat2Z.id. Qed.
  Lemma as_absolute_cases axis nd : as_absolute axis nd = Panic \/ as_absolute axis nd = Ok (axis_of axis nd) /\ axis_of axis nd < nd.
  Proof.
    destruct (as_absolute axis nd) as [k| |] eqn:E; [right|now left|].
    - apply axis_inv in E as [-> L]. auto.
    - unfold as_absolute in E. destruct (_ || _); discriminate.
  Qed.

  Lemma transpose_good h a sh v m a1 a2 : good h a sh v ->
    nd_transpose m a a1 a2 = Panic \/
    exists r, nd_transpose m a a1 a2 = Ok r /\ a_blk r = a_blk a /\
      let i := axis_of a1 (length sh) in let j := axis_of a2 (length sh) in
      i < length sh /\ j < length sh /\ as_absolute a1 (length sh) = Ok i /\ as_absolute a2 (length sh) = Ok j /\
      good h r (swap_at i j sh) (fun k => v (swap_at i j k)).
  Proof.
    intros G. pose proof (good_shape _ _ _ _ G) as S. rewrite <- S.
    destruct (as_absolute_cases a1 (length (a_shape a))) as [E1|[E1 L1]]; [left; unfold nd_transpose; now rewrite E1|].
    destruct (as_absolute_cases a2 (length (a_shape a))) as [E2|[E2 L2]]; [left; unfold nd_transpose; now rewrite E1, E2|].
    right. destruct (nd_transpose_ok m a a1 a2 _ _ (good_wf _ _ _ _ G) E1 E2) as (r & E & SH & V & _).
    exists r. split; [auto|]. split; [apply V|]. cbv zeta. split; [auto|]. split; [auto|]. split; [auto|]. split; [auto|].
    destruct (proj1 G) as (b & n & I). 
    pose proof (good_views _ _ _ _ _ _ G (ex_intro _ b (ex_intro _ n (transpose_inv _ _ _ _ _ _ _ _ I E))) V) as H. now rewrite SH in H.
  Qed.

  Lemma squeeze_good h a sh v m : good h a sh v ->
    good h (nd_squeeze m a) (filter (fun n => negb (n =? 1)) sh) (fun i => v (expand_unit sh i)).
  Proof.
    intros G. pose proof (good_shape _ _ _ _ G) as S.
    destruct (nd_squeeze_ok m a (good_wf _ _ _ _ G)) as (SH & V & _). destruct (proj1 G) as (b & n & I).
    pose proof (good_views _ _ _ _ _ _ G (ex_intro _ b (ex_intro _ n (squeeze_inv _ _ _ _ m I))) V) as H. now rewrite SH, S in H.
  Qed.
  Lemma squeeze_rmaj a m : rmaj a -> rmaj (nd_squeeze m a).
  Proof.
    unfold rmaj, nd_squeeze. intros R. rewrite reshaped_view_shape, reshaped_view_stride, R.
    generalize (a_shape a) as sh. induction sh as [|n sh IH]; [reflexivity|].
    assert (P : forall st, length st = length sh -> prod (map fst (squeeze_axes sh st)) = prod sh).
    { intros st L. rewrite squeeze_shape_spec by auto. apply prod_filter. }
    unfold squeeze_axes in *. cbn [combine rm_stride filter fst]. destruct (n =? 1) eqn:E; cbn [negb]; [apply IH|].
    cbn [map rm_stride fst snd]. rewrite IH. f_equal. symmetry. apply P. apply rm_stride_length.
  Qed.
  Lemma unsqueeze_good h a sh v m axis : good h a sh v ->
    nd_unsqueeze m a axis = Panic \/
    exists r, nd_unsqueeze m a axis = Ok r /\ a_blk r = a_blk a /\
      let k := axis_of axis (length sh + 1) in k <= length sh /\ as_absolute axis (length sh + 1) = Ok k /\
      good h r (insert_at k 1 sh) (fun i => v (delete_at k i)) /\ (rmaj a -> rmaj r).
  Proof.
    intros G. pose proof (good_shape _ _ _ _ G) as S. rewrite <- S.
    destruct (as_absolute_cases axis (length (a_shape a) + 1)) as [E1|[E1 L1]]; [left; unfold nd_unsqueeze; now rewrite E1|].
    right. destruct (nd_unsqueeze_ok m a axis _ (good_wf _ _ _ _ G) E1) as (r & E & SH & V & _).
    exists r. split; [auto|]. split; [apply V|]. cbv zeta. split; [lia|]. split; [auto|].
    destruct (proj1 G) as (b & n & I). 
    pose proof (good_views _ _ _ _ _ _ G (ex_intro _ b (ex_intro _ n (unsqueeze_inv _ _ _ _ _ _ _ I E))) V) as H. rewrite SH in H. split; [auto|].
    intros RM. pose proof (good_wf _ _ _ _ G) as W. unfold rmaj in *. rewrite SH.
    set (k := axis_of axis (length (a_shape a) + 1)) in *. unfold nd_unsqueeze in E. rewrite E1 in E. cbn [bind] in E.
    rewrite rm_stride_insert by lia. unfold wf in W.
    destruct (k =? length (a_shape a)) eqn:Q.
    - apply Nat.eqb_eq in Q. injection E as <-. rewrite reshaped_view_stride, Q. unfold insert_at. rewrite RM.
      rewrite skipn_all, firstn_all2, skipn_all2 by (rewrite ?rm_stride_length; lia). reflexivity.
    - apply Nat.eqb_neq in Q. rewrite vinsert_ok in E by lia. cbn [bind] in E.
      change (firstn k (a_shape a) ++ 1 :: skipn k (a_shape a)) with (insert_at k 1 (a_shape a)) in E.
      apply bind_Ok_inv in E as (s & E2 & E). apply bind_Ok_inv in E as (n1 & E3 & E). rewrite (vget_insert _ _ _ 0) in E3 by lia.
      rewrite vinsert_ok in E by lia. cbn [bind] in E. injection E as <-. rewrite reshaped_view_stride, RM. unfold insert_at. f_equal. f_equal.
      rewrite RM in E2. clear - E2 E3. revert E2 E3. generalize (a_shape a) k. clear. unfold vget.
      induction l as [|n l IH]; intros [|k] E2 E3; cbn in E2, E3; try discriminate.
      + injection E2 as <-. injection E3 as <-. cbn [skipn]. rewrite prod_cons. lia.
      + cbn [skipn]. now apply IH.
  Qed.

  Lemma in_range1 i n : in_range i [n] -> exists a, i = [a] /\ a < n.
  Proof. intros H. inversion H as [|a ? ? ? ? H1]; subst. inversion H1; subst. eauto. Qed.
  Lemma in_range2 i n m : in_range i [n; m] -> exists a b, i = [a; b] /\ a < n /\ b < m.
  Proof. intros H. inversion H as [|a ? ? ? ? H1]; subst. apply in_range1 in H1 as (b & -> & ?). eauto. Qed.
  Lemma in_range3 i q n m : in_range i [q; n; m] -> exists a b c, i = [a; b; c] /\ a < q /\ b < n /\ c < m.
  Proof. intros H. inversion H as [|a ? ? ? ? H1]; subst. apply in_range2 in H1 as (b & c & -> & ?). eauto 6. Qed.

  Lemma transpose_ok_good h a sh v m a1 a2 i j : good h a sh v -> as_absolute a1 (length sh) = Ok i -> as_absolute a2 (length sh) = Ok j ->
    exists r, nd_transpose m a a1 a2 = Ok r /\ a_blk r = a_blk a /\ good h r (swap_at i j sh) (fun k => v (swap_at i j k)).
  Proof.
    intros G E1 E2. destruct (transpose_good h a sh v m a1 a2 G) as [E|(r & E & W & H)].
    - exfalso. rewrite <- (good_shape _ _ _ _ G) in E1, E2. destruct (nd_transpose_ok m a a1 a2 _ _ (good_wf _ _ _ _ G) E1 E2) as (r & E' & _). congruence.
    - exists r. cbv zeta in H. destruct H as (_ & _ & E1' & E2' & G'). rewrite E1 in E1'. rewrite E2 in E2'. injection E1' as ->. injection E2' as ->. auto.
  Qed.
  Lemma T_good h a n k v : good h a [n; k] v ->
    exists r, nd_T ByRef a = Ok r /\ a_blk r = a_blk a /\ good h r [k; n] (fun i => v [nth 1 i 0; nth 0 i 0]).
  Proof.
    intros G. destruct (transpose_ok_good h a [n; k] v ByRef 0 1 0 1 G eq_refl eq_refl) as (r & E & W & G').
    exists r. split; [exact E|]. split; [auto|]. eapply good_v; [exact G'|]. intros i I. apply in_range2 in I as (x & y & -> & _). reflexivity.
  Qed.
  Lemma T12_good h a q n k v : good h a [q; n; k] v ->
    exists r, nd_transpose ByRef a 1 2 = Ok r /\ a_blk r = a_blk a /\ good h r [q; k; n] (fun i => v [nth 0 i 0; nth 2 i 0; nth 1 i 0]).
  Proof.
    intros G. destruct (transpose_ok_good h a [q; n; k] v ByRef 1 2 1 2 G eq_refl eq_refl) as (r & E & W & G').
    exists r. split; [exact E|]. split; [auto|]. eapply good_v; [exact G'|]. intros i I. apply in_range3 in I as (x & y & z & -> & _). reflexivity.
  Qed.
  Lemma unsq1_good h a n v : good h a [n] v ->
    exists r, nd_unsqueeze ByRef a 1 = Ok r /\ a_blk r = a_blk a /\ good h r [n; 1] (fun i => v [nth 0 i 0]).
  Proof.
    intros G. destruct (unsqueeze_good h a [n] v ByRef 1 G) as [E|(r & E & W & H)].
    - exfalso. assert (E1 : as_absolute 1 (length (a_shape a) + 1) = Ok 1) by now rewrite (good_shape _ _ _ _ G).
      destruct (nd_unsqueeze_ok ByRef a 1 1 (good_wf _ _ _ _ G) E1) as (r & E' & _). congruence.
    - exists r. split; [auto|]. split; [auto|]. cbv zeta in H. destruct H as (_ & _ & G' & _). eapply good_v; [exact G'|].
      intros i I. apply in_range2 in I as (x & y & -> & _). reflexivity.
  Qed.
End GViews.

(** ** reduce_gradient *)
(** the axes that reduce_gradient keeps, over the aligned part of the shapes *)
Definition bmask (s t : list nat) : list bool := map (fun p => (fst p =? 1) && (1 <? snd p)) (combine s t).

Lemma keep_true d m : forall l, d <= length l -> keep (repeat true d ++ m) l = keep m (skipn d l).
Proof. induction d as [|d IH]; intros l L; [reflexivity|]. destruct l as [|x l]; cbn in L; [lia|]. cbn [repeat app keep skipn]. apply IH. lia. Qed.

Lemma keep_aligned s t : Forall2 (fun n m => n = 1 \/ n = m) s t -> pos t ->
  prod (keep (bmask s t) t) = prod s /\
  forall j, in_range j t -> in_range (clamp j s) s /\ rank (keep (bmask s t) j) (keep (bmask s t) t) = rank (clamp j s) s.
Proof.
  induction 1 as [|n m s t H H2 IH]; intros P.
  - split; [reflexivity|]. intros j R. inversion R. split; [constructor|reflexivity].
  - pose proof (Forall_inv P) as Pm. cbv beta in Pm. apply Forall_inv_tail in P. destruct (IH P) as [IP IR].
    cbn [bmask combine map fst snd]. fold (bmask s t). destruct (n =? 1) eqn:E1; cbn [andb].
    + apply Nat.eqb_eq in E1. subst n. destruct (1 <? m) eqn:E2; cbn [keep].
      * split; [rewrite prod_cons; lia|]. intros j R. inversion R; subst. destruct (IR _ H5) as [R1 R2].
        cbn [clamp]. cbn [Nat.eqb]. split; [constructor; [lia|auto]|]. cbn [keep rank]. lia.
      * apply Nat.ltb_ge in E2. assert (m = 1) by lia. subst m. split; [rewrite !prod_cons; lia|]. intros j R. inversion R; subst.
        destruct (IR _ H5) as [R1 R2]. cbn [clamp]. cbn [Nat.eqb]. split; [constructor; [lia|auto]|]. cbn [keep rank]. match goal with H : ?x < 1 |- _ => assert (x = 0) by lia; subst x end. lia.
    + apply Nat.eqb_neq in E1. assert (n = m) by (destruct H; congruence). subst m. cbn [keep]. split; [rewrite !prod_cons; lia|].
      intros j R. inversion R; subst. destruct (IR _ H5) as [R1 R2]. cbn [clamp]. apply Nat.eqb_neq in E1. rewrite E1.
      split; [constructor; auto|]. cbn [keep rank]. rewrite IP, R2. reflexivity.
Qed.

Lemma bcast_mask s t A : broadcastable s t -> get_broadcasted_axes t s = Ok A ->
  mask_of (length t) A = repeat true (length t - length s) ++ bmask s (skipn (length t - length s) t) /\
  NoDup A /\ Forall (fun k => k < length t) A.
Proof.
  intros [L FA] E. unfold get_broadcasted_axes in E. destruct (length t <? length s) eqn:Q; [discriminate|]. injection E as <-.
  set (diff := length t - length s) in *.
  assert (SP : forall k, In k (bcast_axes_go 0 diff t s) <-> k < length t /\ (k < diff \/ (nth (k - diff) s 0 = 1 /\ 1 < nth k t 0))).
  { intros k. rewrite bcast_axes_go_spec by (unfold diff; lia). rewrite Nat.sub_0_r, Nat.max_r by lia. split; intros [? ?]; split; auto; lia. }
  split; [|split].
  - apply nth_error_ext_len. intros k. destruct (Nat.ltb_spec k (length t)) as [K|K].
    + rewrite mask_of_nth by auto. destruct (Nat.ltb_spec k diff) as [K1|K1].
      * rewrite nth_error_app1 by (rewrite repeat_length; auto). rewrite nth_error_repeat by auto. f_equal. apply existsb_In, SP. lia.
      * rewrite nth_error_app2 by (rewrite repeat_length; auto). rewrite repeat_length. unfold bmask. rewrite nth_error_map.
        assert (LS : length (skipn diff t) = length s) by (rewrite skipn_length; unfold diff; lia).
        assert (KS : k - diff < length s) by (unfold diff in *; lia).
        rewrite (nth_error_nth' _ (0, 0)) by (rewrite combine_length; lia). rewrite combine_nth by lia. cbn [option_map fst snd].
        rewrite nth_skipn. replace (diff + (k - diff)) with k by lia. f_equal. apply eq_true_iff_eq. rewrite existsb_In, SP, andb_true_iff, Nat.eqb_eq, Nat.ltb_lt.
        split; [intros (_ & [?|?]); [lia|auto]|auto].
    + rewrite !(proj2 (nth_error_None _ _)); [reflexivity| |].
      * rewrite app_length, repeat_length. unfold bmask. rewrite map_length, combine_length, skipn_length. unfold diff. lia.
      * unfold mask_of. rewrite map_length, seq_length. lia.
  - destruct (bcast_axes_go_sorted t 0 diff s) as [ST _]. clear -ST. induction ST; constructor; auto.
    intros I. rewrite Forall_forall in H. specialize (H _ I). lia.
  - rewrite Forall_forall. intros k I. now apply SP in I.
Qed.

Section Reduce.
  Context {T : Type} (N : num T) (inv0 : T -> T).
  Hypothesis F : is_field N inv0.
  Implicit Types h : heap T.

  Lemma foldM_total vs acc : foldM (fun v a => Ok (nadd N a v)) vs acc = Ok (nadd N acc (total N vs)).
  Proof.
    revert acc. induction vs as [|v vs IH]; intros acc; cbn [foldM].
    - rewrite (total_nil N). destruct (fld_csr _ _ F). now rewrite csr_add_comm, csr_add_0.
    - cbn [bind]. rewrite IH, (total_cons N). destruct (fld_csr _ _ F). now rewrite csr_add_assoc.
  Qed.

  (** does the sum over the broadcast axes leave any axis? *)
  Definition some_kept (s t : list nat) : bool :=
    existsb (fun p => negb ((fst p =? 1) && (1 <? snd p))) (combine s (skipn (length t - length s) t)).

  Lemma reduce_sum_ok h g s t v A : good h g t v -> length t <= MAX_DIMS -> broadcastable s t ->
    get_broadcasted_axes t s = Ok A ->
    exists h' r, a_sum_along N h g (map Z.of_nat A) = Ok (h', r) /\
      made h h' r (drop_axes A t) (fun o => total N (map v (fibre A t o))).
  Proof.
    intros G MD B E. destruct (bcast_mask _ _ _ B E) as (_ & ND & FA). pose proof (good_shape _ _ _ _ G) as S.
    assert (F2 : Forall2 (fun ax k => as_absolute ax (length (a_shape g)) = Ok k) (map Z.of_nat A) A).
    { rewrite S. clear -FA. induction FA; cbn [map]; constructor; auto. now apply as_absolute_nat. }
    pose proof (nd_reduce_along_eq (fun v acc => Ok (nadd N acc v)) h (n0 N) g (map Z.of_nat A) A (good_valid _ _ _ _ G)) as H.
    rewrite S in H. rewrite S in F2. specialize (H MD F2 ND). cbv zeta in H. destruct H as [H _].
    assert (V : forall o, (vs <- mapM (get h g) (fibre A t o);; foldM (fun v acc => Ok (nadd N acc v)) vs (n0 N)) = Ok (total N (map v (fibre A t o)))).
    { intros o. rewrite (mapM_pure_ext (get h g) v).
      - cbn [bind]. rewrite foldM_total. destruct (fld_csr _ _ F). now rewrite csr_add_0.
      - intros x I. apply (good_get _ _ _ _ _ G). unfold fibre in I. apply filter_In in I as [I _]. now apply in_indices. }
    destruct H as (vs & E1 & E2); [intros; rewrite V; eauto|]. do 2 eexists. split; [exact E1|].
    eapply made_of; [apply fresh_result_of; [|exact E2]|intros; apply V|apply rmaj_fresh].
    apply pos_prod. apply good_pos in G. clear -G. unfold drop_axes. unfold pos in *. rewrite Forall_forall in *. intros x I.
    apply in_map_iff in I as ((k & y) & <- & I). apply filter_In in I as [I _]. apply in_combine_r in I. now apply G.
  Qed.

  Lemma drop_kept s t A : pos t -> broadcastable s t -> get_broadcasted_axes t s = Ok A ->
    prod (drop_axes A t) = prod s /\
    (forall j, in_range j t -> in_range (bidx s j) s /\ rank (drop_axes A j) (drop_axes A t) = rank (bidx s j) s) /\
    (drop_axes A t = [] <-> some_kept s t = false).
  Proof.
    intros P B E. destruct (bcast_mask _ _ _ B E) as (M & _ & _). destruct B as [L FA]. set (d := length t - length s) in *.
    assert (Ps : pos (skipn d t)). { unfold pos in *. rewrite Forall_forall in *. intros x I. apply P. rewrite <- (firstn_skipn d t). apply in_or_app. now right. }
    destruct (keep_aligned _ _ FA Ps) as [K1 K2].
    assert (D : drop_axes A t = keep (bmask s (skipn d t)) (skipn d t)).
    { rewrite <- keep_mask, M, keep_true by (unfold d; lia). reflexivity. }
    split; [now rewrite D|]. split.
    - intros j R. pose proof (in_range_length _ _ R) as LJ.
      assert (Dj : drop_axes A j = keep (bmask s (skipn d t)) (skipn d j)).
      { rewrite <- keep_mask, LJ, M, keep_true by (unfold d; lia). reflexivity. }
      assert (Rj : in_range (skipn d j) (skipn d t)).
      { rewrite <- (firstn_skipn d j), <- (firstn_skipn d t) in R. apply in_range_app in R; [tauto|]. rewrite !firstn_length. lia. }
      destruct (K2 _ Rj) as [Q1 Q2]. unfold bidx. rewrite LJ. fold d. split; [auto|]. now rewrite D, Dj.
    - rewrite D. unfold some_kept. fold d. clear -FA. generalize dependent (skipn d t). intros t'. induction 1 as [|n m s t' H H2 IH]; [now split|].
      cbn [bmask combine map keep existsb fst snd]. fold (bmask s t'). destruct ((n =? 1) && (1 <? m)); cbn [negb orb]; [exact IH|]. split; discriminate.
  Qed.

  (** reduce_gradient: the sums over the fibres of the broadcast index map.  It panics exactly
      when nothing is left to sum to and the operand is not a scalar. *)
  Lemma reduce_gradient_ok h g s t v : good h g t v -> length t <= MAX_DIMS -> broadcastable s t ->
    (reduce_gradient N h g s = Panic /\ s <> t /\ s <> [] /\ some_kept s t = false) \/
    ((s = t \/ s = [] \/ some_kept s t = true) /\
     exists h' r, reduce_gradient N h g s = Ok (h', r) /\ extends h h' /\
      (s = t /\ h' = h /\ r = nd_view ByRef g \/ a_blk r = length h /\ rmaj r) /\ good h' r s (fibre_sum N t (bidx s) v)).
  Proof.
    intros G MD B. unfold reduce_gradient. rewrite (good_shape _ _ _ _ G). destruct (list_eqb t s) eqn:Q.
    - apply list_eqb_spec in Q. subst s. right. split; [auto|]. do 2 eexists. split; [reflexivity|]. split; [split; auto|]. split; [auto|].
      eapply good_v; [apply view_good, G|]. intros i R. unfold fibre_sum.
      rewrite (filter_ext_in _ (fun j => if list_eq_dec Nat.eq_dec j i then true else false)).
      2:{ intros j J. apply in_indices in J. now rewrite bidx_same. }
      assert (H : filter (fun j => if list_eq_dec Nat.eq_dec j i then true else false) (indices t) = [i]).
      { pose proof (NoDup_indices t) as ND. apply in_indices in R. revert ND R. generalize (indices t) as l. induction l as [|x l IH]; intros ND R; [destruct R|].
        inversion ND; subst. cbn [filter]. destruct (list_eq_dec Nat.eq_dec x i) as [->|NE].
        - f_equal. clear IH. rewrite (filter_ext_in _ (fun _ => false)); [apply filter_false|]. intros y Y. destruct (list_eq_dec _ y i); [subst; contradiction|reflexivity].
        - destruct R as [R|R]; [congruence|]. auto. }
      rewrite H. cbn [map]. rewrite (total_cons N), (total_nil N). destruct (fld_csr _ _ F). now rewrite csr_add_comm, csr_add_0.
    - assert (NE : t <> s) by (intros E; apply list_eqb_spec in E; congruence).
      assert (EA : exists A, get_broadcasted_axes t s = Ok A).
      { unfold get_broadcasted_axes. destruct B as [L _]. destruct (length t <? length s) eqn:Q2; [apply Nat.ltb_lt in Q2; lia|eauto]. }
      destruct EA as (A & EA). rewrite EA. cbn [bind]. destruct (reduce_sum_ok _ _ _ _ _ _ G MD B EA) as (h1 & r1 & E1 & X1 & B1 & G1 & R1).
      rewrite E1. cbn [bind]. destruct (drop_kept _ _ _ (good_pos _ _ _ _ G) B EA) as (P & RK & SK).
      destruct (list_eq_dec Nat.eq_dec (drop_axes A t) []) as [Z|Z].
      + apply SK in Z as SK1. destruct s as [|n s'].
        * right. split; [auto|]. destruct (reshape_no_panic _ _ _ _ ByValue [] G1) as (r & E2); [auto|left; now rewrite Z|].
          destruct (reshape_good _ _ _ _ ByValue [] G1) as [E3|(r' & E3 & Br & _ & Gr & Rr)]; [congruence|]. rewrite E2 in E3. injection E3 as <-.
          rewrite E2. cbn [bind]. do 2 eexists. split; [reflexivity|]. split; [auto|]. split; [right; split; [congruence|auto]|].
          eapply good_v; [exact Gr|]. intros i R. inversion R; subst. rewrite Z. cbn [rank]. unfold fibre_sum, fibre. f_equal. f_equal.
          apply filter_ext_in. intros j J. assert (Ej : drop_axes A j = []).
          { apply in_indices, in_range_length in J. clear -Z J. unfold drop_axes in *. apply map_eq_nil in Z.
            assert (H : forall k, In k (seq 0 (length t)) -> existsb (Nat.eqb k) A = true).
            { intros k K. destruct (existsb (Nat.eqb k) A) eqn:E; [auto|]. exfalso. apply in_seq in K.
              assert (I : In (k, nth k t 0) (combine (seq 0 (length t)) t)).
              { replace (k, nth k t 0) with (nth k (combine (seq 0 (length t)) t) (0, 0)).
                - apply nth_In. rewrite combine_length, seq_length. lia.
                - rewrite combine_nth by (now rewrite seq_length). rewrite seq_nth by lia. reflexivity. }
              assert (I2 : In (k, nth k t 0) []). { rewrite <- Z. apply filter_In. cbn [fst]. rewrite E. auto. } destruct I2. }
            rewrite <- J in H. rewrite (filter_ext_in _ (fun _ => false)); [now rewrite filter_false|]. intros (k & x) I. apply in_combine_l in I. cbn [fst]. now rewrite H. }
          rewrite Ej. unfold bidx. destruct (skipn _ j); reflexivity.
        * left. split; [|repeat split; auto; discriminate]. unfold nd_reshape. rewrite (good_shape _ _ _ _ G1), Z.
          destruct (list_eqb (n :: s') []) eqn:Q3; [apply list_eqb_spec in Q3; discriminate|]. unfold guard. destruct (f_unif (a_fl r1)); [|reflexivity].
          cbn [bind]. destruct (_ =? _); reflexivity.
      + right. assert (SK1 : some_kept s t = true) by (destruct (some_kept s t); [auto|exfalso; apply Z, SK; auto]). split; [auto|].
        destruct (reshape_no_panic _ _ _ _ ByValue s G1) as (r & E2); [auto|auto|].
        destruct (reshape_good _ _ _ _ ByValue s G1) as [E3|(r' & E3 & Br & _ & Gr & Rr)]; [congruence|]. rewrite E2 in E3. injection E3 as <-.
        rewrite E2. cbn [bind]. do 2 eexists. split; [reflexivity|]. split; [auto|]. split; [right; split; [congruence|auto]|].
        eapply good_v; [exact Gr|]. intros i R. unfold fibre_sum, fibre. f_equal. f_equal. apply filter_ext_in. intros j J. apply in_indices in J.
        destruct (RK j J) as [R1' R2]. destruct (bcast_mask _ _ _ B EA) as (M & _).
        assert (RI : rank i s < prod (drop_axes A t)) by (rewrite P; now apply rank_lt). apply unrank_in_range in RI as [RI1 RI2].
        assert (RJ : in_range (drop_axes A j) (drop_axes A t)).
        { rewrite <- !keep_mask, (in_range_length _ _ J). apply keep_in_range; [unfold mask_of; now rewrite map_length, seq_length|auto]. }
        destruct (list_eq_dec Nat.eq_dec (drop_axes A j) _) as [E|E], (list_eq_dec Nat.eq_dec (bidx s j) i) as [E'|E']; auto; exfalso.
        * apply E'. apply (rank_inj _ _ s); auto. rewrite <- R2, E, RI2. reflexivity.
        * apply E. apply (rank_inj _ _ (drop_axes A t)); auto. rewrite R2, RI2, E'. reflexivity.
  Qed.
End Reduce.
