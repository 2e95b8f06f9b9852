(** PropsWordViews.v: view operations and iteration on machine words (C70). *)
From Coq Require Import List Arith Lia Bool ZArith.
From Verif Require Import Base Spec Layout SpecFacts LayoutFacts Views ViewsFacts ViewsFacts2 ViewsFacts3 Kernels Access HeapFacts KernelFacts OpFacts
  AccessFacts Chain ChainFacts PropsViews PropsOps Einsum EinsumParse Nested PropsEinsum Prog PropsProg Word PropsWord WordViews.
Import ListNotations.
Open Scope res_scope.

(** ** With overflow checks: the result of the nat model, or a panic *)
Definition upto {A} (x y : res A) : Prop := x = Panic \/ x = y.

Lemma upto_refl {A} (x : res A) : upto x x.
Proof. now right. Qed.

Lemma upto_bind {A B} (x y : res A) (f g : A -> res B) : upto x y -> (forall v, y = Ok v -> upto (f v) (g v)) -> upto (bind x f) (bind y g).
Proof. intros [-> | ->] H; [now left|]. destruct y; cbn [bind]; [now apply H|now left|now right]. Qed.

Lemma upto_same {A B} (x : res A) (f g : A -> res B) : (forall v, x = Ok v -> upto (f v) (g v)) -> upto (bind x f) (bind x g).
Proof. apply upto_bind, upto_refl. Qed.

(** a computation whose nat version is the plain value [v] *)
Lemma upto_val {A B} (x : res A) v (f : A -> res B) y : upto x (Ok v) -> upto (f v) y -> upto (bind x f) y.
Proof. intros [-> | ->] H; [now left|exact H]. Qed.

Section CheckedBuild.
  Variable W : nat.

  Lemma word_upto x : upto (word W Checked x) (Ok x).
  Proof. cbn [word]. destruct (x <? W); [now right|now left]. Qed.

  Lemma wsub_upto a b : upto (wsub W Checked a b) (csub a b).
  Proof. cbn [wsub]. destruct (csub a b) as [d| |]; cbn [bind]; [|now left|now right]. destruct (d <? W); [now right|now left]. Qed.

  Lemma wprod_upto sh : upto (wprod W Checked sh) (Ok (prod sh)).
  Proof. unfold wprod. destruct (wprod_checked_res W sh 1) as [H|(v & H)]; rewrite H; [now left|]. apply wprod_checked_exact in H as [-> _]. right. f_equal. lia. Qed.

  Lemma wuniform_go_upto sh : forall s st, upto (wuniform_go W Checked s sh st) (Ok (has_uniform_go s sh st)).
  Proof.
    induction sh as [|n sh IH]; intros s [|s' st]; cbn [wuniform_go has_uniform_go]; try apply upto_refl.
    destruct (s =? 0); cbn [negb andb]; [apply IH|]. eapply upto_val; [apply word_upto|]. destruct (s =? n * s'); cbn [negb]; [apply IH|apply upto_refl].
  Qed.

  Lemma wflags_upto fl sh st : upto (wflags W Checked fl sh st) (Ok (update_flags fl sh st)).
  Proof.
    unfold wflags, update_flags. eapply upto_val; [|apply upto_refl].
    destruct sh as [|n sh], st as [|s st]; cbn [wuniform has_uniform_stride]; try apply upto_refl. apply wuniform_go_upto.
  Qed.

  Lemma wrv_upto m a sh st : upto (wreshaped_view W Checked m a sh st) (Ok (reshaped_view m a sh st)).
  Proof. unfold wreshaped_view, reshaped_view. eapply upto_val; [apply wflags_upto|]. destruct m; [|apply upto_refl]. eapply upto_val; [apply wprod_upto|apply upto_refl]. Qed.

  Lemma wrvo_upto a o sh st : upto (wreshaped_view_with_offset W Checked a o sh st) (Ok (reshaped_view_with_offset a o sh st)).
  Proof. unfold wreshaped_view_with_offset, reshaped_view_with_offset. eapply upto_val; [apply wflags_upto|]. eapply upto_val; [apply wprod_upto|apply upto_refl]. Qed.

  Lemma wstrides_upto acc sh : upto (wstrides W Checked acc sh) (Ok (reshape_strides acc sh)).
  Proof.
    induction sh as [|n sh IH]; cbn [wstrides reshape_strides]; [apply upto_refl|]. eapply upto_val; [exact IH|].
    destruct (reshape_strides acc sh) as [st p]. cbn [fst snd]. eapply upto_val; [apply word_upto|apply upto_refl].
  Qed.

  Lemma wlength_upto ix n : upto (windexed_length W Checked ix n) (indexed_length ix n).
  Proof.
    destruct ix; cbn [windexed_length indexed_length]; try apply upto_refl; try apply wsub_upto.
    - apply upto_bind; [apply wsub_upto|]. intros d _. apply word_upto.
    - apply word_upto.
  Qed.

  Lemma wlen_upto sh : forall acc st, upto (wlen_from W Checked acc sh st) (r <- strided_len_sum sh st ;; Ok (acc + r)).
  Proof.
    induction sh as [|n sh IH]; intros acc [|s st]; cbn [wlen_from strided_len_sum bind]; try (right; f_equal; lia).
    destruct (wsub_upto n 1) as [-> | ->]; [now left|]. destruct (csub n 1) as [d| |]; cbn [bind]; [|now left|now right].
    eapply upto_val; [apply word_upto|]. eapply upto_val; [apply word_upto|]. destruct (IH (acc + s * d) st) as [-> | ->]; [now left|right].
    destruct (strided_len_sum sh st); cbn [bind]; [f_equal; lia|reflexivity|reflexivity].
  Qed.

  Lemma wstrided_len_upto sh st : upto (wstrided_len W Checked sh st) (strided_len sh st).
  Proof.
    unfold wstrided_len, strided_len. destruct (wlen_upto sh 0 st) as [-> | ->]; [now left|]. destruct (strided_len_sum sh st) as [r| |]; cbn [bind]; [|now left|now right].
    apply word_upto.
  Qed.

  Lemma wslice_go_upto ixs : forall acc sh st, upto (wslice_go W Checked acc ixs sh st)
    (r <- slice_go ixs sh st ;; let '(o, sh1, st1) := r in Ok (acc + o, sh1, st1)).
  Proof.
    induction ixs as [|ix ixs IH]; intros acc sh st; cbn [wslice_go slice_go bind]; [right; do 3 f_equal; lia|].
    destruct sh as [|n sh], st as [|s st]; try (now left).
    destruct (wlength_upto ix n) as [-> | ->]; [now left|]. destruct (indexed_length ix n) as [l| |]; cbn [bind]; [|now left|now right].
    eapply upto_val; [apply word_upto|]. eapply upto_val; [apply word_upto|]. destruct (IH (acc + s * index_first ix) sh st) as [-> | ->]; [now left|right].
    destruct (slice_go ixs sh st) as [((o & sh1) & st1)| |]; cbn [bind]; [|reflexivity|reflexivity].
    destruct (index_collapses ix); cbn [bind]; do 3 f_equal; lia.
  Qed.

  Lemma wrse_upto labels out shape stride n : forall idim nsh nst,
    upto (wrse_go W Checked labels out shape stride idim n nsh nst) (rse_go labels out shape stride idim n nsh nst).
  Proof.
    induction n as [|n IH]; intros idim nsh nst; cbn [wrse_go rse_go]; [apply upto_refl|].
    apply upto_same. intros label _. destruct (label =? 0)%Z; [apply upto_refl|]. destruct (position out label) as [ax|]; [|apply upto_refl].
    apply upto_same. intros d _. apply upto_same. intros nsh' _. apply upto_same. intros s _. apply upto_same. intros old _.
    eapply upto_val; [apply word_upto|]. apply upto_same. intros nst' _. apply IH.
  Qed.

  Lemma wsome_upto {A} (x y : res A) : upto x y -> upto (r <- x ;; Ok (Some r)) (r <- y ;; Ok (Some r)).
  Proof. intros H. apply upto_bind; [exact H|]. intros v _. apply upto_refl. Qed.

  Lemma view_checked o a : upto (wview_by W Checked o a) (view_by o a).
  Proof.
    destruct o; cbn [wview_by view_by].
    - eapply upto_val; [apply wrv_upto|apply upto_refl].
    - apply wsome_upto. unfold wv_reshape, nd_reshape. destruct (list_eqb sh (a_shape a)); [apply wrv_upto|].
      apply upto_same. intros _ _. eapply upto_val; [apply wprod_upto|]. eapply upto_val; [apply wprod_upto|].
      apply upto_same. intros _ _. apply upto_bind; [apply wsub_upto|]. intros d _. apply upto_same. intros acc _.
      eapply upto_val; [apply wstrides_upto|]. apply wrv_upto.
    - apply wsome_upto. unfold wv_transpose, nd_transpose. repeat (apply upto_same; intros ? _). apply wrv_upto.
    - eapply upto_val; [apply wrv_upto|apply upto_refl].
    - apply wsome_upto. unfold wv_unsqueeze, nd_unsqueeze. apply upto_same; intros ax _. destruct (ax =? length (a_shape a)); [apply wrv_upto|].
      apply upto_same; intros ? _. apply upto_same; intros ? _. apply upto_same; intros ? _. eapply upto_val; [apply word_upto|]. apply upto_same; intros ? _. apply wrv_upto.
    - apply wsome_upto. unfold wv_slice, nd_slice. destruct (wslice_go_upto ixs 0 (a_shape a) (a_stride a)) as [-> | ->]; [now left|].
      destruct (slice_go ixs (a_shape a) (a_stride a)) as [((o & sh) & st)| |]; cbn [bind]; [|now left|now right].
      rewrite Nat.add_0_l. apply upto_bind; [apply wstrided_len_upto|]. intros len _. eapply upto_val; [apply wflags_upto|apply upto_refl].
    - apply wsome_upto. unfold wv_slice_along, nd_slice_along. apply upto_same; intros ax _. apply upto_same; intros n _. apply upto_same; intros s _.
      apply upto_bind.
      + destruct (index_collapses ix); [apply upto_refl|]. apply upto_bind; [apply wlength_upto|]. intros l _. apply upto_refl.
      + intros (sh & st) _. eapply upto_val; [apply word_upto|]. apply upto_bind; [apply wstrided_len_upto|]. intros len _. eapply upto_val; [apply wflags_upto|apply upto_refl].
    - apply wsome_upto. unfold wv_diagonal, nd_offset_diagonal_along. repeat (apply upto_same; intros ? _). apply upto_bind.
      + destruct (0 <=? o)%Z.
        * destruct (Nat.leb_spec v4 (Z.to_nat o)); [apply upto_refl|]. eapply upto_val; [apply word_upto|]. apply upto_val with (v := v4 - (Z.to_nat o)); [|apply upto_refl].
          destruct (wsub_upto v4 (Z.to_nat o)) as [-> | ->]; [now left|]. unfold csub. rewrite (proj2 (Nat.ltb_ge _ _)) by lia. apply upto_refl.
        * destruct (Nat.leb_spec v3 (Z.to_nat (- o))); [apply upto_refl|]. eapply upto_val; [apply word_upto|]. apply upto_val with (v := v3 - (Z.to_nat (- o))); [|apply upto_refl].
          destruct (wsub_upto v3 (Z.to_nat (- o))) as [-> | ->]; [now left|]. unfold csub. rewrite (proj2 (Nat.ltb_ge _ _)) by lia. apply upto_refl.
      + intros ((po & d1) & d2) _. eapply upto_val; [apply word_upto|]. apply wrvo_upto.
    - unfold wv_einsum, einsum_view. apply upto_same. intros (((labels & counts) & dims) & bd) _. apply upto_same. intros outl _.
      unfold reshape_for_einsum. apply upto_bind; [apply wrse_upto|]. intros [(nsh & nst)|] _; [|apply upto_refl]. eapply upto_val; [apply wrv_upto|apply upto_refl].
    - apply wsome_upto. unfold wv_broadcast_to, nd_broadcast_to. apply upto_same; intros ? _. apply upto_same; intros ? _.
      eapply upto_val; [apply wrv_upto|apply upto_refl].
  Qed.

  Lemma wcollapse_go_upto sh : forall n s st, upto (wcollapse_go W Checked n s sh st) (Ok (collapse_go n s sh st)).
  Proof.
    induction sh as [|n' sh IH]; intros n s [|s' st]; cbn [wcollapse_go collapse_go]; try apply upto_refl.
    eapply upto_val; [apply word_upto|]. destruct ((s =? n' * s') || ((s =? 0) && (n =? 1))).
    - eapply upto_val; [apply word_upto|]. apply IH.
    - eapply upto_val; [apply IH|]. destruct (collapse_go n' s' sh st). apply upto_refl.
  Qed.

  Lemma wfig_carry_upto sh : forall st idx flat, upto (wfig_carry W Checked sh st idx flat) (fig_carry sh st idx flat).
  Proof.
    induction sh as [|n sh IH]; intros [|s st] [|i idx] flat; cbn [wfig_carry fig_carry]; try apply upto_refl.
    apply upto_bind; [apply IH|]. intros ((idx1 & flat1) & c) _. destruct c; [|apply upto_refl]. eapply upto_val; [apply word_upto|].
    destruct (i + 1 <? n); [eapply upto_val; [apply word_upto|apply upto_refl]|]. apply upto_bind; [apply wsub_upto|]. intros d _.
    eapply upto_val; [apply word_upto|]. apply upto_bind; [apply wsub_upto|]. intros f _. apply upto_refl.
  Qed.

  Lemma wfig_run_upto fuel : forall g, upto (wfig_run W Checked fuel g) (fig_run fuel g).
  Proof.
    induction fuel as [|fuel IH]; intros g; cbn [wfig_run fig_run]; [apply upto_refl|]. apply upto_bind.
    - unfold wfig_next, fig_next. destruct (g_iter g =? g_size g); [apply upto_refl|]. apply upto_bind; [apply wfig_carry_upto|].
      intros ((idx & flat) & c) _. eapply upto_val; [apply word_upto|apply upto_refl].
    - intros [(i & g')|] _; [|apply upto_refl]. apply upto_bind; [apply IH|]. intros l _. apply upto_refl.
  Qed.

  Lemma wfig_list_upto sh st : upto (wfig_list W Checked sh st) (fig_list sh st).
  Proof.
    unfold wfig_list, fig_list. apply upto_bind; [|intros g _; apply wfig_run_upto]. unfold wfig_from, fig_from.
    assert (H : upto (wcollapse W Checked sh st) (Ok (collapse sh st))) by (destruct sh, st; cbn [wcollapse collapse]; try apply upto_refl; apply wcollapse_go_upto).
    eapply upto_val; [exact H|]. destruct (collapse sh st) as [s t]. eapply upto_val; [apply wprod_upto|apply upto_refl].
  Qed.
End CheckedBuild.

(** for every word size, every array and every request, the build with overflow checks returns
    what the nat model returns, or panics *)
Theorem C70_checked : forall W o a, wview_by W Checked o a = view_by o a \/ wview_by W Checked o a = Panic.
Proof. intros W o a. destruct (view_checked W o a); auto. Qed.
Print Assumptions C70_checked.

Theorem C70_checked_iteration : forall W sh st, wfig_list W Checked sh st = fig_list sh st \/ wfig_list W Checked sh st = Panic.
Proof. intros W sh st. destruct (wfig_list_upto W sh st); auto. Qed.
Print Assumptions C70_checked_iteration.

(** ** Reachable arrays: no addition, product or difference leaves the words *)
Record fits (W n : nat) (sh st : list nat) : Prop := {
  fit_len : length st = length sh;
  fit_pos : pos sh;
  fit_in : forall idx, in_range idx sh -> dot idx st < n;
  fit_half : 2 * n <= W;
  fit_st : Forall (fun s => s < W) st;
  fit_prod : prod sh < W }.

Lemma fits_cons W n d sh s st : fits W n (d :: sh) (s :: st) -> 0 < d < W /\ d * s < W /\ fits W n sh st.
Proof.
  intros [L P I H F Q]. inversion P; subst. inversion F; subst. rewrite prod_cons in Q. pose proof (proj1 (pos_prod sh) H3) as PP.
  assert (D : (d - 1) * s < n). { pose proof (axis_fits (d :: sh) (s :: st) 0 n L P I). cbn [nth length] in H0. apply H0. lia. }
  split; [nia|]. split; [destruct (Nat.eq_dec d 1) as [-> |]; nia|]. constructor; auto; try (cbn [length] in L; lia); try nia.
  intros idx R. specialize (I (0 :: idx)). cbn [dot] in I. apply I. constructor; [lia|exact R].
Qed.

Lemma fits_n W n sh st : fits W n sh st -> 0 < n < W.
Proof.
  intros F. pose proof (fit_in _ _ _ _ F (repeat 0 (length sh))) as H. pose proof (fit_half _ _ _ _ F).
  specialize (H (in_range_zeros _ (proj1 (pos_prod _) (fit_pos _ _ _ _ F)))). lia.
Qed.

Section Fit.
  Variable W : nat.
  Variable bld : build.

  Lemma wsub_ok a b d : csub a b = Ok d -> d < W -> wsub W bld a b = Ok d.
  Proof.
    intros E L. destruct bld; cbn [wsub]; [rewrite E; cbn [bind]; now rewrite (proj2 (Nat.ltb_lt _ _) L)|]. unfold csub in E. destruct (Nat.ltb_spec a b); [discriminate|]. injection E as <-.
    f_equal. replace (a + W - b) with ((a - b) + 1 * W) by lia. rewrite Nat.mod_add by lia. now apply Nat.mod_small.
  Qed.

  Lemma wsub_le a b : b <= a -> a < W -> wsub W bld a b = Ok (a - b).
  Proof. intros L H. apply wsub_ok; [|lia]. unfold csub. now rewrite (proj2 (Nat.ltb_ge _ _) L). Qed.

  Lemma wuniform_go_ok n sh : forall s st, fits W n sh st -> wuniform_go W bld s sh st = Ok (has_uniform_go s sh st).
  Proof.
    induction sh as [|d sh IH]; intros s [|s' st] F; cbn [wuniform_go has_uniform_go]; try reflexivity.
    apply fits_cons in F as (_ & P & F). rewrite word_ok by exact P. cbn [bind]. destruct (s =? 0); cbn [negb andb]; [now apply IH|].
    destruct (s =? d * s'); cbn [negb]; [now apply IH|reflexivity].
  Qed.

  Lemma wflags_ok n fl sh st : fits W n sh st -> wflags W bld fl sh st = Ok (update_flags fl sh st).
  Proof.
    intros F. unfold wflags, update_flags, wuniform, has_uniform_stride. destruct sh as [|d sh], st as [|s st]; cbn [bind]; try reflexivity.
    apply fits_cons in F as (_ & _ & F). rewrite (wuniform_go_ok n) by exact F. reflexivity.
  Qed.

  Lemma wprod_fits n sh st : fits W n sh st -> wprod W bld sh = Ok (prod sh).
  Proof. intros F. pose proof (proj1 (pos_prod _) (fit_pos _ _ _ _ F)). pose proof (fit_prod _ _ _ _ F). unfold wprod. rewrite wprod_from_ok by lia. f_equal. lia. Qed.

  Lemma wrv_ok n m a sh st : fits W n sh st -> wreshaped_view W bld m a sh st = Ok (reshaped_view m a sh st).
  Proof. intros F. unfold wreshaped_view, reshaped_view. rewrite (wflags_ok n) by exact F. cbn [bind]. destruct m; [|reflexivity]. now rewrite (wprod_fits n sh st F). Qed.

  Lemma wrvo_ok n a o sh st : fits W n sh st -> wreshaped_view_with_offset W bld a o sh st = Ok (reshaped_view_with_offset a o sh st).
  Proof. intros F. unfold wreshaped_view_with_offset, reshaped_view_with_offset. rewrite (wflags_ok n) by exact F. cbn [bind]. now rewrite (wprod_fits n sh st F). Qed.

  Lemma wlength_ok ix n l : indexed_length ix n = Ok l -> 0 < l < W -> windexed_length W bld ix n = Ok l.
  Proof.
    intros E L. destruct ix; cbn [windexed_length indexed_length] in *; try exact E.
    - apply wsub_ok; [exact E|lia].
    - apply wsub_ok; [exact E|lia].
    - apply bind_Ok_inv in E as (d & E & Q). injection Q as <-. rewrite (wsub_ok _ _ d E) by lia. cbn [bind]. apply word_ok. lia.
    - injection E as <-. apply word_ok. lia.
  Qed.

  Lemma wlen_ok sh : forall acc st r, strided_len_sum sh st = Ok r -> acc + r < W -> Forall (fun d => d < W) sh -> wlen_from W bld acc sh st = Ok (acc + r).
  Proof.
    induction sh as [|d sh IH]; intros acc [|s st] r E L F; cbn [strided_len_sum wlen_from] in *; try (injection E as <-; f_equal; lia).
    inversion F; subst. apply bind_Ok_inv in E as (d' & E1 & E). apply bind_Ok_inv in E as (r' & E2 & E). injection E as <-.
    assert (d = S d'). { unfold csub in E1. destruct d; [discriminate|]. cbn in E1. injection E1 as <-. lia. }
    rewrite (wsub_ok _ _ d' E1) by lia. cbn [bind]. rewrite word_ok by lia. cbn [bind]. rewrite word_ok by lia. cbn [bind].
    rewrite (IH _ _ r') by (auto; lia). f_equal. lia.
  Qed.

  Lemma fits_dims n sh : forall st, fits W n sh st -> Forall (fun d => d < W) sh.
  Proof.
    induction sh as [|d sh IH]; intros [|s st] F; [constructor|constructor| |].
    - pose proof (fit_len _ _ _ _ F). discriminate.
    - apply fits_cons in F as (D & _ & F). constructor; [lia|eauto].
  Qed.

  Lemma wstrided_len_ok n sh st l : fits W n sh st -> strided_len sh st = Ok l -> wstrided_len W bld sh st = Ok l.
  Proof.
    intros F E. pose proof (fits_n _ _ _ _ F) as N. destruct (strided_len_attained sh st l (fit_len _ _ _ _ F) (fit_pos _ _ _ _ F) E) as (idx & R & D).
    pose proof (fit_in _ _ _ _ F idx R). unfold strided_len in E. apply bind_Ok_inv in E as (r & E & Q). injection Q as <-. unfold wstrided_len.
    rewrite (wlen_ok sh 0 st r E) by (try lia; eapply fits_dims; eauto). cbn [bind]. rewrite Nat.add_0_l. apply word_ok. lia.
  Qed.

  Lemma wslice_go_ok ixs : forall acc sh st o sh1 st1, slice_go ixs sh st = Ok (o, sh1, st1) -> pos sh1 -> prod sh1 < W -> acc + o < W ->
    wslice_go W bld acc ixs sh st = Ok (acc + o, sh1, st1).
  Proof.
    induction ixs as [|ix ixs IH]; intros acc sh st o sh1 st1 E P L B; cbn [wslice_go slice_go] in *; [injection E as <- <- <-; do 3 f_equal; lia|].
    destruct sh as [|d sh], st as [|s st]; try discriminate. apply bind_Ok_inv in E as (l & E1 & E). apply bind_Ok_inv in E as (((o' & sh') & st') & E2 & E).
    destruct (index_collapses ix) eqn:C.
    - injection E as <- <- <-. assert (windexed_length W bld ix d = Ok l) as -> by (destruct ix; try discriminate; exact E1). cbn [bind].
      rewrite word_ok by lia. cbn [bind]. rewrite word_ok by lia. cbn [bind]. rewrite (IH _ _ _ o' sh' st') by (auto; lia). cbn [bind]. do 3 f_equal. lia.
    - injection E as <- <- <-. inversion P; subst. pose proof (proj1 (pos_prod _) H2). rewrite prod_cons in L.
      rewrite (wlength_ok ix d l E1) by nia. cbn [bind].
      rewrite word_ok by lia. cbn [bind]. rewrite word_ok by lia. cbn [bind]. rewrite (IH _ _ _ o' sh' st') by (auto; nia). cbn [bind]. do 3 f_equal. lia.
  Qed.

  Lemma rse_grows labels out shape stride n : forall idim nsh nst nsh' nst', rse_go labels out shape stride idim n nsh nst = Ok (Some (nsh', nst')) ->
    forall k x, nth_error nst k = Some x -> exists y, nth_error nst' k = Some y /\ x <= y.
  Proof.
    induction n as [|n IH]; intros idim nsh nst nsh' nst' E k x K; cbn [rse_go] in E; [injection E as <- <-; eauto|].
    apply bind_Ok_inv in E as (label & _ & E). destruct (label =? 0)%Z; [discriminate|]. destruct (position out label) as [ax|]; [|discriminate].
    apply bind_Ok_inv in E as (d & _ & E). apply bind_Ok_inv in E as (nsh1 & _ & E). apply bind_Ok_inv in E as (s & _ & E).
    apply bind_Ok_inv in E as (old & EO & E). apply bind_Ok_inv in E as (nst1 & EU & E). unfold vset in EU. destruct (upd nst ax (old + s)) as [l|] eqn:U; [|discriminate].
    injection EU as <-. pose proof (upd_nth_error _ _ _ _ k U) as N. destruct (Nat.eqb_spec k ax) as [-> |].
    - unfold vget in EO. rewrite K in EO. injection EO as <-. destruct (IH _ _ _ _ _ E ax (x + s) N) as (y & Y & LE). exists y. split; [exact Y|lia].
    - rewrite K in N. eapply IH; eauto.
  Qed.

  Lemma wrse_ok labels out shape stride n : forall idim nsh nst nsh' nst', rse_go labels out shape stride idim n nsh nst = Ok (Some (nsh', nst')) ->
    Forall (fun s => s < W) nst' -> wrse_go W bld labels out shape stride idim n nsh nst = Ok (Some (nsh', nst')).
  Proof.
    induction n as [|n IH]; intros idim nsh nst nsh' nst' E F; cbn [rse_go wrse_go] in *; [exact E|].
    apply bind_Ok_inv in E as (label & -> & E). cbn [bind]. destruct (label =? 0)%Z; [discriminate|]. destruct (position out label) as [ax|]; [|discriminate].
    apply bind_Ok_inv in E as (d & -> & E). cbn [bind]. apply bind_Ok_inv in E as (nsh1 & -> & E). cbn [bind]. apply bind_Ok_inv in E as (s & -> & E). cbn [bind].
    apply bind_Ok_inv in E as (old & EO & E). rewrite EO. cbn [bind]. apply bind_Ok_inv in E as (nst1 & EU & E).
    assert (Q : old + s < W).
    { unfold vset in EU. destruct (upd nst ax (old + s)) as [l|] eqn:U; [|discriminate]. injection EU as <-. pose proof (upd_nth_error _ _ _ _ ax U) as N.
      rewrite Nat.eqb_refl in N. destruct (rse_grows _ _ _ _ _ _ _ _ _ _ E ax _ N) as (y & Y & LE). apply nth_error_In in Y. apply (proj1 (Forall_forall _ _) F) in Y. lia. }
    rewrite word_ok by exact Q. cbn [bind]. rewrite EU. cbn [bind]. now apply IH.
  Qed.
End Fit.

Lemma chain_fits W b n bc a : chain b n bc a -> 2 * n <= W -> Forall (fun s => s < W) (a_stride a) -> 0 < prod (a_shape a) < W -> fits W n (a_shape a) (a_stride a).
Proof.
  intros C H F P. pose proof (chain_inv _ _ _ _ C) as I. constructor; auto; try lia; [apply (i_wf _ _ _ _ I)|apply pos_prod; lia|].
  intros idx R. pose proof (i_in _ _ _ _ I idx R). lia.
Qed.

Lemma chain_off W b n bc a : chain b n bc a -> fits W n (a_shape a) (a_stride a) -> a_off a < n.
Proof.
  intros C F. pose proof (chain_inv _ _ _ _ C) as I. pose proof (i_in _ _ _ _ I (repeat 0 (length (a_shape a)))) as H.
  specialize (H (in_range_zeros _ (proj1 (pos_prod _) (fit_pos _ _ _ _ F)))). lia.
Qed.

Lemma some_inv {A} (x : res A) r : (v <- x ;; Ok (Some v)) = Ok (Some r) -> x = Ok r.
Proof. intros E. apply bind_Ok_inv in E as (v & -> & E). congruence. Qed.

Lemma wreshape_agree W bld b n a m sh r : chain b n false a -> 2 * n <= W -> length (a_shape a) < W -> Forall (fun s => s < W) (a_stride a) -> nd_reshape m a sh = Ok r ->
  fits W n (a_shape r) (a_stride r) -> wv_reshape W bld m a sh = Ok r.
Proof.
  intros C LW LD FS E F. destruct (C59_reachable W bld b n a C LW FS) as (SZ & _). pose proof (chain_size _ _ _ C) as [PA LE].
  unfold wv_reshape, nd_reshape in *. destruct (list_eqb sh (a_shape a)).
  - injection E as <-. unfold nd_view in *. rewrite reshaped_view_shape, reshaped_view_stride in F. now apply (wrv_ok W bld n).
  - apply bind_Ok_inv in E as (u & U & E). rewrite U. cbn [bind]. rewrite SZ. cbn [bind].
    apply bind_Ok_inv in E as (u1 & EG & E). apply bind_Ok_inv in E as (d & ED & E). apply bind_Ok_inv in E as (acc & EV & E).
    assert (EQ : r = reshaped_view m a sh (fst (reshape_strides acc sh))) by congruence. clear E. subst r. rewrite reshaped_view_shape, reshaped_view_stride in F.
    rewrite (wprod_fits W bld n sh _ F). cbn [bind]. rewrite EG. cbn [bind]. pose proof EG as EG'. apply guard_true in EG'. apply Nat.eqb_eq in EG'. apply guard_true in U.
    assert (DL : d < W).
    { apply csub_1 in ED. lia. }
    rewrite (wsub_ok W bld _ _ d ED DL). cbn [bind]. rewrite EV. cbn [bind]. pose proof (chain_uniform _ _ _ _ _ C U ED EV) as H.
    assert (A : acc < W). { apply vget_nth in EV as <-. apply csub_1 in ED.
      apply (proj1 (Forall_forall _ _) FS). apply nth_In. rewrite (i_wf _ _ _ _ (chain_inv _ _ _ _ C)). lia. }
    rewrite wstrides_ok; [|lia|exact A|destruct (Nat.eq_dec (prod sh) 1) as [-> |]; [lia|nia]]. cbn [bind]. now apply (wrv_ok W bld n).
Qed.

(** an operation that respects the rules of reachable arrays (slices in range, no reshape of a
    broadcast, letters as subscripts) gives the same view as in the nat model, in both builds:
    for an allocation of at most half the address space, when axis lengths, strides and the
    number of elements of the view are words *)
Definition wordy (W : nat) (a : arr) : Prop := length (a_shape a) < W /\ Forall (fun d => d < W) (a_shape a) /\ Forall (fun s => s < W) (a_stride a).

Theorem C70_agree : forall W bld b n bc a o r, chain b n bc a -> view_allowed o a bc -> view_by o a = Ok (Some r) ->
  2 * n <= W -> wordy W a -> wordy W r -> 0 < prod (a_shape r) < W ->
  wview_by W bld o a = Ok (Some r).
Proof.
  intros W bld b n bc a o r C A E LW (LD & FD & FS) (_ & _ & FR) P. pose proof (view_by_chain b n bc a o r C A E) as CR.
  pose proof (chain_fits W b n _ r CR LW FR P) as F. pose proof (chain_off W b n _ r CR F) as OR. pose proof (fits_n _ _ _ _ F) as NW.
  destruct o; cbn [view_by wview_by view_allowed] in *; try (apply some_inv in E).
  - injection E as <-. unfold nd_view in *. rewrite reshaped_view_shape, reshaped_view_stride in F. now rewrite (wrv_ok W bld n _ _ _ _ F).
  - subst bc. now rewrite (wreshape_agree W bld b n a m sh r C LW LD FS E F).
  - unfold nd_transpose in E. unfold wv_transpose. apply bind_Ok_inv in E as (i' & -> & E). apply bind_Ok_inv in E as (j' & -> & E). cbn [bind].
    apply bind_Ok_inv in E as (sh & -> & E). apply bind_Ok_inv in E as (st & -> & E). cbn [bind]. injection E as <-.
    rewrite reshaped_view_shape, reshaped_view_stride in F. now rewrite (wrv_ok W bld n _ _ _ _ F).
  - injection E as <-. unfold nd_squeeze in F. rewrite reshaped_view_shape, reshaped_view_stride in F. unfold wv_squeeze. now rewrite (wrv_ok W bld n _ _ _ _ F).
  - unfold nd_unsqueeze in E. unfold wv_unsqueeze. apply bind_Ok_inv in E as (ax & -> & E). cbn [bind]. destruct (ax =? length (a_shape a)).
    + injection E as <-. rewrite reshaped_view_shape, reshaped_view_stride in F. now rewrite (wrv_ok W bld n _ _ _ _ F).
    + apply bind_Ok_inv in E as (sh & -> & E). apply bind_Ok_inv in E as (s & ES & E). apply bind_Ok_inv in E as (d & EN & E). apply bind_Ok_inv in E as (st & EI & E).
      cbn [bind]. rewrite ES. cbn [bind]. rewrite EN. cbn [bind]. injection E as <-. rewrite reshaped_view_shape, reshaped_view_stride in F.
      assert (Q : s * d < W).
      { apply (proj1 (Forall_forall _ _) (fit_st _ _ _ _ F)). clear - EI. revert ax st EI. induction (a_stride a) as [|x l IH]; intros [|ax] st EI; cbn [vinsert] in EI; try discriminate.
        - injection EI as <-. now left.
        - injection EI as <-. now left.
        - apply bind_Ok_inv in EI as (l' & EI & Q). injection Q as <-. right. eauto. }
      rewrite word_ok by exact Q. cbn [bind]. rewrite EI. cbn [bind]. now rewrite (wrv_ok W bld n _ _ _ _ F).
  - unfold nd_slice in E. unfold wv_slice. apply bind_Ok_inv in E as (((o & sh) & st) & ES & E). apply bind_Ok_inv in E as (len & EL & E). injection E as <-.
    cbn [a_shape a_stride a_off] in *. rewrite (wslice_go_ok W bld ixs 0 _ _ o sh st ES) by (try apply F; lia). cbn [bind]. rewrite Nat.add_0_l.
    rewrite (wstrided_len_ok W bld n sh st len F EL). cbn [bind]. rewrite (wflags_ok W bld n) by exact F. reflexivity.
  - unfold nd_slice_along in E. unfold wv_slice_along. apply bind_Ok_inv in E as (ax & EA & E). rewrite EA. cbn [bind]. apply bind_Ok_inv in E as (d & ED & E). apply bind_Ok_inv in E as (s & ES & E).
    rewrite ED, ES. cbn [bind]. apply bind_Ok_inv in E as ((sh & st) & EQ & E). apply bind_Ok_inv in E as (len & EL & E). injection E as <-. cbn [a_shape a_stride a_off] in *.
    assert ((if index_collapses ix then sh <- vremove (a_shape a) ax;; st <- vremove (a_stride a) ax;; Ok (sh, st)
             else l <- windexed_length W bld ix d;; sh <- vset (a_shape a) ax l;; Ok (sh, a_stride a)) = Ok (sh, st)) as ->.
    { destruct (index_collapses ix); [exact EQ|]. apply bind_Ok_inv in EQ as (l & EI & EQ). apply bind_Ok_inv in EQ as (sh' & EU & EQ). injection EQ as <- <-.
      assert (LL : 0 < l < W).
      { assert (IN : In l sh').
        { unfold vset in EU. destruct (upd (a_shape a) ax l) eqn:U; [|discriminate]. injection EU as <-. pose proof (upd_nth_error _ _ _ _ ax U) as N. rewrite Nat.eqb_refl in N. now apply nth_error_In in N. }
        split; [now apply (proj1 (Forall_forall _ _) (fit_pos _ _ _ _ F))|]. now apply (proj1 (Forall_forall _ _) (fits_dims W n _ _ F)). }
      rewrite (wlength_ok W bld ix d l EI LL). cbn [bind]. now rewrite EU. }
    cbn [bind]. rewrite word_ok by lia. cbn [bind]. rewrite (wstrided_len_ok W bld n sh st len F EL). cbn [bind]. rewrite (wflags_ok W bld n) by exact F. reflexivity.
  - unfold nd_offset_diagonal_along in E. unfold wv_diagonal. apply bind_Ok_inv in E as (u & -> & E). cbn [bind].
    apply bind_Ok_inv in E as (ax1 & -> & E). apply bind_Ok_inv in E as (ax2 & -> & E). cbn [bind]. apply bind_Ok_inv in E as (u1 & -> & E). cbn [bind].
    apply bind_Ok_inv in E as (d1 & E1 & E). apply bind_Ok_inv in E as (d2 & E2 & E). rewrite E1, E2. cbn [bind].
    apply bind_Ok_inv in E as (s1 & -> & E). apply bind_Ok_inv in E as (s2 & -> & E). cbn [bind]. apply bind_Ok_inv in E as (((po & e1) & e2) & EQ & E).
    assert (ER : r = reshaped_view_with_offset a po (drop_two 0 ax1 ax2 (a_shape a) ++ [Nat.min e1 e2]) (drop_two 0 ax1 ax2 (a_stride a) ++ [s1 + s2])) by congruence.
    clear E. subst r. cbn [reshaped_view_with_offset a_shape a_stride a_off] in *.
    assert (Q : s1 + s2 < W). { apply (proj1 (Forall_forall _ _) (fit_st _ _ _ _ F)). apply in_or_app. right. now left. }
    destruct (0 <=? o)%Z.
    + destruct (Nat.leb_spec d2 (Z.to_nat o)); [discriminate|]. assert (po = Z.to_nat o * s2 /\ e1 = d1 /\ e2 = d2 - Z.to_nat o) as (-> & -> & ->) by (repeat split; congruence).
      assert (d2 < W). { apply (proj1 (Forall_forall _ _) FD). unfold vget in E2. destruct (nth_error (a_shape a) ax2) eqn:N; [|discriminate]. injection E2 as <-. now apply nth_error_In in N. }
      rewrite word_ok by lia. cbn [bind]. rewrite wsub_le by lia. cbn [bind]. rewrite word_ok by exact Q. cbn [bind]. now rewrite (wrvo_ok W bld n _ _ _ _ F).
    + destruct (Nat.leb_spec d1 (Z.to_nat (- o))); [discriminate|]. assert (po = Z.to_nat (- o) * s1 /\ e1 = d1 - Z.to_nat (- o) /\ e2 = d2) as (-> & -> & ->) by (repeat split; congruence).
      assert (d1 < W). { apply (proj1 (Forall_forall _ _) FD). unfold vget in E1. destruct (nth_error (a_shape a) ax1) eqn:N; [|discriminate]. injection E1 as <-. now apply nth_error_In in N. }
      rewrite word_ok by lia. cbn [bind]. rewrite wsub_le by lia. cbn [bind]. rewrite word_ok by exact Q. cbn [bind]. now rewrite (wrvo_ok W bld n _ _ _ _ F).
  - unfold einsum_view in E. unfold wv_einsum. apply bind_Ok_inv in E as ((((labels & counts) & dims) & bd) & -> & E). cbn [bind]. apply bind_Ok_inv in E as (outl & -> & E). cbn [bind].
    apply bind_Ok_inv in E as (oo & EO & E). destruct oo as [(nsh & nst)|]; [|discriminate]. assert (ER : r = reshaped_view ByRef a nsh nst) by congruence. clear E. subst r. rewrite reshaped_view_shape, reshaped_view_stride in F.
    unfold reshape_for_einsum in EO. rewrite (wrse_ok W bld _ _ _ _ _ _ _ _ _ _ EO (fit_st _ _ _ _ F)). cbn [bind]. now rewrite (wrv_ok W bld n _ _ _ _ F).
  - unfold nd_broadcast_to in E. unfold wv_broadcast_to. apply bind_Ok_inv in E as (bsh & -> & E). apply bind_Ok_inv in E as (bst & EB & E). cbn [bind]. rewrite EB. cbn [bind]. injection E as <-.
    change (fits W n bsh bst) in F. rewrite (wrv_ok W bld n _ _ _ _ F). reflexivity.
Qed.
Print Assumptions C70_agree.

(** without a broadcast in its history every view of such an allocation has at least one element and no more than the allocation *)
Theorem C70_agree_plain : forall W bld b n a o r, chain b n false a -> marks o = false -> view_allowed o a false -> view_by o a = Ok (Some r) ->
  2 * n <= W -> wordy W a -> wordy W r -> wview_by W bld o a = Ok (Some r).
Proof.
  intros W bld b n a o r C M A E LW WA WR. pose proof (view_by_chain b n false a o r C A E) as CR. rewrite M in CR. pose proof (chain_size _ _ _ CR).
  eapply C70_agree; eauto. lia.
Qed.
Print Assumptions C70_agree_plain.

(** ** Iteration *)
Section Iter.
  Variable W : nat.
  Variable bld : build.

  Lemma wcollapse_go_ok m sh : forall n s st, fits W m sh st -> 0 < n -> n * prod sh < W -> wcollapse_go W bld n s sh st = Ok (collapse_go n s sh st).
  Proof.
    induction sh as [|d sh IH]; intros n s [|s' st] F P L; cbn [wcollapse_go collapse_go]; try reflexivity.
    apply fits_cons in F as (D & Q & F). rewrite word_ok by exact Q. cbn [bind]. rewrite prod_cons in L. pose proof (proj1 (pos_prod _) (fit_pos _ _ _ _ F)).
    destruct ((s =? d * s') || ((s =? 0) && (n =? 1))).
    - rewrite word_ok by nia. cbn [bind]. apply IH; auto; nia.
    - rewrite IH by (auto; nia). cbn [bind]. destruct (collapse_go d s' sh st). reflexivity.
  Qed.

  Lemma wfig_carry_ok sh : forall st idx flat base, length st = length sh -> Forall (fun d => d < W) sh -> in_range idx sh -> flat = base + dot idx st ->
    (forall i, in_range i sh -> base + dot i st < W) -> wfig_carry W bld sh st idx flat = fig_carry sh st idx flat.
  Proof.
    induction sh as [|n sh IH]; intros [|s st] idx flat base L D R F B; cbn [length] in L; try discriminate; [reflexivity|].
    inversion R as [|i n' idx1 sh' Hi Hr]; subst n' sh' idx. cbn [dot] in F. inversion D; subst. cbn [wfig_carry fig_carry].
    rewrite (IH st idx1 _ (base + i * s)); try lia; auto.
    2: { intros j J. specialize (B (i :: j)). cbn [dot] in B. rewrite <- Nat.add_assoc. apply B. now constructor. }
    destruct (@fig_carry_spec sh st idx1 (base + (i * s + dot idx1 st)) (base + i * s) ltac:(lia) Hr ltac:(lia)) as [(K & idx' & E & R' & K')|(K & E)]; rewrite E; cbn [bind]; [reflexivity|].
    assert (Z : in_range (repeat 0 (length sh)) sh) by (apply in_range_zeros; pose proof (rank_lt _ _ Hr); lia).
    rewrite word_ok by lia. cbn [bind]. destruct (Nat.ltb_spec (i + 1) n) as [Hn|Hn].
    - rewrite word_ok; [reflexivity|]. specialize (B (i + 1 :: repeat 0 (length sh))). cbn [dot] in B. rewrite dot_zeros in B.
      assert (in_range (i + 1 :: repeat 0 (length sh)) (n :: sh)) by (constructor; assumption). specialize (B H). lia.
    - specialize (B (i :: repeat 0 (length sh))). cbn [dot] in B. rewrite dot_zeros in B. assert (in_range (i :: repeat 0 (length sh)) (n :: sh)) by (constructor; assumption). specialize (B H).
      rewrite wsub_le by lia. unfold csub. rewrite (proj2 (Nat.ltb_ge n 1)) by lia. cbn [bind]. assert (i = n - 1) by lia. subst i.
      rewrite word_ok by lia. cbn [bind]. rewrite wsub_le by lia. rewrite (proj2 (Nat.ltb_ge _ (s * (n - 1)))) by lia. reflexivity.
  Qed.

  Lemma wfig_run_ok sh st : length st = length sh -> Forall (fun d => d < W) sh -> prod sh < W -> (forall i, in_range i sh -> dot i st < W) -> forall fuel idx,
    in_range idx sh -> wfig_run W bld fuel (fig_at sh st (rank idx sh) idx (dot idx st)) = fig_run fuel (fig_at sh st (rank idx sh) idx (dot idx st)).
  Proof.
    intros L D P B. induction fuel as [|fuel IH]; intros idx R; [reflexivity|]. cbn [wfig_run fig_run]. pose proof (rank_lt _ _ R) as RL.
    unfold fig_at. unfold wfig_next, fig_next. cbn [g_iter g_size g_shape g_stride g_idx g_flat]. destruct (Nat.eqb_spec (rank idx sh) (prod sh)) as [E|_]; [lia|].
    rewrite (wfig_carry_ok sh st idx (dot idx st) 0) by (auto; intros; cbn [Nat.add]; auto).
    destruct (@fig_carry_spec sh st idx (dot idx st) 0 L R eq_refl) as [(K & idx' & E & R' & K')|(K & E)]; rewrite E; cbn [bind].
    - rewrite word_ok by lia. cbn [bind Nat.add]. rewrite <- K'. change (mkFig sh st (prod sh) (rank idx' sh) idx' (dot idx' st)) with (fig_at sh st (rank idx' sh) idx' (dot idx' st)).
      now rewrite IH.
    - rewrite word_ok by lia. cbn [bind]. rewrite K. destruct fuel as [|fuel]; [reflexivity|]. cbn [wfig_run fig_run]. unfold wfig_next, fig_next. cbn [g_iter g_size].
      rewrite Nat.eqb_refl. reflexivity.
  Qed.

  Lemma wfig_list_ok m sh st : fits W m sh st -> wfig_list W bld sh st = fig_list sh st.
  Proof.
    intros F. pose proof (fits_n _ _ _ _ F) as N. unfold wfig_list, fig_list, wfig_from, fig_from.
    assert (wcollapse W bld sh st = Ok (collapse sh st)) as ->.
    { destruct sh as [|d sh], st as [|s st]; cbn [wcollapse collapse]; try reflexivity. pose proof (fit_prod _ _ _ _ F) as Q. rewrite prod_cons in Q. apply fits_cons in F as (D & _ & F). apply (wcollapse_go_ok m); auto; lia. }
    cbn [bind]. destruct (collapse sh st) as [a b] eqn:E. pose proof (collapse_prod sh st a b (eq_sym (fit_len _ _ _ _ F)) E) as PR.
    apply collapse_offsets in E as (E & L' & _); [|symmetry; apply F]. pose proof (proj1 (pos_prod _) (fit_pos _ _ _ _ F)) as PP. pose proof (fit_prod _ _ _ _ F) as PW.
    assert (PA : 0 < prod a) by lia. pose proof (proj2 (pos_prod _) PA) as PSA.
    unfold wprod. rewrite wprod_from_ok by lia. rewrite Nat.mul_1_l. cbn [bind]. destruct (MAX_DIMS <? length a); cbn [bind]; [reflexivity|]. cbn [g_size].
    pose proof (in_range_zeros a PA) as R. pose proof (wfig_run_ok a b) as H. unfold fig_at in H.
    assert (DA : Forall (fun d => d < W) a). { apply Forall_forall. intros d I. assert (d <= prod a); [|lia]. clear - I PSA. induction PSA; [destruct I|]. rewrite prod_cons. pose proof (proj1 (pos_prod _) PSA). destruct I as [-> |I]; [nia|]. specialize (IHPSA I). nia. }
    specialize (H ltac:(lia) DA ltac:(lia)). 
    assert (B : forall i, in_range i a -> dot i b < W).
    {intros i I. pose proof (offsets_nth a b i I) as Q. rewrite E in Q. apply nth_error_In in Q. unfold offsets in Q. apply in_map_iff in Q as (j & <- & J). apply in_indices in J.
          pose proof (fit_in _ _ _ _ F j J). lia. }
    specialize (H B (S (prod a)) _ R). rewrite rank_zeros, dot_zeros in H. exact H.
  Qed.
End Iter.

(** flatiter of a reachable array visits the same offsets on machine words, in both builds *)
Theorem C70_iteration : forall W bld b n bc a, chain b n bc a -> 2 * n <= W -> wordy W a -> 0 < prod (a_shape a) < W ->
  wfig_list W bld (a_shape a) (a_stride a) = fig_list (a_shape a) (a_stride a).
Proof. intros W bld b n bc a C LW (_ & _ & FS) P. apply (wfig_list_ok W bld n). eapply chain_fits; eauto. Qed.
Print Assumptions C70_iteration.

(** ** Release builds *)
(** except for slices and reshape, what the nat model rejects is rejected there too *)
Definition keeps_lengths (o : vop) : bool := match o with VSlice _ | VSliceAlong _ _ | VReshape _ _ => false | _ => true end.

Lemma bind_Panic_inv {A B} (x : res A) (f : A -> res B) : bind x f = Panic -> x = Panic \/ exists v, x = Ok v /\ f v = Panic.
Proof. destruct x; cbn [bind]; intros E; [right; eauto|now left|discriminate]. Qed.

Lemma wuniform_go_total W sh : forall s st, exists u, wuniform_go W Wrapping s sh st = Ok u.
Proof.
  induction sh as [|d sh IH]; intros s [|s' st]; cbn [wuniform_go]; eauto. destruct (s =? 0); [apply IH|]. cbn [word bind]. destruct (s =? (d * s') mod W); [apply IH|eauto].
Qed.

Lemma wflags_total W fl sh st : exists f, wflags W Wrapping fl sh st = Ok f.
Proof.
  unfold wflags, wuniform. destruct sh as [|d sh], st as [|s st]; cbn [bind]; eauto. destruct (wuniform_go_total W sh s st) as (u & ->). cbn [bind]. eauto.
Qed.

Lemma wprod_from_total W sh : forall p, exists v, wprod_from W Wrapping p sh = Ok v.
Proof. induction sh as [|d sh IH]; intros p; [eexists; reflexivity|]. rewrite wprod_cons. cbn [word bind]. apply IH. Qed.

Lemma wrse_rejects W labels out shape stride n : forall idim nsh nst nst', length nst = length nst' ->
  rse_go labels out shape stride idim n nsh nst = Panic -> wrse_go W Wrapping labels out shape stride idim n nsh nst' = Panic.
Proof.
  induction n as [|n IH]; intros idim nsh nst nst' L E; cbn [rse_go wrse_go] in *; [discriminate|].
  apply bind_Panic_inv in E as [-> |(label & -> & E)]; cbn [bind]; [reflexivity|]. destruct (label =? 0)%Z; [reflexivity|]. destruct (position out label) as [ax|]; [|discriminate].
  apply bind_Panic_inv in E as [-> |(d & -> & E)]; cbn [bind]; [reflexivity|]. apply bind_Panic_inv in E as [-> |(nsh1 & -> & E)]; cbn [bind]; [reflexivity|].
  apply bind_Panic_inv in E as [-> |(s & -> & E)]; cbn [bind]; [reflexivity|].
  assert (G : vget nst ax = Panic -> vget nst' ax = Panic).
  { unfold vget. destruct (nth_error nst ax) eqn:N; [discriminate|]. apply nth_error_None in N. intros _. now rewrite (proj2 (nth_error_None nst' ax)) by lia. }
  apply bind_Panic_inv in E as [E|(old & EO & E)]; [now rewrite (G E)|]. destruct (lt_dec ax (length nst)) as [LT|GE].
  - rewrite (ViewsFacts.vget_nth nst' ax 0) by lia. cbn [bind word]. destruct (upd_some nst ax (old + s) LT) as (l1 & U1).
    destruct (upd_some nst' ax ((nth ax nst' 0 + s) mod W)) as (l2 & U2); [lia|]. unfold vset in *. rewrite U1 in E. rewrite U2. cbn [bind] in *.
    apply (IH _ _ l1); [|exact E]. apply upd_length in U1, U2. lia.
  - unfold vget in EO. rewrite (proj2 (nth_error_None nst ax)) in EO by lia. discriminate.
Qed.

Theorem C70_release_rejects : forall W o a, keeps_lengths o = true -> view_by o a = Panic -> wview_by W Wrapping o a = Panic.
Proof.
  intros W o a K E. destruct o; cbn [view_by wview_by keeps_lengths] in *; try discriminate.
  - apply bind_Panic_inv in E as [E|(? & _ & E)]; [|discriminate]. unfold nd_transpose in E. unfold wv_transpose.
    apply bind_Panic_inv in E as [-> |(i' & -> & E)]; cbn [bind]; [reflexivity|]. apply bind_Panic_inv in E as [-> |(j' & -> & E)]; cbn [bind]; [reflexivity|].
    apply bind_Panic_inv in E as [-> |(sh & -> & E)]; cbn [bind]; [reflexivity|]. apply bind_Panic_inv in E as [-> |(st & -> & E)]; [reflexivity|discriminate].
  - apply bind_Panic_inv in E as [E|(? & _ & E)]; [|discriminate]. unfold nd_unsqueeze in E. unfold wv_unsqueeze.
    apply bind_Panic_inv in E as [-> |(ax & -> & E)]; cbn [bind]; [reflexivity|]. destruct (ax =? length (a_shape a)); [discriminate|].
    apply bind_Panic_inv in E as [-> |(sh & -> & E)]; cbn [bind]; [reflexivity|]. apply bind_Panic_inv in E as [-> |(s & -> & E)]; cbn [bind]; [reflexivity|].
    apply bind_Panic_inv in E as [-> |(d & -> & E)]; cbn [bind]; [reflexivity|]. apply bind_Panic_inv in E as [E|(st & _ & E)]; [|discriminate]. cbn [word bind].
    assert (vinsert (a_stride a) ax ((s * d) mod W) = Panic) as ->; [|reflexivity].
    destruct (le_lt_dec ax (length (a_stride a))) as [L|L]; [rewrite vinsert_ok in E by exact L; discriminate|]. clear - L. revert ax L.
    induction (a_stride a) as [|x l IH]; intros [|ax] L; cbn [length] in L; try lia; cbn [vinsert]; [reflexivity|]. now rewrite IH by lia.
  - apply bind_Panic_inv in E as [E|(? & _ & E)]; [|discriminate]. unfold nd_offset_diagonal_along in E. unfold wv_diagonal.
    apply bind_Panic_inv in E as [-> |(u & -> & E)]; cbn [bind]; [reflexivity|].
    apply bind_Panic_inv in E as [-> |(ax1 & -> & E)]; cbn [bind]; [reflexivity|]. apply bind_Panic_inv in E as [-> |(ax2 & -> & E)]; cbn [bind]; [reflexivity|].
    apply bind_Panic_inv in E as [-> |(u1 & -> & E)]; cbn [bind]; [reflexivity|].
    apply bind_Panic_inv in E as [-> |(d1 & -> & E)]; cbn [bind]; [reflexivity|]. apply bind_Panic_inv in E as [-> |(d2 & -> & E)]; cbn [bind]; [reflexivity|].
    apply bind_Panic_inv in E as [-> |(s1 & -> & E)]; cbn [bind]; [reflexivity|]. apply bind_Panic_inv in E as [-> |(s2 & -> & E)]; cbn [bind]; [reflexivity|].
    apply bind_Panic_inv in E as [E|(((po & e1) & e2) & _ & E)]; [|discriminate]. destruct (0 <=? o)%Z.
    + destruct (d2 <=? Z.to_nat o); [reflexivity|discriminate].
    + destruct (d1 <=? Z.to_nat (- o)); [reflexivity|discriminate].
  - unfold einsum_view in E. unfold wv_einsum. apply bind_Panic_inv in E as [-> |((((labels & counts) & dims) & bd) & -> & E)]; cbn [bind]; [reflexivity|].
    apply bind_Panic_inv in E as [-> |(outl & -> & E)]; cbn [bind]; [reflexivity|]. apply bind_Panic_inv in E as [E|(oo & _ & E)]; [|discriminate].
    unfold reshape_for_einsum in E. now rewrite (wrse_rejects W _ _ _ _ _ _ _ _ _ eq_refl E).
  - apply bind_Panic_inv in E as [E|(? & _ & E)]; [|discriminate]. unfold nd_broadcast_to in E. unfold wv_broadcast_to.
    apply bind_Panic_inv in E as [-> |(bsh & -> & E)]; cbn [bind]; [reflexivity|]. apply bind_Panic_inv in E as [-> |(bst & -> & E)]; [reflexivity|discriminate].
Qed.
Print Assumptions C70_release_rejects.

(** slice panics there only when there are more indexers than axes *)
Lemma wlen_total W sh : forall acc st, exists v, wlen_from W Wrapping acc sh st = Ok v.
Proof. induction sh as [|d sh IH]; intros acc [|s st]; cbn [wlen_from]; eauto. cbn [wsub word bind]. apply IH. Qed.

Lemma wstrided_len_total W sh st : exists v, wstrided_len W Wrapping sh st = Ok v.
Proof. unfold wstrided_len. destruct (wlen_total W sh 0 st) as (v & ->). cbn [bind word]. eauto. Qed.

Lemma wlength_total W ix n : exists l, windexed_length W Wrapping ix n = Ok l.
Proof. destruct ix; cbn [windexed_length wsub word bind]; eauto. Qed.

Lemma wslice_go_total W ixs : forall acc sh st, length st = length sh ->
  (length ixs <= length sh -> exists r, wslice_go W Wrapping acc ixs sh st = Ok r) /\ (length sh < length ixs -> wslice_go W Wrapping acc ixs sh st = Panic).
Proof.
  induction ixs as [|ix ixs IH]; intros acc sh st L; cbn [wslice_go length].
  - split; [eauto|lia].
  - destruct sh as [|d sh], st as [|s st]; cbn [length] in *; try discriminate; [split; [lia|reflexivity]|].
    destruct (wlength_total W ix d) as (l & ->). cbn [bind word]. destruct (IH ((acc + (s * index_first ix) mod W) mod W) sh st ltac:(lia)) as [H1 H2]. split; intros H.
    + destruct (H1 ltac:(lia)) as (((o & sh1) & st1) & ->). cbn [bind]. destruct (index_collapses ix); eauto.
    + now rewrite H2 by lia.
Qed.

Theorem C70_release_slice : forall W a ixs, wf a -> (wview_by W Wrapping (VSlice ixs) a = Panic <-> length (a_shape a) < length ixs).
Proof.
  intros W a ixs WF. cbn [wview_by]. unfold wv_slice. destruct (wslice_go_total W ixs 0 _ _ WF) as [H1 H2]. destruct (le_lt_dec (length ixs) (length (a_shape a))) as [L|L].
  - split; [|lia]. destruct (H1 L) as (((o & sh1) & st1) & ->). cbn [bind]. destruct (wstrided_len_total W sh1 st1) as (l & ->). cbn [bind].
    destruct (wflags_total W (a_fl a) sh1 st1) as (f & ->). cbn [bind]. discriminate.
  - rewrite (H2 L). split; [intros _; exact L|reflexivity].
Qed.
Print Assumptions C70_release_slice.

Lemma csub_panic a b : a < b -> csub a b = Panic.
Proof. intros L. unfold csub. now rewrite (proj2 (Nat.ltb_lt _ _) L). Qed.

Lemma live_oob {T} (h : heap T) b n o : live h b n -> n <= o -> load h b o = Oob.
Proof. intros (l & E & L) H. unfold load. rewrite E. now rewrite (proj2 (nth_error_None l o)) by lia. Qed.

(** a reversed range panics with overflow checks; in release builds it returns an array of
    almost W elements, most of them outside the allocation *)
Theorem C70_release_reversed : forall T W (h : heap T) b n s e, live h b n -> 2 * n <= W -> e < s -> s <= n ->
  exists r, wview_by W Wrapping (VSlice [IRange s e]) (fresh_arr b n [n]) = Ok (Some r) /\ a_shape r = [W - (s - e)] /\
    in_range [n - s] (a_shape r) /\ get h r [n - s] = Oob /\ wview_by W Checked (VSlice [IRange s e]) (fresh_arr b n [n]) = Panic.
Proof.
  intros T W h b n s e LV LW L1 L2. cbn [wview_by]. unfold wv_slice. change (a_shape (fresh_arr b n [n])) with [n]. change (a_stride (fresh_arr b n [n])) with [1].
  cbn [wslice_go windexed_length wsub word bind index_first index_collapses]. rewrite csub_panic by exact L1.
  replace (e + W - s) with (W - (s - e)) by lia. rewrite (Nat.mod_small (W - (s - e))) by lia. rewrite (Nat.mod_small (1 * s)) by lia. rewrite (Nat.mod_small (0 + 1 * s)) by lia.
  destruct (wstrided_len_total W [W - (s - e)] [1]) as (l & ->). cbn [bind]. destruct (wflags_total W (a_fl (fresh_arr b n [n])) [W - (s - e)] [1]) as (f & ->). cbn [bind].
  eexists. split; [reflexivity|]. cbn [a_shape]. split; [reflexivity|]. split; [constructor; [lia|constructor]|]. split; [|reflexivity].
  unfold get. cbn [a_blk a_off a_stride dot fresh_arr]. apply (live_oob h b n); [exact LV|lia].
Qed.
Print Assumptions C70_release_reversed.

(** an empty range of an axis with stride s > 1 panics with overflow checks; in release builds
    it returns an empty array whose length field is W + 1 - s, so that indexing it is accepted
    and reads outside the allocation *)
Theorem C70_release_empty : forall T W (h : heap T) b n a d s k, live h b n -> a_blk a = b -> a_shape a = [d] -> a_stride a = [s] ->
  1 < s -> k * s < W -> (n + 1) * s <= W ->
  exists r, wview_by W Wrapping (VSlice [IRange k k]) a = Ok (Some r) /\ a_shape r = [0] /\ a_len r = W + 1 - s /\
    windex W Wrapping h r [n] = Oob /\ wview_by W Checked (VSlice [IRange k k]) a = Panic.
Proof.
  intros T W h b n a d s k LV EB ES ET S1 LK LN. cbn [wview_by]. unfold wv_slice. rewrite ES, ET.
  cbn [wslice_go windexed_length wsub word bind index_first index_collapses]. replace (k + W - k) with (0 + 1 * W) by lia. rewrite Nat.mod_add by lia. rewrite (Nat.mod_small 0) by lia.
  rewrite (Nat.mod_small (s * k)) by lia. rewrite (Nat.mod_small (0 + s * k)) by lia.
  assert (wstrided_len W Wrapping [0] [s] = Ok (W + 1 - s)) as ->.
  { unfold wstrided_len. cbn [wlen_from wsub word bind]. rewrite (Nat.mod_small (0 + W - 1)) by lia. replace (s * (0 + W - 1)) with ((W - s) + (s - 1) * W) by nia. rewrite Nat.mod_add by lia.
    rewrite (Nat.mod_small (W - s)) by lia. rewrite (Nat.mod_small (0 + (W - s))) by lia. rewrite Nat.mod_small by lia. f_equal. lia. }
  cbn [bind]. destruct (wflags_total W (a_fl a) [0] [s]) as (f & ->). cbn [bind]. eexists. split; [reflexivity|]. cbn [a_shape a_len]. split; [reflexivity|]. split; [reflexivity|]. split.
  - unfold windex. cbn [a_shape a_stride a_len length Nat.eqb guard bind woffset_from word]. rewrite (Nat.mod_small (n * s)) by lia. rewrite (Nat.mod_small (0 + n * s)) by lia.
    cbn [bind]. rewrite (proj2 (Nat.ltb_lt _ _)) by lia. cbn [guard bind]. unfold ld, padd, a_ptr. cbn [a_blk a_off fst snd]. rewrite EB. apply (live_oob h b n); [exact LV|nia].
  - unfold csub at 1. rewrite Nat.ltb_irrefl, Nat.sub_diag. cbn [bind]. destruct (0 <? W); [|reflexivity]. cbn [bind]. destruct (s * k <? W); [|reflexivity]. cbn [bind]. destruct (0 + s * k <? W); reflexivity.
Qed.
Print Assumptions C70_release_empty.

(** strides of axes of length 1 are not bounded by the allocation: unsqueeze followed by
    diagonal doubles the stride, so from one element a view is reached that the nat model
    grants and the build with overflow checks rejects; the release build returns a view of the
    same element *)
Lemma doubled k : exists a, chain 0 1 false a /\ a_shape a = [1] /\ a_stride a = [2 ^ k] /\ a_off a = 0 /\ a_blk a = 0.
Proof.
  induction k as [|k (a & C & SH & ST & O & B)].
  - exists (fresh_arr 0 1 [1]). split; [apply Ch_new; [reflexivity|lia]|]. repeat split.
  - pose (u := reshaped_view ByRef a [1; 1] [2 ^ k; 2 ^ k]).
    assert (EU : nd_unsqueeze ByRef a 0 = Ok u).
    { unfold nd_unsqueeze. rewrite SH, ST. cbn [length Nat.add]. change (as_absolute 0 2) with (Ok 0). cbn [bind Nat.eqb vinsert vget nth_error Nat.add]. rewrite Nat.mul_1_r. reflexivity. }
    pose proof (Ch_unsqueeze _ _ _ _ _ _ _ C EU) as CU.
    assert (ED : nd_offset_diagonal_along u 0 0 1 = Ok (reshaped_view_with_offset u 0 [1] [2 ^ S k])).
    { unfold nd_offset_diagonal_along. change (a_shape u) with [1; 1]. change (a_stride u) with [2 ^ k; 2 ^ k]. cbn [length Nat.leb guard bind].
      change (as_absolute 0 2) with (Ok 0). change (as_absolute 1 2) with (Ok 1). cbn [bind Nat.eqb negb guard vget nth_error]. cbn [Z.leb Z.compare Z.to_nat Nat.leb Nat.mul Nat.sub bind].
      cbn [drop_two Nat.eqb orb app Nat.min]. replace (2 ^ k + 2 ^ k) with (2 ^ S k) by (rewrite Nat.pow_succ_r'; lia). reflexivity. }
    pose proof (Ch_diagonal _ _ _ _ _ _ _ _ CU ED) as CD. eexists. split; [exact CD|]. cbn [reshaped_view_with_offset a_shape a_stride a_off a_blk u reshaped_view]. rewrite O, B. repeat split.
Qed.

Lemma log_word W : 2 < W -> exists k, 2 ^ k < W <= 2 ^ S k.
Proof.
  intros H. exists (Nat.log2 (W - 1)). destruct (Nat.log2_spec (W - 1)) as [L1 L2]; [lia|]. lia.
Qed.

Theorem C70_stride_overflow : forall W, 2 < W -> exists a o r r', chain 0 1 false a /\ view_allowed o a false /\ wordy W a /\
  view_by o a = Ok (Some r) /\ wview_by W Checked o a = Panic /\ wview_by W Wrapping o a = Ok (Some r') /\
  a_shape r' = a_shape r /\ forall T (h : heap T) idx, in_range idx (a_shape r) -> get h r' idx = get h r idx.
Proof.
  intros W H. destruct (log_word W H) as (k & K1 & K2). destruct (doubled k) as (a & C & SH & ST & O & B).
  pose (u := reshaped_view ByRef a [1; 1] [2 ^ k; 2 ^ k]).
  assert (EU : nd_unsqueeze ByRef a 0 = Ok u).
  { unfold nd_unsqueeze. rewrite SH, ST. cbn [length Nat.add]. change (as_absolute 0 2) with (Ok 0). cbn [bind Nat.eqb vinsert vget nth_error Nat.add]. rewrite Nat.mul_1_r. reflexivity. }
  pose proof (Ch_unsqueeze _ _ _ _ _ _ _ C EU) as CU. rewrite Nat.pow_succ_r' in K2.
  assert (P : 0 < 2 ^ k) by (apply Nat.neq_0_lt_0, Nat.pow_nonzero; lia).
  assert (WU : forall bld, wview_by W bld (VDiagonal 0 0 1) u =
    (r <- (s <- word W bld (2 ^ k + 2 ^ k) ;; wreshaped_view_with_offset W bld u 0 [1] [s]) ;; Ok (Some r))).
  { intros bld. cbn [wview_by]. unfold wv_diagonal. change (a_shape u) with [1; 1]. change (a_stride u) with [2 ^ k; 2 ^ k]. cbn [length Nat.leb guard bind].
    change (as_absolute 0 2) with (Ok 0). change (as_absolute 1 2) with (Ok 1). cbn [bind Nat.eqb negb guard vget nth_error]. cbn [Z.leb Z.compare Z.to_nat Nat.leb Nat.mul bind].
    rewrite word_ok by lia. cbn [bind]. rewrite wsub_le by lia. cbn [bind]. cbn [drop_two Nat.eqb orb app Nat.min Nat.sub]. reflexivity. }
  destruct (wflags_total W (a_fl u) [1] [(2 ^ k + 2 ^ k) mod W]) as (f & EF).
  exists u, (VDiagonal 0 0 1), (reshaped_view_with_offset u 0 [1] [2 ^ k + 2 ^ k]). eexists.
  split; [exact CU|]. split; [exact I|]. split; [|split; [|split; [|split; [|split]]]].
  - split; [cbn; lia|]. cbn [u reshaped_view a_shape a_stride]. split; repeat constructor; lia.
  - cbn [view_by]. unfold nd_offset_diagonal_along. change (a_shape u) with [1; 1]. change (a_stride u) with [2 ^ k; 2 ^ k]. cbn [length Nat.leb guard bind].
    change (as_absolute 0 2) with (Ok 0). change (as_absolute 1 2) with (Ok 1). cbn [bind Nat.eqb negb guard vget nth_error]. cbn [Z.leb Z.compare Z.to_nat Nat.leb Nat.mul Nat.sub bind].
    cbn [drop_two Nat.eqb orb app Nat.min]. reflexivity.
  - rewrite WU. cbn [word]. rewrite (proj2 (Nat.ltb_ge _ _)) by lia. reflexivity.
  - rewrite WU. cbn [word bind]. unfold wreshaped_view_with_offset. rewrite EF. cbn [bind]. unfold wprod, wprod_from. cbn [fold_left bind word]. rewrite (Nat.mod_small (1 * 1)) by lia. reflexivity.
  - reflexivity.
  - intros T h idx R. unfold get. cbn [a_blk a_off a_stride reshaped_view_with_offset]. cbn [a_shape reshaped_view_with_offset] in R.
    inversion R as [|i d idx' sh' Hi Hr]; subst. inversion Hr; subst. assert (i = 0) by lia. subst i. cbn [dot Nat.mul]. reflexivity.
Qed.
Print Assumptions C70_stride_overflow.

(** six elements on words with 16 values: the two right columns of a 2 by 3 array *)
Example C70_ex : chain 0 6 false ex23 /\ view_allowed (VSlice [IFull; IRange 1 3]) ex23 false /\ 2 * 6 <= 16 /\ wordy 16 ex23 /\ wordy 16 two_columns /\
  view_by (VSlice [IFull; IRange 1 3]) ex23 = Ok (Some two_columns) /\ wview_by 16 Wrapping (VSlice [IFull; IRange 1 3]) ex23 = Ok (Some two_columns) /\
  wfig_list 16 Wrapping (a_shape two_columns_t) (a_stride two_columns_t) = Ok [0; 3; 1; 4] /\
  wview_by 16 Checked (VSlice [IFull; IRange 3 1]) ex23 = Panic /\
  (r <- wview_by 16 Wrapping (VSlice [IFull; IRange 3 1]) ex23 ;; Ok (option_map a_shape r)) = Ok (Some [2; 14]) /\
  (r <- wview_by 16 Wrapping (VBroadcast [4; 2; 3]) ex23 ;; Ok (option_map a_len r)) = Ok (Some 8).
Proof.
  split; [apply ex23_chain|]. split; [split; [cbn; lia|repeat constructor]|]. split; [lia|]. split; [split; [cbn; lia|split; repeat constructor]|].
  split; [split; [cbn; lia|split; repeat constructor]|]. repeat split; vm_compute; reflexivity.
Qed.
