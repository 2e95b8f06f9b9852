(** ReduceFacts.v: facts about the reductions. *)
From Coq Require Import List Arith Lia Bool ZArith Permutation.
From Verif Require Import Base Spec Layout SpecFacts LayoutFacts Views ViewsFacts ViewsFacts2 ViewsFacts3
  Kernels Access HeapFacts KernelFacts OpFacts AccessFacts Chain ChainFacts ViewsFacts4 Reduce.
Import ListNotations.
Open Scope res_scope.

Lemma foldM_app {A B} (g : A -> B -> res B) l1 l2 acc : foldM g (l1 ++ l2) acc = (x <- foldM g l1 acc ;; foldM g l2 x).
Proof.
  revert acc. induction l1 as [|x l1 IH]; intros acc; cbn [foldM app bind]; [reflexivity|].
  rewrite bind_assoc. apply bind_ext. intros; apply IH.
Qed.

Section G.
  Context {T : Type}.
  Variable g : T -> T -> res T.

  Lemma fold_idx_eq (h : heap T) p is acc :
    (forall i, In i is -> exists v, ld h (padd p i) = Ok v) ->
    fold_idx g h p is acc = (vs <- mapM (fun i => ld h (padd p i)) is ;; foldM g vs acc).
  Proof.
    revert acc. induction is as [|i is IH]; intros acc H; [reflexivity|]. cbn [fold_idx mapM].
    destruct (H i (or_introl eq_refl)) as (v & ->). cbn [bind].
    destruct (mapM_Ok (fun i => ld h (padd p i)) is) as (vs & E); [intros; apply H; now right|].
    rewrite E. cbn [bind foldM]. apply bind_ext. intros acc' _. rewrite IH, E; [reflexivity|]. intros; apply H; now right.
  Qed.

  Lemma fold_run_idx (h : heap T) count : forall p s acc,
    fold_run g h p count s acc = fold_idx g h p (map (fun k => k * s) (seq 0 count)) acc.
  Proof.
    assert (SH : forall is p c acc, fold_idx g h (padd p c) is acc = fold_idx g h p (map (Nat.add c) is) acc).
    { induction is as [|i is IH]; intros p c acc; [reflexivity|]. cbn [fold_idx map]. unfold padd. cbn [fst snd].
      rewrite Nat.add_assoc. apply bind_ext. intros x _. apply bind_ext. intros acc' _. apply IH. }
    induction count as [|c IH]; intros p s acc; [reflexivity|]. cbn [fold_run seq map fold_idx].
    replace (padd p (0 * s)) with p by (destruct p; unfold padd; cbn; now rewrite Nat.add_0_r).
    apply bind_ext. intros x _. apply bind_ext. intros acc' _. rewrite IH, SH. f_equal.
    rewrite <- seq_shift, !map_map. apply map_ext. intros k. lia.
  Qed.

  Lemma elems_offsets (h : heap T) a : elems h a = mapM (fun i => ld h (padd (a_ptr a) i)) (offsets (a_shape a) (a_stride a)).
  Proof. unfold elems, offsets. rewrite mapM_map. reflexivity. Qed.

  Lemma k_reduce_eq (h : heap T) dflt a :
    valid h a -> no_bcast (a_shape a) (a_stride a) \/ has_uniform_stride (a_shape a) (a_stride a) = None ->
    length (a_shape a) <= MAX_DIMS ->
    k_reduce g dflt h (a_ptr a) (a_shape a) (a_stride a) = (vs <- elems h a ;; foldM g vs dflt).
  Proof.
    intros V D MD. unfold k_reduce. rewrite elems_offsets.
    assert (H : forall i, In i (offsets (a_shape a) (a_stride a)) -> exists v, ld h (padd (a_ptr a) i) = Ok v).
    { intros i I. apply in_map_iff in I as (idx & <- & I). apply in_indices in I. exact (proj2 V idx I). }
    destruct (has_uniform_stride (a_shape a) (a_stride a)) as [s|] eqn:E.
    - destruct D as [NB|]; [|discriminate].
      transitivity (fold_run g h (a_ptr a) (prod (a_shape a)) s dflt).
      { destruct (Nat.eqb_spec s 1); [now subst|reflexivity]. }
      rewrite fold_run_idx, <- (has_uniform_spec _ _ _ (eq_sym (proj1 V)) NB E). now apply fold_idx_eq.
    - rewrite fig_list_ok' by (try apply V; exact MD). cbn [bind]. now apply fold_idx_eq.
  Qed.

  (** *** the axis mask *)
  Definition mask_of (nd : nat) (A : list nat) : list bool := map (fun k => existsb (Nat.eqb k) A) (seq 0 nd).

  Lemma mask_of_nth nd A k : k < nd -> nth_error (mask_of nd A) k = Some (existsb (Nat.eqb k) A).
  Proof. intros H. unfold mask_of. rewrite (map_nth_error _ _ _ (nth_error_seq 0 nd k H)). reflexivity. Qed.

  Lemma upd_spec {A} (l : list A) : forall k v l', upd l k v = Some l' ->
    length l' = length l /\ forall j, nth_error l' j = if j =? k then Some v else nth_error l j.
  Proof.
    induction l as [|x l IH]; intros k v l' E; [discriminate|]. destruct k as [|k]; cbn in E.
    - injection E as <-. split; [reflexivity|]. intros [|j]; reflexivity.
    - destruct (upd l k v) as [r|] eqn:E'; [|discriminate]. injection E as <-. destruct (IH _ _ _ E') as [L N].
      split; [cbn; now rewrite L|]. intros [|j]; [reflexivity|]. cbn. apply N.
  Qed.

  Lemma upd_ok {A} (l : list A) : forall k v, k < length l -> exists l', upd l k v = Some l'.
  Proof.
    induction l as [|x l IH]; intros k v H; [cbn in H; lia|]. destruct k as [|k]; [eexists; reflexivity|].
    cbn in H. destruct (IH k v ltac:(lia)) as (l' & E). cbn. rewrite E. eexists; reflexivity.
  Qed.

  Lemma nth_error_ext {A} (l1 l2 : list A) : (forall k, nth_error l1 k = nth_error l2 k) -> l1 = l2.
  Proof.
    revert l2. induction l1 as [|x l1 IH]; intros [|y l2] H; [reflexivity|specialize (H 0); discriminate..|].
    pose proof (H 0) as H0. injection H0 as ->. f_equal. apply IH. intros k. exact (H (S k)).
  Qed.

  Lemma mask_upd nd A k l : k < nd -> upd (mask_of nd A) k true = Some l -> l = mask_of nd (k :: A).
  Proof.
    intros H E. destruct (upd_spec _ _ _ _ E) as [L N]. apply nth_error_ext. intros j. rewrite N.
    destruct (lt_dec j nd) as [J|J].
    - rewrite !mask_of_nth by exact J. cbn [existsb]. destruct (Nat.eqb_spec j k); reflexivity.
    - destruct (Nat.eqb_spec j k); [lia|].
      rewrite !(proj2 (nth_error_None _ _)) by (unfold mask_of; rewrite map_length, seq_length; lia). reflexivity.
  Qed.

  Lemma existsb_In k A : existsb (Nat.eqb k) A = true <-> In k A.
  Proof. rewrite existsb_exists. split; [intros (x & I & E); apply Nat.eqb_eq in E; now subst|intros I; exists k; split; [auto|apply Nat.eqb_refl]]. Qed.

  Lemma mask_of_nil nd : mask_of nd [] = repeat false nd.
  Proof.
    unfold mask_of. cbn [existsb]. generalize 0. induction nd as [|k IH]; intros z; [reflexivity|]. cbn. f_equal. apply IH.
  Qed.

  Lemma mask_go_ok nd axes : forall A B, Forall2 (fun ax k => as_absolute ax nd = Ok k) axes A ->
    NoDup (rev A ++ B) -> mask_go nd axes (mask_of nd B) = Ok (mask_of nd (rev A ++ B)).
  Proof.
    induction axes as [|ax axes IH]; intros A B F N; inversion F; subst; cbn [mask_go rev app]; [reflexivity|].
    rewrite H1. cbn [bind]. destruct (as_absolute_inv _ _ _ H1) as (K & _).
    cbn [rev] in N. rewrite <- app_assoc in N. cbn [app] in N. unfold vget. rewrite mask_of_nth by exact K. cbn [bind].
    assert (NI : ~ In y B).
    { apply NoDup_remove_2 in N. intros I. apply N. apply in_or_app. now right. }
    destruct (existsb (Nat.eqb y) B) eqn:E; [apply existsb_In in E; contradiction|].
    destruct (upd_ok (mask_of nd B) y true) as (l & U); [unfold mask_of; now rewrite map_length, seq_length|].
    unfold vset. rewrite U. cbn [bind]. rewrite (mask_upd _ _ _ _ K U), (IH l' (y :: B) H3 N).
    now rewrite <- app_assoc.
  Qed.

  Lemma mask_go_dup nd axes : forall A B, Forall2 (fun ax k => as_absolute ax nd = Ok k) axes A ->
    ~ NoDup (rev A ++ B) -> NoDup B -> mask_go nd axes (mask_of nd B) = Panic.
  Proof.
    induction axes as [|ax axes IH]; intros A B F N NB; inversion F; subst; cbn [mask_go rev app] in *; [contradiction|].
    rewrite H1. cbn [bind]. destruct (as_absolute_inv _ _ _ H1) as (K & _).
    unfold vget. rewrite mask_of_nth by exact K. cbn [bind].
    destruct (existsb (Nat.eqb y) B) eqn:E; [reflexivity|].
    destruct (upd_ok (mask_of nd B) y true) as (l & U); [unfold mask_of; now rewrite map_length, seq_length|].
    unfold vset. rewrite U. cbn [bind]. rewrite (mask_upd _ _ _ _ K U). apply (IH l').
    - exact H3.
    - rewrite <- app_assoc in N. exact N.
    - constructor; [|exact NB]. intros I. apply existsb_In in I. congruence.
  Qed.

  Lemma mask_go_bad nd axes : forall mask ax, In ax axes -> as_absolute ax nd = Panic -> length mask = nd ->
    mask_go nd axes mask = Panic.
  Proof.
    induction axes as [|x axes IH]; intros mask ax [] P L; subst; cbn [mask_go]; [now rewrite P|].
    destruct (as_absolute x _) as [k| |] eqn:E; cbn [bind]; [|reflexivity|exfalso].
    - unfold vget. destruct (nth_error mask k) as [b|]; [|reflexivity]. cbn [bind]. destruct b; [reflexivity|].
      unfold vset. destruct (upd mask k true) as [m|] eqn:U; [|reflexivity]. cbn [bind].
      rewrite <- (proj1 (upd_spec _ _ _ _ U)) in *. eapply IH; eauto.
    - unfold as_absolute in E. destruct ((_ <? _) || _)%Z%bool; discriminate.
  Qed.

  (** *** shape and destination strides *)
  Fixpoint keep (mask : list bool) (l : list nat) : list nat :=
    match mask, l with
    | m :: mask', x :: l' => if m : bool then keep mask' l' else x :: keep mask' l'
    | _, _ => []
    end.

  Lemma keep_mask A l : keep (mask_of (length l) A) l = drop_axes A l.
  Proof.
    unfold mask_of, drop_axes. generalize 0. induction l as [|x l IH]; intros k; [reflexivity|].
    cbn [length seq map keep combine filter fst]. destruct (existsb (Nat.eqb k) A); cbn [negb]; [apply IH|].
    cbn [map snd]. f_equal. apply IH.
  Qed.

  Lemma rss_go_spec mask : forall sh s nsh nst, length mask = length sh -> rss_go mask sh = (s, nsh, nst) ->
    s = prod nsh /\ nsh = keep mask sh /\ length nst = length sh /\
    forall idx, length idx = length sh -> dot idx nst = rank (keep mask idx) nsh.
  Proof.
    induction mask as [|m mask IH]; intros [|n sh] s nsh nst L E; try discriminate; cbn in E.
    - injection E as <- <- <-. repeat split. intros [|]; [reflexivity|discriminate].
    - destruct (rss_go mask sh) as [[s' nsh'] nst'] eqn:E'. injection L as L. destruct (IH _ _ _ _ L E') as (S & N & LN & D).
      destruct m; injection E as <- <- <-; cbn [keep length].
      + split; [exact S|]. split; [exact N|]. split; [now rewrite LN|]. intros [|i idx] LI; [discriminate|].
        injection LI as LI. cbn [dot keep]. rewrite D by exact LI. lia.
      + split; [rewrite prod_cons; lia|]. split; [now rewrite N|]. split; [now rewrite LN|]. intros [|i idx] LI; [discriminate|].
        injection LI as LI. cbn [dot keep rank]. rewrite D by exact LI. lia.
  Qed.

  Lemma keep_in_range mask : forall idx sh, length mask = length sh -> in_range idx sh -> in_range (keep mask idx) (keep mask sh).
  Proof.
    induction mask as [|m mask IH]; intros idx sh L R; [constructor|].
    destruct R as [|i n idx sh H R]; [constructor|]. injection L as L. cbn [keep]. destruct m; [now apply IH|].
    constructor; [exact H|]. now apply IH.
  Qed.

  Lemma reduced_ok axes A sh : Forall2 (fun ax k => as_absolute ax (length sh) = Ok k) axes A -> NoDup A ->
    exists nst, reduced_shape_and_stride axes sh = Ok (drop_axes A sh, nst) /\ length nst = length sh /\
      forall idx, in_range idx sh -> in_range (drop_axes A idx) (drop_axes A sh) /\
        dot idx nst = rank (drop_axes A idx) (drop_axes A sh).
  Proof.
    intros F N. unfold reduced_shape_and_stride.
    assert (NR : NoDup (rev A ++ [])) by (rewrite app_nil_r; now apply NoDup_rev).
    rewrite <- mask_of_nil.
    rewrite (mask_go_ok _ _ A [] F NR). cbn [bind].
    assert (ML : mask_of (length sh) (rev A ++ []) = mask_of (length sh) A).
    { unfold mask_of. apply map_ext. intros k. apply Bool.eq_iff_eq_true. rewrite !existsb_In, app_nil_r. symmetry. apply in_rev. }
    rewrite ML. unfold csub.
    assert (LA : length axes <= length sh).
    { rewrite (Forall2_length _ _ _ F). rewrite <- (seq_length (length sh) 0). apply NoDup_incl_length; [exact N|].
      intros k I. apply in_seq. enough (k < length sh) by lia. clear - F I. induction F; [destruct I|].
      destruct I as [->|I]; [|auto]. apply as_absolute_inv in H. tauto. }
    destruct (Nat.ltb_spec (length sh) (length axes)); [lia|]. cbn [bind].
    destruct (rss_go (mask_of (length sh) A) sh) as [[s nsh] nst] eqn:E.
    assert (LM : length (mask_of (length sh) A) = length sh) by (unfold mask_of; now rewrite map_length, seq_length).
    destruct (rss_go_spec _ _ _ _ _ LM E) as (_ & -> & LN & D). rewrite keep_mask in *.
    exists nst. split; [reflexivity|]. split; [exact LN|]. intros idx R. pose proof (in_range_length _ _ R) as LI.
    rewrite D by exact LI. rewrite <- LI. rewrite keep_mask. split; [|reflexivity]. rewrite <- !keep_mask, LI.
    apply keep_in_range; auto.
  Qed.

  Lemma reduced_panics axes A sh : Forall2 (fun ax k => as_absolute ax (length sh) = Ok k) axes A -> ~ NoDup A ->
    reduced_shape_and_stride axes sh = Panic.
  Proof.
    intros F N. unfold reduced_shape_and_stride.
    rewrite <- mask_of_nil.
    rewrite (mask_go_dup _ _ A [] F); [reflexivity| |constructor]. rewrite app_nil_r. intros Q. apply N.
    apply NoDup_rev in Q. now rewrite rev_involutive in Q.
  Qed.

  (** *** the scatter loop *)
  Definition bucket (j : nat) (l : list (nat * T)) : list T := map snd (filter (fun p => fst p =? j) l).

  Fixpoint scatter (l : list (nat * T)) (out : list T) : res (list T) :=
    match l with
    | [] => Ok out
    | (j, x) :: l' =>
        match nth_error out j with
        | None => Oob
        | Some old => v <- g x old ;; match upd out j v with None => Oob | Some out' => scatter l' out' end
        end
    end.

  Lemma along_go_scatter (h : heap T) p is : forall js xs out,
    mapM (fun i => ld h (padd p i)) is = Ok xs -> length is = length js ->
    along_go g h p is js out = scatter (combine js xs) out.
  Proof.
    induction is as [|i is IH]; intros [|j js] xs out E L; try discriminate; cbn [mapM along_go] in *.
    - injection E as <-. reflexivity.
    - apply bind_Ok_inv in E as (x & Ex & E). apply bind_Ok_inv in E as (xs' & Exs & E). injection E as <-.
      rewrite Ex. cbn [bind combine scatter]. destruct (nth_error out j); [|reflexivity]. apply bind_ext. intros v _.
      destruct (upd out j v); [|reflexivity]. apply IH; auto.
  Qed.

  Lemma scatter_ok l : forall out, Forall (fun p => fst p < length out) l ->
    (forall j old, nth_error out j = Some old -> exists v, foldM g (bucket j l) old = Ok v) ->
    exists out', scatter l out = Ok out' /\ length out' = length out /\
      forall j old, nth_error out j = Some old -> exists v, foldM g (bucket j l) old = Ok v /\ nth_error out' j = Some v.
  Proof.
    induction l as [|[j x] l IH]; intros out F H.
    - exists out. split; [reflexivity|]. split; [reflexivity|]. intros j old N. exists old. now split.
    - inversion F as [|? ? Fj F']; subst. cbn [fst] in Fj. cbn [scatter].
      destruct (nth_error out j) as [old|] eqn:N; [|apply nth_error_None in N; lia].
      pose proof (H j old N) as (v & E). unfold bucket in E. cbn [filter fst] in E. rewrite Nat.eqb_refl in E.
      cbn [map snd foldM] in E. destruct (g x old) as [w| |] eqn:Ew; try discriminate. cbn [bind] in *.
      destruct (upd_ok out j w Fj) as (out1 & U). rewrite U. destruct (upd_spec _ _ _ _ U) as [L1 N1].
      destruct (IH out1) as (out' & S & L' & V).
      + rewrite L1. exact F'.
      + intros k o K. rewrite N1 in K. destruct (Nat.eqb_spec k j) as [->|NE].
        * injection K as <-. exists v. exact E.
        * destruct (H k o K) as (u & Eu). exists u. unfold bucket in *. cbn [filter fst] in Eu.
          destruct (Nat.eqb_spec j k); [congruence|exact Eu].
      + exists out'. split; [exact S|]. split; [congruence|]. intros k o K.
        destruct (Nat.eqb_spec k j) as [->|NE].
        * assert (o = old) by congruence. subst o. destruct (V j w) as (u & Eu & Nu); [now rewrite N1, Nat.eqb_refl|].
          exists u. split; [|exact Nu]. unfold bucket. cbn [filter fst]. rewrite Nat.eqb_refl. cbn [map snd foldM]. now rewrite Ew.
        * destruct (V k o) as (u & Eu & Nu); [rewrite N1; destruct (Nat.eqb_spec k j); [congruence|exact K]|].
          exists u. split; [|exact Nu]. unfold bucket in *. cbn [filter fst]. destruct (Nat.eqb_spec j k); [congruence|exact Eu].
  Qed.

  Lemma scatter_panic l : forall out j old, Forall (fun p => fst p < length out) l ->
    (forall x y, g x y <> Oob) -> nth_error out j = Some old -> foldM g (bucket j l) old = Panic -> scatter l out = Panic.
  Proof.
    induction l as [|[k x] l IH]; intros out j old F NO N P; [discriminate|].
    inversion F as [|? ? Fk F']; subst. cbn [fst] in Fk. cbn [scatter].
    destruct (nth_error out k) as [ok|] eqn:Nk; [|apply nth_error_None in Nk; lia].
    destruct (g x ok) as [w| |] eqn:Ew; cbn [bind]; [|reflexivity|exfalso; exact (NO _ _ Ew)].
    destruct (upd_ok out k w Fk) as (out1 & U). rewrite U. destruct (upd_spec _ _ _ _ U) as [L1 N1].
    unfold bucket in P. cbn [filter fst] in P. destruct (Nat.eqb_spec k j) as [->|NE].
    - assert (ok = old) by congruence. subst ok. cbn [map snd foldM] in P. rewrite Ew in P. cbn [bind] in P.
      apply (IH out1 j w); auto; [now rewrite L1|now rewrite N1, Nat.eqb_refl].
    - apply (IH out1 j old); auto; [now rewrite L1|]. rewrite N1. destruct (Nat.eqb_spec j k); [congruence|exact N].
  Qed.

  (** *** reduce_along *)
  Lemma filter_combine_map {X Y Z} (f : X -> Y) (k : X -> Z) (P : Y -> bool) l :
    map snd (filter (fun p => P (fst p)) (combine (map f l) (map k l))) = map k (filter (fun x => P (f x)) l).
  Proof.
    induction l as [|x l IH]; [reflexivity|]. cbn [map combine filter fst]. destruct (P (f x)); cbn [map snd]; now rewrite IH.
  Qed.

  Lemma mapM_getter (h : heap T) a xs d : elems h a = Ok xs -> 
    xs = map (fun idx => match get h a idx with Ok v => v | _ => d end) (indices (a_shape a)).
  Proof.
    unfold elems. generalize (indices (a_shape a)). intros l. revert xs. induction l as [|x l IH]; intros xs E; cbn [mapM] in E.
    - now injection E as <-.
    - apply bind_Ok_inv in E as (y & Ey & E). apply bind_Ok_inv in E as (ys & Eys & E). injection E as <-. cbn [map].
      rewrite Ey. f_equal. now apply IH.
  Qed.

  Lemma nd_reduce_along_eq (h : heap T) dflt a axes A :
    valid h a -> length (a_shape a) <= MAX_DIMS ->
    Forall2 (fun ax k => as_absolute ax (length (a_shape a)) = Ok k) axes A -> NoDup A ->
    let osh := drop_axes A (a_shape a) in
    let val o := vs <- mapM (get h a) (fibre A (a_shape a) o) ;; foldM g vs dflt in
    ((forall o, in_range o osh -> exists v, val o = Ok v) ->
       exists vs, nd_reduce_along g dflt h a axes = Ok (h ++ [Some vs], fresh_arr (length h) (prod osh) osh) /\
         mapM val (indices osh) = Ok vs) /\
    ((exists o, in_range o osh /\ val o = Panic) -> (forall x y, g x y <> Oob) -> nd_reduce_along g dflt h a axes = Panic).
  Proof.
    intros V MD F N osh val. unfold nd_reduce_along.
    destruct (reduced_ok axes A (a_shape a) F N) as (nst & -> & LN & D). cbn [bind].
    destruct (collapse (a_shape a) nst) as [msh mst] eqn:C. destruct (collapse_offsets _ _ _ _ (eq_sym LN) C) as (OF & LL & LE).
    rewrite (fig_list_ok' msh mst) by lia. cbn [bind]. rewrite OF.
    rewrite fig_list_ok' by (try apply V; exact MD). cbn [bind].
    destruct (valid_elems h a V) as (xs & EX). pose proof EX as EX'. rewrite elems_offsets in EX'.
    rewrite (along_go_scatter _ _ _ _ _ _ EX') by now rewrite !offsets_length. fold osh in D |- *.
    assert (B : forall o, in_range o osh -> mapM (get h a) (fibre A (a_shape a) o) =
        Ok (bucket (rank o osh) (combine (offsets (a_shape a) nst) xs))).
    { intros o R. destruct xs as [|d xs'].
      - assert (P0 : prod (a_shape a) = 0) by (apply mapM_length in EX; rewrite indices_length in EX; auto).
        unfold fibre. rewrite (indices_0 _ P0), combine_nil. reflexivity.
      - pose proof (mapM_getter h a _ d EX) as G. remember (d :: xs') as xs eqn:HX. unfold bucket, offsets. rewrite G.
        rewrite (filter_combine_map _ _ (fun x => x =? rank o osh)).
        rewrite (filter_ext_in _ (fun idx => if list_eq_dec Nat.eq_dec (drop_axes A idx) o then true else false)).
        + fold (fibre A (a_shape a) o). apply mapM_pure_ext. intros idx I. unfold fibre in I. apply filter_In in I as [I _].
          apply in_indices in I. destruct (proj2 V idx I) as (v & ->). reflexivity.
        + intros idx I. apply in_indices in I. destruct (D idx I) as [R2 ->].
          destruct (list_eq_dec Nat.eq_dec (drop_axes A idx) o) as [->|NE]; [apply Nat.eqb_refl|].
          apply Nat.eqb_neq. intros Q. apply NE. eapply rank_inj; eauto. }
    assert (FL : Forall (fun p => fst p < length (repeat dflt (prod osh))) (combine (offsets (a_shape a) nst) xs)).
    { apply Forall_forall. intros [j x] I. apply in_combine_l in I. apply in_map_iff in I as (idx & <- & I). apply in_indices in I.
      rewrite repeat_length. cbn [fst]. destruct (D idx I) as [R ->]. now apply rank_lt. }
    assert (RN : forall k, k < prod osh -> nth_error (repeat dflt (prod osh)) k = Some dflt).
    { clear. induction (prod osh) as [|n IH]; intros [|k] H; try lia; [reflexivity|]. cbn. apply IH. lia. }
    split.
    - intros H. destruct (scatter_ok _ _ FL) as (out & S & L & Q).
      { intros j old Nj. assert (J : j < prod osh) by (rewrite <- (repeat_length dflt (prod osh)); apply nth_error_Some; congruence).
        rewrite RN in Nj by exact J. injection Nj as <-. destruct (unrank_in_range j osh J) as [R K].
        destruct (H _ R) as (v & E). unfold val in E. rewrite (B _ R), K in E. exists v. exact E. }
      rewrite repeat_length in L. rewrite S. cbn [bind]. exists out. split; [unfold from_buffer, alloc; now rewrite L|].
      destruct (mapM_Ok val (indices osh)) as (vs & E); [intros o I; apply H; now apply in_indices|].
      rewrite E. f_equal. apply nth_error_ext. intros k. pose proof (mapM_length _ _ _ E) as LV. rewrite indices_length in LV.
      destruct (lt_dec k (prod osh)) as [K|K].
      2:{ rewrite !(proj2 (nth_error_None _ _)) by lia. reflexivity. }
      destruct (Q k dflt (RN k K)) as (v & Ev & Nv). rewrite Nv. destruct (unrank_in_range k osh K) as [R KK].
      pose proof (nth_indices_rank _ _ R) as NI. rewrite KK in NI. destruct (mapM_nth _ _ _ _ _ E NI) as (w & Nw & Ew).
      unfold val in Ew. rewrite (B _ R), KK in Ew. cbn [bind] in Ew. rewrite Nw. congruence.
    - intros (o & R & E) NO. unfold val in E. rewrite (B _ R) in E. cbn [bind] in E.
      rewrite (scatter_panic _ _ (rank o osh) dflt FL NO (RN _ (rank_lt _ _ R)) E). reflexivity.
  Qed.
End G.

(** *** sizes of fibres *)
Fixpoint drop (mask : list bool) (l : list nat) : list nat :=
  match mask, l with
  | m :: mask', x :: l' => if m : bool then x :: drop mask' l' else drop mask' l'
  | _, _ => []
  end.

Definition kfibre (mask : list bool) (sh o : list nat) : list (list nat) :=
  filter (fun idx => if list_eq_dec Nat.eq_dec (keep mask idx) o then true else false) (indices sh).

Lemma filter_flat_map {X Y} (P : Y -> bool) (f : X -> list Y) l : filter P (flat_map f l) = flat_map (fun x => filter P (f x)) l.
Proof. induction l as [|x l IH]; [reflexivity|]. cbn [flat_map]. now rewrite filter_app, IH. Qed.

Lemma filter_map {X Y} (P : Y -> bool) (f : X -> Y) l : filter P (map f l) = map f (filter (fun x => P (f x)) l).
Proof. induction l as [|x l IH]; [reflexivity|]. cbn [map filter]. destruct (P (f x)); cbn [map]; now rewrite IH. Qed.

Lemma filter_false {X} (l : list X) : filter (fun _ => false) l = [].
Proof. induction l; auto. Qed.

Lemma flat_map_single {Y} (f : nat -> list Y) a n x k : a <= x < a + n -> (forall i, i <> x -> f i = []) ->
  length (f x) = k -> length (flat_map f (seq a n)) = k.
Proof.
  revert a. induction n as [|n IH]; intros a H N L; [lia|]. cbn [seq flat_map]. rewrite app_length.
  destruct (Nat.eq_dec a x) as [->|NE].
  - rewrite L. assert (Z : forall b m, x < b -> flat_map f (seq b m) = []).
    { clear - N. intros b m. revert b. induction m as [|m IH]; intros b H; [reflexivity|]. cbn [seq flat_map].
      rewrite N by lia. rewrite IH by lia. reflexivity. }
    rewrite Z by lia. cbn. lia.
  - rewrite N by exact NE. cbn [length Nat.add]. apply IH; auto. lia.
Qed.

Lemma kfibre_length mask : forall sh o, length mask = length sh -> in_range o (keep mask sh) ->
  length (kfibre mask sh o) = prod (drop mask sh).
Proof.
  induction mask as [|m mask IH]; intros [|n sh] o L R; try discriminate.
  - inversion R; subst. reflexivity.
  - injection L as L. unfold kfibre. cbn [indices]. rewrite filter_flat_map. destruct m; cbn [keep drop] in *.
    + rewrite (length_flat_map_const _ _ (prod (drop mask sh))); [now rewrite seq_length|]. intros i _. rewrite filter_map, map_length.
      cbn [keep]. apply IH; auto.
    + inversion R as [|x ? o' ? X R']; subst.
      apply (flat_map_single _ 0 n x); [lia| |].
      * intros i NE. rewrite filter_map. rewrite (filter_ext_in _ (fun _ => false)).
        -- now rewrite filter_false.
        -- intros idx _. cbn [keep]. destruct (list_eq_dec Nat.eq_dec (i :: keep mask idx) (x :: o')); [congruence|reflexivity].
      * rewrite filter_map, map_length. rewrite <- (IH sh o' L R'). unfold kfibre. f_equal. apply filter_ext. intros idx. cbn [keep].
        destruct (list_eq_dec Nat.eq_dec (x :: keep mask idx) (x :: o')), (list_eq_dec Nat.eq_dec (keep mask idx) o'); congruence.
Qed.

Lemma fibre_kfibre A sh o : fibre A sh o = kfibre (mask_of (length sh) A) sh o.
Proof.
  unfold fibre, kfibre. apply filter_ext_in. intros idx I. apply in_indices, in_range_length in I.
  now rewrite <- I, keep_mask.
Qed.

Lemma drop_mask (P : nat -> bool) l : forall s, drop (map P (seq s (length l))) l = map (fun k => nth (k - s) l 0) (filter P (seq s (length l))).
Proof.
  induction l as [|x l IH]; intros s; [reflexivity|]. cbn [length seq map drop filter].
  rewrite IH. assert (E : map (fun k => nth (k - S s) l 0) (filter P (seq (S s) (length l))) =
    map (fun k => nth (k - s) (x :: l) 0) (filter P (seq (S s) (length l)))).
  { apply map_ext_in. intros k I. apply filter_In in I as [I _]. apply in_seq in I. replace (k - s) with (S (k - S s)) by lia. reflexivity. }
  rewrite E. destruct (P s); [|reflexivity]. cbn [map]. now rewrite Nat.sub_diag.
Qed.

Lemma prod_drop A sh : NoDup A -> (forall k, In k A -> k < length sh) ->
  prod (drop (mask_of (length sh) A) sh) = prod (map (fun k => nth k sh 0) A).
Proof.
  intros N L. unfold mask_of. rewrite drop_mask. apply prod_perm. rewrite (map_ext _ (fun k => nth k sh 0)) by (intros k; now rewrite Nat.sub_0_r).
  apply Permutation_map. apply NoDup_Permutation; [apply NoDup_filter, seq_NoDup|exact N|]. intros k.
  rewrite filter_In, existsb_In, in_seq. split; [tauto|]. intros I. split; [|exact I]. specialize (L k I). lia.
Qed.

(** number of source elements that are aggregated into one result element *)
Lemma fibre_length A sh o : NoDup A -> (forall k, In k A -> k < length sh) -> in_range o (drop_axes A sh) ->
  length (fibre A sh o) = prod (map (fun k => nth k sh 0) A).
Proof.
  intros N L R. rewrite fibre_kfibre, kfibre_length; [now apply prod_drop| |now rewrite keep_mask].
  unfold mask_of. now rewrite map_length, seq_length.
Qed.

Lemma drop_pos mask : forall sh, pos sh -> pos (drop mask sh).
Proof.
  induction mask as [|m mask IH]; intros [|n sh] P; try constructor. inversion P; subst. cbn [drop].
  destruct m; [constructor; auto; apply IH|apply IH]; assumption.
Qed.

Lemma fibre_ne A sh o : 0 < prod sh -> in_range o (drop_axes A sh) -> fibre A sh o <> [].
Proof.
  intros P R E. apply (f_equal (@length _)) in E. rewrite fibre_kfibre, kfibre_length in E.
  - apply pos_prod in P. apply (drop_pos (mask_of (length sh) A)) in P. apply pos_prod in P. cbn in E. lia.
  - unfold mask_of. now rewrite map_length, seq_length.
  - now rewrite keep_mask.
Qed.

Lemma filter_length_le {X} (P : X -> bool) l : length (filter P l) <= length l.
Proof. induction l as [|x l IH]; cbn; [lia|]. destruct (P x); cbn; lia. Qed.
