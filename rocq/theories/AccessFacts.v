(** AccessFacts.v: element-level description of access, copy, comparison and fill. *)
From Coq Require Import List Arith Lia Bool.
From Verif Require Import Base Spec Layout SpecFacts LayoutFacts Views ViewsFacts ViewsFacts2 ViewsFacts3
  Kernels Access HeapFacts KernelFacts OpFacts.
Import ListNotations.
Open Scope res_scope.

(** a contiguous array's length field counts its elements *)
Definition tight (a : arr) : Prop := f_contig (a_fl a) = true -> a_len a = prod (a_shape a).
(** every in-range index lies below the length field *)
Definition covers (a : arr) : Prop := forall idx, in_range idx (a_shape a) -> dot idx (a_stride a) < a_len a.

Lemma index_offset_dot idx : forall st, index_offset idx st = dot idx st.
Proof. induction idx as [|i idx IH]; intros [|s st]; cbn [index_offset dot]; auto. Qed.

Section Facts.
  Context {T : Type}.

  Lemma nd_flatiter_eq (h : heap T) a : wf a -> length (a_shape a) <= MAX_DIMS -> nd_flatiter h a = elems h a.
  Proof.
    intros W MD. unfold nd_flatiter. rewrite fig_list_ok' by assumption. cbn [bind]. unfold offsets, elems. now rewrite mapM_map.
  Qed.

  (** ** indexing *)
  Lemma nd_index_eq (h : heap T) a idx : in_range idx (a_shape a) -> dot idx (a_stride a) < a_len a ->
    nd_index h a idx = get h a idx.
  Proof.
    intros R D. unfold nd_index. rewrite (in_range_length _ _ R), Nat.eqb_refl. cbn [guard bind].
    rewrite index_offset_dot. apply Nat.ltb_lt in D. now rewrite D.
  Qed.

  Lemma nd_index_rank_panic (h : heap T) a idx : length idx <> length (a_shape a) -> nd_index h a idx = Panic.
  Proof. intros N. unfold nd_index. apply Nat.eqb_neq in N. now rewrite N. Qed.

  Lemma nd_index_valid_panic (h : heap T) a idx : in_range idx (a_shape a) -> a_len a <= dot idx (a_stride a) ->
    nd_index h a idx = Panic.
  Proof.
    intros R D. unfold nd_index. rewrite (in_range_length _ _ R), Nat.eqb_refl. cbn [guard bind].
    rewrite index_offset_dot. apply Nat.ltb_ge in D. now rewrite D.
  Qed.

  Lemma nd_index_set_ok (h : heap T) a idx v : valid h a -> in_range idx (a_shape a) -> dot idx (a_stride a) < a_len a ->
    exists h', nd_index_set h a idx v = Ok h' /\ get h' a idx = Ok v /\
      same_elsewhere h h' (fun b o => b = a_blk a /\ o = a_off a + dot idx (a_stride a)).
  Proof.
    intros [W V] R D. unfold nd_index_set. rewrite (in_range_length _ _ R), Nat.leb_refl. cbn [guard bind].
    rewrite index_offset_dot. apply Nat.ltb_lt in D. rewrite D. cbn [guard bind]. unfold st. cbn [padd a_ptr fst snd].
    destruct (V _ R) as (x & E). destruct (store_ok h (a_blk a) (a_off a + dot idx (a_stride a)) v x E) as (h' & ES).
    exists h'. split; [exact ES|]. split; [eapply load_store_same; eauto|].
    split; [symmetry; eapply store_length; eauto|]. intros b o N. eapply load_store_other; eauto.
    intros Q; injection Q as -> ->; auto.
  Qed.

  Lemma nd_value_eq (h : heap T) a : prod (a_shape a) = 1 -> nd_value h a = get h a (repeat 0 (length (a_shape a))).
  Proof.
    intros P. unfold nd_value. rewrite P. cbn [Nat.eqb guard bind]. unfold get. rewrite dot_zeros, Nat.add_0_r. reflexivity.
  Qed.
  Lemma nd_value_panic (h : heap T) a : prod (a_shape a) <> 1 -> nd_value h a = Panic.
  Proof. intros P. unfold nd_value. apply Nat.eqb_neq in P. now rewrite P. Qed.

  (** ** copies *)
  Lemma copy_runs_eq (h : heap T) p is n :
    copy_runs h p is n = mapM (fun o => ld h (padd p o)) (flat_map (fun i => map (Nat.add i) (seq 0 n)) is).
  Proof.
    induction is as [|i is IH]; [reflexivity|]. cbn [copy_runs flat_map]. rewrite mapM_app, <- IH. unfold read_run.
    rewrite mapM_map. f_equal. apply mapM_ext. intros k _. unfold padd. cbn [fst snd]. now rewrite Nat.add_assoc.
  Qed.

  Lemma offsets_snoc sh : forall st n s, length st = length sh ->
    offsets (sh ++ [n]) (st ++ [s]) = flat_map (fun o => map (fun k => o + k * s) (seq 0 n)) (offsets sh st).
  Proof.
    induction sh as [|m sh IH]; intros [|t st] n s L; cbn [length] in L; try discriminate.
    - cbn [app]. rewrite offsets_cons, offsets_nil. cbn [map flat_map]. rewrite app_nil_r.
      induction (seq 0 n) as [|k l IHl]; [reflexivity|]. cbn [flat_map map app]. rewrite IHl. f_equal. lia.
    - cbn [app]. rewrite !offsets_cons, flat_map_flat_map. apply flat_map_ext. intros i.
      rewrite IH by lia. rewrite flat_map_map, flat_map_map_in. apply flat_map_ext. intros o.
      rewrite map_map. apply map_ext. intros k. lia.
  Qed.

  Lemma clone_strided_eq (h : heap T) a : valid h a -> a_shape a <> [] -> length (a_shape a) <= MAX_DIMS ->
    clone_strided h a = elems h a.
  Proof.
    intros [W V] NE MD. unfold clone_strided.
    destruct (collapse (a_shape a) (a_stride a)) as [sh str] eqn:C.
    destruct (collapse_offsets _ _ _ _ (eq_sym W) C) as (O & LC & LM).
    pose proof (collapse_nonempty _ _ (eq_sym W) NE) as NE'. rewrite C in NE'. cbn [fst] in NE'.
    destruct (valid_elems h a (conj W V)) as (ys & EY).
    assert (G : mapM (fun o => ld h (padd (a_ptr a) o)) (offsets sh str) = Ok ys).
    { rewrite O. unfold offsets. rewrite mapM_map. exact EY. }
    assert (LY : length ys =? prod (a_shape a) = true).
    { apply Nat.eqb_eq. unfold elems in EY. apply mapM_length in EY. now rewrite EY, indices_length. }
    destruct str as [|s0 str0] eqn:ES; [destruct sh; [congruence|discriminate]|]. rewrite <- ES in *.
    assert (NS : str <> []) by (rewrite ES; discriminate). clear ES s0 str0.
    rewrite EY. destruct (Nat.eqb_spec (last str 0) 1) as [L1|L1].
    - assert (LR : length (removelast str) = length (removelast sh)) by (rewrite !removelast_firstn_len, !firstn_length; lia).
      assert (LR2 : length (removelast sh) <= MAX_DIMS) by (rewrite removelast_firstn_len, firstn_length; lia).
      rewrite fig_list_ok' by assumption. cbn [bind]. rewrite copy_runs_eq.
      assert (E : flat_map (fun i => map (Nat.add i) (seq 0 (last sh 0))) (offsets (removelast sh) (removelast str)) = offsets sh str).
      { transitivity (offsets (removelast sh ++ [last sh 0]) (removelast str ++ [last str 0]));
          [|now rewrite <- (app_removelast_last 0 NE'), <- (app_removelast_last 0 NS)].
        rewrite L1. rewrite offsets_snoc by exact LR. apply flat_map_ext. intros o. apply map_ext. intros k. lia. }
      rewrite E, G. cbn [bind]. now rewrite LY.
    - rewrite fig_list_ok' by lia. cbn [bind]. rewrite copy_runs_eq.
      assert (E : flat_map (fun i => map (Nat.add i) (seq 0 1)) (offsets sh str) = offsets sh str).
      { generalize (offsets sh str). clear. intros l0. induction l0 as [|o l IH]; [reflexivity|]. cbn [flat_map]. rewrite IH. cbn [seq map app]. now rewrite Nat.add_0_r. }
      rewrite E, G. cbn [bind]. now rewrite LY.
  Qed.

  Lemma read_contig_eq (h : heap T) a : valid h a -> flags_ok a -> no_bcast (a_shape a) (a_stride a) -> tight a ->
    f_contig (a_fl a) = true -> read_run h (a_ptr a) (a_len a) = elems h a.
  Proof.
    intros [W V] F NB TI C. rewrite (TI C). unfold read_run, elems.
    rewrite <- (contig_offsets a W F NB C). unfold offsets. now rewrite mapM_map.
  Qed.

  Lemma flags_scalar_contig a : flags_ok a -> a_shape a = [] -> f_contig (a_fl a) = true.
  Proof. intros [_ ->] ->. destruct (a_stride a); reflexivity. Qed.

  Lemma clone_data_eq (h : heap T) a : valid h a -> flags_ok a -> tight a ->
    (f_contig (a_fl a) = true -> no_bcast (a_shape a) (a_stride a)) -> length (a_shape a) <= MAX_DIMS ->
    clone_data h a = elems h a.
  Proof.
    intros V F TI NB MD. unfold clone_data. destruct (f_contig (a_fl a)) eqn:C.
    - now apply read_contig_eq; auto.
    - apply clone_strided_eq; auto. intros E. pose proof (flags_scalar_contig a F E). congruence.
  Qed.

  Lemma nd_clone_ok (h : heap T) a : valid h a -> flags_ok a -> tight a ->
    (f_contig (a_fl a) = true -> no_bcast (a_shape a) (a_stride a)) -> length (a_shape a) <= MAX_DIMS ->
    exists vs, elems h a = Ok vs /\ length vs = prod (a_shape a) /\
      nd_clone h a = Ok (h ++ [Some vs], fresh_arr (length h) (prod (a_shape a)) (a_shape a)) /\
      nd_flatten h a = Ok (h ++ [Some vs], fresh_arr (length h) (prod (a_shape a)) [prod (a_shape a)]).
  Proof.
    intros V F TI NB MD. destruct (valid_elems h a V) as (vs & E). exists vs.
    pose proof (mapM_length _ _ _ E) as L. rewrite indices_length in L.
    unfold nd_clone, nd_flatten. rewrite clone_data_eq by assumption. rewrite E. cbn [bind]. unfold from_buffer, alloc. rewrite L. auto.
  Qed.

  Lemma nd_data_slice_eq (h : heap T) a : valid h a -> flags_ok a -> tight a -> no_bcast (a_shape a) (a_stride a) ->
    nd_data_slice h a = if f_contig (a_fl a) then elems h a else Panic.
  Proof.
    intros V F TI NB. unfold nd_data_slice. destruct (f_contig (a_fl a)) eqn:C; [|reflexivity].
    cbn [guard bind]. now apply read_contig_eq.
  Qed.

  (** ** comparison *)
  Lemma zip_all_spec (eqb : T -> T -> bool) (h : heap T) p q (l : list (nat * nat)) :
    (forall i j, In (i, j) l -> exists x y, ld h (padd p i) = Ok x /\ ld h (padd q j) = Ok y) ->
    exists r, zip_all eqb h p (map fst l) q (map snd l) = Ok r /\
      (r = true <-> forall i j, In (i, j) l -> exists x y, ld h (padd p i) = Ok x /\ ld h (padd q j) = Ok y /\ eqb x y = true).
  Proof.
    induction l as [|[i j] l IH]; intros H.
    - exists true. split; [reflexivity|]. split; [intros _ ? ? []|auto].
    - cbn [map fst snd zip_all]. destruct (H i j (or_introl eq_refl)) as (x & y & EX & EY).
      rewrite EX, EY. cbn [bind]. destruct (eqb x y) eqn:E.
      + destruct IH as (r & ER & HR); [intros; apply H; now right|]. exists r. split; [exact ER|]. rewrite HR. split.
        * intros G i' j' [Q|Q]; [injection Q as <- <-; eauto|auto].
        * intros G i' j' Q. apply G. now right.
      + exists false. split; [reflexivity|]. split; [discriminate|]. intros G.
        destruct (G i j (or_introl eq_refl)) as (x' & y' & EX' & EY' & E'). congruence.
  Qed.

  Lemma nd_eq_ok (eqb : T -> T -> bool) (h : heap T) a b :
    valid h a -> valid h b -> length (a_shape a) <= MAX_DIMS ->
    exists r, nd_eq eqb h a b = Ok r /\
      (r = true <-> a_shape a = a_shape b /\
        forall idx, in_range idx (a_shape a) -> exists x y, get h a idx = Ok x /\ get h b idx = Ok y /\ eqb x y = true).
  Proof.
    intros [WA VA] [WB VB] MD. unfold nd_eq. destruct (list_eqb (a_shape a) (a_shape b)) eqn:E.
    - apply list_eqb_spec in E. rewrite fig_list_ok' by assumption. rewrite fig_list_ok' by (try assumption; now rewrite <- E). cbn [bind].
      rewrite <- E in *.
      pose proof (zip_all_spec eqb h (a_ptr a) (a_ptr b) (map (fun idx => (dot idx (a_stride a), dot idx (a_stride b))) (indices (a_shape a)))) as Z.
      rewrite !map_map in Z. cbn [fst snd] in Z. unfold offsets.
      destruct Z as (r & ER & HR).
      { intros i j I. apply in_map_iff in I as (idx & Q & I). injection Q as <- <-. apply in_indices in I.
        destruct (VA _ I) as (x & EX), (VB _ I) as (y & EY). exists x, y. auto. }
      exists r. split; [exact ER|]. rewrite HR. split.
      + intros G. split; [reflexivity|]. intros idx R. apply in_indices in R. apply (G (dot idx (a_stride a)) (dot idx (a_stride b))).
        apply in_map_iff. eauto.
      + intros [_ G] i j I. apply in_map_iff in I as (idx & Q & I). injection Q as <- <-. apply in_indices in I. now apply G.
    - exists false. split; [reflexivity|]. split; [discriminate|]. intros [Q _]. apply list_eqb_spec in Q. congruence.
  Qed.

  (** ** fill *)
  Definition written (h h' : heap T) (p : ptr) (offs : list nat) (v : T) : Prop :=
    length h' = length h /\
    (forall x, In x offs -> load h' (fst p) (snd p + x) = Ok v) /\
    (forall b o, ~ (b = fst p /\ exists x, In x offs /\ o = snd p + x) -> load h' b o = load h b o).

  Lemma written_nil h p v : written h h p [] v.
  Proof. split; [reflexivity|]. split; [intros x []|auto]. Qed.

  Lemma written_app h h1 h2 p l1 l2 v : written h h1 p l1 v -> written h1 h2 p l2 v -> written h h2 p (l1 ++ l2) v.
  Proof.
    intros (L1 & A1 & B1) (L2 & A2 & B2). split; [congruence|]. split.
    - intros x I. destruct (in_dec Nat.eq_dec x l2) as [J|J]; [auto|].
      apply in_app_or in I as [I|I]; [|contradiction]. rewrite B2; [auto|].
      intros [_ (y & Iy & E)]. assert (x = y) by lia. subst. contradiction.
    - intros b o N. rewrite B2, B1; auto; intros [-> (x & I & ->)]; apply N; split; auto; exists x; split; auto; apply in_or_app; auto.
  Qed.

  Lemma written_shift h h' p c l v : written h h' (padd p c) l v -> written h h' p (map (Nat.add c) l) v.
  Proof.
    intros (L & A & B). cbn [padd fst snd] in *. split; [exact L|]. split.
    - intros x I. apply in_map_iff in I as (y & <- & I). rewrite Nat.add_assoc. auto.
    - intros b o N. apply B. intros [-> (x & I & ->)]. apply N. split; [reflexivity|]. exists (c + x). split; [now apply in_map|lia].
  Qed.

  Lemma written_live h h' p l v b o x : written h h' p l v -> load h b o = Ok x -> exists y, load h' b o = Ok y.
  Proof.
    intros (L & A & B) E. destruct (Nat.eq_dec b (fst p)) as [->|N].
    - destruct (in_dec Nat.eq_dec (o - snd p) l) as [I|I].
      + destruct (le_lt_dec (snd p) o).
        * exists v. replace o with (snd p + (o - snd p)) by lia. auto.
        * exists x. rewrite B; [exact E|]. intros [_ (y & _ & ->)]. lia.
      + exists x. rewrite B; [exact E|]. intros [_ (y & Iy & ->)]. apply I. now replace (snd p + y - snd p) with y by lia.
    - exists x. rewrite B; [exact E|]. intros [Q _]. contradiction.
  Qed.

  Lemma fill_uniform_ok count : forall (h : heap T) p s v,
    (forall k, k < count -> exists x, load h (fst p) (snd p + k * s) = Ok x) ->
    exists h', fill_uniform h p count s v = Ok h' /\ written h h' p (strided count s) v.
  Proof.
    induction count as [|c IH]; intros h p s v H.
    - exists h. split; [reflexivity|apply written_nil].
    - cbn [fill_uniform]. destruct (H 0 ltac:(lia)) as (x & E). rewrite Nat.mul_0_l, Nat.add_0_r in E.
      unfold st. destruct (store_ok h (fst p) (snd p) v x E) as (h1 & ES). rewrite ES. cbn [bind].
      assert (W1 : written h h1 p [0] v).
      { split; [eapply store_length; eauto|]. split.
        - intros y [<-|[]]. rewrite Nat.add_0_r. eapply load_store_same; eauto.
        - intros b o N. eapply load_store_other; eauto. intros Q. injection Q as -> ->. apply N. split; [reflexivity|]. exists 0. split; [now left|lia]. }
      destruct (IH h1 (padd p s) s v) as (h2 & E2 & W2).
      { intros k K. destruct (H (S k) ltac:(lia)) as (y & EY). eapply written_live; [exact W1|]. cbn [padd fst snd].
        replace (snd p + s + k * s) with (snd p + S k * s) by lia. exact EY. }
      exists h2. split; [exact E2|]. rewrite strided_S. apply (written_app h h1 h2 p [0] _ v W1). now apply written_shift.
  Qed.

  Lemma loop_ptr_ok (body : heap T -> ptr -> res (heap T)) (offs : list nat) v s n : forall (h : heap T) p,
    (forall h p, (forall x, In x offs -> exists y, load h (fst p) (snd p + x) = Ok y) ->
       exists h', body h p = Ok h' /\ written h h' p offs v) ->
    (forall i x, i < n -> In x offs -> exists y, load h (fst p) (snd p + (i * s + x)) = Ok y) ->
    exists h', loop_ptr body h p n s = Ok h' /\ written h h' p (flat_map (fun i => map (Nat.add (i * s)) offs) (seq 0 n)) v.
  Proof.
    induction n as [|n IH]; intros h p HB H.
    - exists h. split; [reflexivity|apply written_nil].
    - cbn [loop_ptr]. destruct (HB h p) as (h1 & E1 & W1).
      { intros x I. apply (H 0 x); [lia|exact I]. }
      rewrite E1. cbn [bind]. destruct (IH h1 (padd p s) HB) as (h2 & E2 & W2).
      { intros i x Hi I. destruct (H (S i) x ltac:(lia) I) as (y & EY). eapply written_live; [exact W1|].
        cbn [padd fst snd]. replace (snd p + s + (i * s + x)) with (snd p + (S i * s + x)) by lia. exact EY. }
      exists h2. split; [exact E2|]. cbn [seq flat_map].
      apply (written_app h h1 h2).
      + assert (Q : map (Nat.add (0 * s)) offs = offs) by (rewrite <- (map_id offs) at 2; apply map_ext; intros; lia). now rewrite Q.
      + apply written_shift in W2. rewrite flat_map_map in W2.
        replace (flat_map (fun i => map (Nat.add (i * s)) offs) (seq 1 n))
          with (flat_map (fun x => map (Nat.add s) (map (Nat.add (x * s)) offs)) (seq 0 n)); [exact W2|].
        rewrite <- seq_shift, flat_map_map_in. apply flat_map_ext. intros i. rewrite map_map. apply map_ext. intros; lia.
  Qed.

  Lemma uniform_first sh : forall s st u, length sh = length st -> s <> 0 -> Forall (fun x => x <> 0) st ->
    has_uniform_go s sh st = Some u -> s = prod sh * u.
  Proof.
    induction sh as [|n sh IH]; intros s [|s' st] u L NZ NZs E; cbn [length] in L; try discriminate.
    - cbn in E. injection E as ->. cbn. lia.
    - cbn [has_uniform_go] in E. inversion NZs as [|? ? NZ' NZs']; subst. destruct (_ && _) eqn:C; [discriminate|].
      apply IH in E; [|lia|assumption|assumption]. rewrite prod_cons.
      destruct (Nat.eqb_spec s 0) as [|]; [contradiction|]. cbn in C.
      destruct (Nat.eqb_spec s (n * s')) as [->|]; [|discriminate]. rewrite E. lia.
  Qed.

  Lemma nonzero_no_bcast sh : forall st, length sh = length st -> Forall (fun s => s <> 0) st -> no_bcast sh st.
  Proof.
    induction sh as [|n sh IH]; intros [|s st] L F; cbn [length] in L; try discriminate; constructor; inversion F; subst; auto.
    apply IH; [lia|assumption].
  Qed.

  Lemma k_fill_ok sh : forall (h : heap T) p st len v,
    length st = length sh -> Forall (fun s => s <> 0) st ->
    (has_uniform_stride sh st = Some 1 -> len = prod sh) ->
    (forall x, In x (offsets sh st) -> exists y, load h (fst p) (snd p + x) = Ok y) ->
    exists h', k_fill h p sh st len v = Ok h' /\ written h h' p (offsets sh st) v.
  Proof.
    induction sh as [|n sh IH]; intros h p st len v L NZ LE H.
    - destruct st; [|discriminate]. cbn [k_fill has_uniform_stride]. cbn [Nat.eqb prod fold_right].
      apply (fill_uniform_ok 1). intros k K. apply H. left. cbn; lia.
    - destruct st as [|s st]; [discriminate|]. cbn [k_fill].
      destruct (has_uniform_stride (n :: sh) (s :: st)) as [u|] eqn:U.
      + pose proof (has_uniform_spec _ _ _ (eq_sym L) (nonzero_no_bcast _ _ (eq_sym L) NZ) U) as O. fold (strided (prod (n :: sh)) u) in O.
        rewrite O in H |- *. assert (HS : forall k, k < prod (n :: sh) -> exists x, load h (fst p) (snd p + k * u) = Ok x).
        { intros k K. apply H. unfold strided. apply in_map_iff. exists k. split; [reflexivity|]. apply in_seq. lia. }
        destruct (Nat.eqb_spec u 1) as [->|]; [rewrite (LE eq_refl)|]; now apply fill_uniform_ok.
      + inversion NZ as [|? ? NZ1 NZ2]; subst. cbn [length] in L. rewrite offsets_cons.
        apply loop_ptr_ok.
        * intros h0 p0 H0. destruct sh as [|n1 sh']; [destruct st; [|discriminate]; cbn in U; discriminate|].
          destruct st as [|s1 st']; [discriminate|]. unfold vget. cbn [nth_error bind].
          apply IH; [cbn in *; lia|exact NZ2| |exact H0].
          intros U1. cbn [has_uniform_stride] in U1. inversion NZ2; subst.
          apply uniform_first in U1; [|cbn in *; lia|assumption|assumption]. rewrite prod_cons, U1. lia.
        * intros i x Hi I. apply H. rewrite offsets_cons. apply in_flat_map. exists i. split; [apply in_seq; lia|].
          apply in_map_iff. eauto.
  Qed.

  Lemma nd_fill_ok (h : heap T) a v :
    valid h a -> Forall (fun s => s <> 0) (a_stride a) ->
    (has_uniform_stride (a_shape a) (a_stride a) = Some 1 -> a_len a = prod (a_shape a)) ->
    exists h', nd_fill h a v = Ok h' /\
      (forall idx, in_range idx (a_shape a) -> get h' a idx = Ok v) /\ same_elsewhere h h' (cell_of a).
  Proof.
    intros [W V] NZ LE. unfold nd_fill.
    destruct (k_fill_ok (a_shape a) h (a_ptr a) (a_stride a) (a_len a) v W NZ LE) as (h' & E & L & A & B).
    { intros x I. unfold offsets in I. apply in_map_iff in I as (idx & <- & I). apply in_indices in I. apply V. exact I. }
    exists h'. split; [exact E|]. split.
    - intros idx R. apply A. unfold offsets. apply in_map_iff. exists idx. split; [reflexivity|]. now apply in_indices.
    - split; [congruence|]. intros b o N. apply B. intros [-> (x & I & ->)]. apply N.
      unfold offsets in I. apply in_map_iff in I as (idx & <- & I). apply in_indices in I. exists idx. auto.
  Qed.

End Facts.

Lemma nd_astype_eq {T F} (conv : T -> res F) (h : heap T) (hF : heap F) a :
  valid h a -> length (a_shape a) <= MAX_DIMS ->
  nd_astype conv h hF a =
  (vs <- mapM (fun idx => x <- get h a idx ;; conv x) (indices (a_shape a)) ;;
   Ok (hF ++ [Some vs], fresh_arr (length hF) (prod (a_shape a)) (a_shape a))).
Proof.
  intros V MD. unfold nd_astype. rewrite nd_flatiter_eq by (try assumption; apply V).
  destruct (valid_elems h a V) as (xs & E). rewrite E. cbn [bind].
  assert (G : forall l ys, mapM (get h a) l = Ok ys -> mapM conv ys = mapM (fun idx => x <- get h a idx ;; conv x) l).
  { induction l as [|i l IH]; intros ys EY; cbn [mapM] in EY.
    - injection EY as <-. reflexivity.
    - apply bind_Ok_inv in EY as (y & E1 & EY). apply bind_Ok_inv in EY as (ys' & E2 & EY). injection EY as <-.
      cbn [mapM]. rewrite E1. cbn [bind]. now rewrite (IH _ E2). }
  rewrite (G _ _ E). apply bind_ext. intros vs EV. unfold from_buffer, alloc.
  apply mapM_length in EV. rewrite indices_length in EV. now rewrite EV.
Qed.
