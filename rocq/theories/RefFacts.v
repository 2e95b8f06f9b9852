(** RefFacts.v: the model of programs against the reference machine. *)
From Coq Require Import List Arith Lia Bool ZArith Permutation.
From Verif Require Import Base Layout SpecFacts LayoutFacts Views ViewsFacts ViewsFacts2 ViewsFacts3 Kernels Access HeapFacts KernelFacts OpFacts
  AccessFacts Reduce ReduceFacts Chain ChainFacts Einsum EinsumFacts8 GradFacts Nested PropsNew PropsViews PropsOps PropsReduce PropsEinsum PropsEinsumView
  PropsWord PropsAssign Spec Prog PropsProg SpecRef.
Import ListNotations.
Open Scope res_scope.

(** what a state of the model means for the reference machine *)
Definition cells_of (a : arr) : list nat := map (fun idx => a_off a + dot idx (a_stride a)) (indices (a_shape a)).
Definition tab_of (p : arr * bool) : table := mkTable (a_blk (fst p)) (a_shape (fst p)) (cells_of (fst p)) (negb (snd p)).
Definition abs_heap {T} (h : heap T) : list (list T) := map (fun o => match o with Some l => l | None => [] end) h.
Definition abs {T} (s : @state T) : @rstate T := mkRef (abs_heap (s_heap s)) (map tab_of (s_env s)) (s_out s).

Lemma abs_load {T} (h : heap T) b o v : nth_error (nth b (abs_heap h) []) o = Some v <-> load h b o = Ok v.
Proof.
  unfold abs_heap, load. rewrite (map_nth (fun o : option (list T) => match o with Some l => l | None => [] end) h None).
  destruct (nth_error h b) as [[l|]|] eqn:E.
  - rewrite (nth_error_nth h b None E). destruct (nth_error l o); split; congruence.
  - rewrite (nth_error_nth h b None E). destruct o; split; discriminate.
  - apply nth_error_None in E. rewrite nth_overflow by exact E. destruct o; split; discriminate.
Qed.

Lemma cells_nth a idx : in_range idx (a_shape a) -> nth_error (cells_of a) (rank idx (a_shape a)) = Some (a_off a + dot idx (a_stride a)).
Proof. intros R. unfold cells_of. now rewrite nth_error_map, (nth_indices_rank _ _ R). Qed.
Lemma cell_tab a bc idx : in_range idx (a_shape a) -> cell (tab_of (a, bc)) idx = a_off a + dot idx (a_stride a).
Proof. intros R. unfold cell. cbn [tab_of t_cells t_shape fst]. apply nth_error_nth. now apply cells_nth. Qed.

Lemma views_select r a f bc : views r a f -> tab_of (r, bc) = select (tab_of (a, bc)) (a_shape r) f.
Proof.
  intros (B & _ & V). unfold tab_of, select. cbn [fst snd t_buf t_write]. rewrite B. f_equal. unfold cells_of. apply map_ext_in. intros idx I.
  apply in_indices in I. destruct (V idx I) as [R E]. rewrite E. symmetry. now apply (cell_tab a bc).
Qed.

(** arrays of the same elements in every memory have the same cells *)
Lemma elems_cells b n bc r a : chain b n bc a -> a_blk r = a_blk a -> (forall T (h : heap T), elems h r = elems h a) -> cells_of r = cells_of a.
Proof.
  intros C B E. set (h := repeat (@None (list nat)) b ++ [Some (seq 0 n)]).
  pose proof (chain_inv _ _ _ _ C) as I. assert (L : forall o, o < n -> load h b o = Ok o).
  { intros o O. unfold load, h. rewrite nth_error_app2; rewrite repeat_length; [|lia]. rewrite Nat.sub_diag. cbn [nth_error]. now rewrite nth_error_seq. }
  assert (Ea : elems h a = Ok (cells_of a)).
  { unfold elems, cells_of. apply mapM_pure_ext. intros idx J. apply in_indices in J. unfold get. rewrite (i_blk _ _ _ _ I). apply L. now apply (i_in _ _ _ _ I). }
  rewrite <- E in Ea. rewrite <- (map_id (cells_of a)).
  assert (LO : forall o v, load h b o = Ok v -> v = o).
  { intros o v. unfold load, h. rewrite nth_error_app2; rewrite repeat_length; [|lia]. rewrite Nat.sub_diag. cbn [nth_error].
    destruct (nth_error (seq 0 n) o) as [x|] eqn:N; [|discriminate]. assert (o < n) by (rewrite <- (seq_length n 0); apply nth_error_Some; congruence).
    rewrite nth_error_seq in N by lia. intros [= <-]. cbn in N. congruence. }
  unfold elems in Ea. assert (F : forall l ys, mapM (get h r) l = Ok ys -> map (fun idx => a_off r + dot idx (a_stride r)) l = ys).
  { induction l as [|x l IH]; intros ys M; cbn [mapM] in M; [now injection M as <-|]. apply bind_Ok_inv in M as (y & Y & M). apply bind_Ok_inv in M as (zs & Z & [= <-]).
    cbn [map]. f_equal; [|now apply IH]. unfold get in Y. rewrite B, (i_blk _ _ _ _ I) in Y. symmetry. now apply LO. }
  rewrite map_id. exact (F _ _ Ea).
Qed.

Lemma axis_ref k nd : as_absolute k nd = ref_axis k nd.
Proof.
  unfold ref_axis. destruct (C43_axes k nd) as [H1 H2]. destruct (Z.leb_spec (- Z.of_nat nd) k); cbn [andb]; [|apply H2; lia].
  destruct (Z.ltb_spec k (Z.of_nat nd)); [apply H1; lia|apply H2; lia].
Qed.
Lemma ref_axis_Ok k nd i : ref_axis k nd = Ok i -> (- Z.of_nat nd <= k < Z.of_nat nd)%Z /\ i = Z.to_nat (k mod Z.of_nat nd).
Proof.
  unfold ref_axis. destruct (Z.leb_spec (- Z.of_nat nd) k); cbn [andb]; [|discriminate]. destruct (Z.ltb_spec k (Z.of_nat nd)); [|discriminate]. intros [= <-]. split; [lia|reflexivity].
Qed.
Lemma ref_axis_cases k nd : (exists i, ref_axis k nd = Ok i) \/ ref_axis k nd = Panic /\ ~ (- Z.of_nat nd <= k < Z.of_nat nd)%Z.
Proof.
  unfold ref_axis. destruct (Z.leb_spec (- Z.of_nat nd) k); cbn [andb]; [|right; split; [reflexivity|lia]]. destruct (Z.ltb_spec k (Z.of_nat nd)); [eauto|right; split; [reflexivity|lia]].
Qed.

Lemma pick_okb_spec p n : pick_okb p n = true <-> pick_ok p n.
Proof. destruct p; cbn [pick_okb pick_ok]; [apply Nat.ltb_lt|]. rewrite andb_true_iff, Nat.ltb_lt, Nat.leb_le. tauto. Qed.

Lemma regions_length ixs sh : length ixs <= length sh -> length (regions ixs sh) = length ixs.
Proof. revert sh; induction ixs as [|ix ixs IH]; intros [|n sh] L; cbn [length regions] in *; try lia. rewrite IH; lia. Qed.

Lemma slice_okb ixs sh : (length ixs <=? length sh) && forallb (fun p => pick_okb (fst p) (snd p)) (combine (regions ixs sh) sh) = true <-> slice_ok ixs sh.
Proof.
  rewrite andb_true_iff, Nat.leb_le. unfold slice_ok. split; intros [L F]; (split; [exact L|]); revert sh L F.
  - induction ixs as [|ix ixs IH]; intros [|n sh] L F; cbn [length regions firstn combine forallb fst snd] in *; try lia; [constructor|constructor|].
    apply andb_true_iff in F as [F1 F2]. constructor; [now apply pick_okb_spec|]. apply IH; [lia|exact F2].
  - induction ixs as [|ix ixs IH]; intros [|n sh] L F; cbn [length regions firstn combine forallb fst snd] in *; try reflexivity; try (exfalso; lia).
    inversion F; subst. apply andb_true_iff. split; [now apply pick_okb_spec|]. apply IH; [lia|assumption].
Qed.

Lemma broadcastableb_spec sh t : broadcastableb sh t = true <-> broadcastable sh t.
Proof.
  unfold broadcastableb, broadcastable. rewrite andb_true_iff, Nat.leb_le. split; intros [L F]; (split; [exact L|]).
  - assert (LL : length sh = length (skipn (length t - length sh) t)) by (rewrite skipn_length; lia). revert LL F. generalize (skipn (length t - length sh) t). clear.
    induction sh as [|x sh IH]; intros [|y l] LL F; cbn [length combine forallb fst snd] in *; try lia; constructor.
    + apply andb_true_iff in F as [F _]. apply orb_true_iff in F as [F|F]; apply Nat.eqb_eq in F; auto.
    + apply andb_true_iff in F as [_ F]. apply IH; [lia|exact F].
  - revert F. generalize (skipn (length t - length sh) t). clear. induction sh as [|x sh IH]; intros l F; inversion F; subst; [reflexivity|]. cbn [combine forallb fst snd].
    apply andb_true_iff. split; [|now apply IH]. apply orb_true_iff. destruct H1 as [->| ->]; [now left|right; apply Nat.eqb_refl].
Qed.

Lemma nodupb_spec {A} (eqb : A -> A -> bool) (E : forall x y, eqb x y = true <-> x = y) l : nodupb eqb l = true <-> NoDup l.
Proof.
  induction l as [|x l IH]; cbn [nodupb]; [split; [constructor|reflexivity]|]. rewrite andb_true_iff, negb_true_iff, IH. split.
  - intros [H N]. constructor; [|exact N]. intros I. assert (existsb (eqb x) l = true); [|congruence]. apply existsb_exists. exists x. split; [exact I|now apply E].
  - intros N. inversion N; subst. split; [|assumption]. destruct (existsb (eqb x) l) eqn:Q; [|reflexivity]. apply existsb_exists in Q as (y & I & Y). apply E in Y. subst. contradiction.
Qed.

Lemma shapeseqb_spec a b : shapeseqb a b = true <-> a = b.
Proof.
  revert b; induction a as [|x a IH]; intros [|y b]; cbn [shapeseqb]; try (split; congruence).
  rewrite andb_true_iff, Nat.eqb_eq, IH. split; [intros [-> ->]; reflexivity|intros [= -> ->]; auto].
Qed.

Lemma mem_spec l (x : Z) : existsb (Z.eqb x) l = true <-> In x l.
Proof.
  rewrite existsb_exists. split; [intros (y & I & E); apply Z.eqb_eq in E; now subst|]. intros I. exists x. split; [exact I|apply Z.eqb_refl].
Qed.
Lemma all_mem_spec l m : forallb (fun x => existsb (Z.eqb x) m) l = true <-> forall x, In x l -> In x m.
Proof. rewrite forallb_forall. split; intros H x I; [now apply mem_spec, H|now apply mem_spec, H]. Qed.

(** ** views *)
Definition view_ok (o : vop) (a : arr) : Prop :=
  match o with VSlice _ | VSliceAlong _ _ | VDiagonal _ _ _ => 0 < prod (a_shape a) | _ => True end.
(** requests whose acceptance does not depend on the layout *)
Definition view_exact (o : vop) (a : arr) : Prop :=
  match o with VReshape _ _ => f_unif (a_fl a) = true /\ a_shape a <> [] | _ => True end.

Lemma tab_reshaped b n bc r a sh : chain b n bc a -> a_blk r = a_blk a -> a_shape r = sh -> (forall T (h : heap T), elems h r = elems h a) ->
  tab_of (r, bc) = reshaped (tab_of (a, bc)) sh.
Proof. intros C B S E. unfold tab_of, reshaped. cbn [fst snd t_buf t_cells t_write]. rewrite B, S, (elems_cells _ _ _ _ _ C B E). reflexivity. Qed.

Lemma view_ref b n bc a o : chain b n bc a -> view_allowed o a bc -> view_ok o a ->
  match view_by o a with
  | Ok (Some r) => ref_view o (tab_of (a, bc)) = Ok (Some (tab_of (r, bc || marks o)))
  | Ok None => ref_view o (tab_of (a, bc)) = Ok None
  | Panic => view_exact o a -> ref_view o (tab_of (a, bc)) = Panic
  | Oob => False
  end.
Proof.
  intros C A OK. pose proof (view_by_noob o a) as NO. pose proof (chain_inv _ _ _ _ C) as I.
  destruct o; cbn [view_by view_allowed view_ok view_exact ref_view marks] in *; cbv zeta; rewrite ?orb_false_r, ?orb_true_r; cbn [t_shape tab_of fst].
  - (* view *) now destruct m.
  - (* reshape *) subst bc. destruct (C05_reshape_partial b n a m sh C) as (K1 & K2 & K3). destruct (nd_reshape m a sh) as [r| |] eqn:E; cbn [bind] in *.
    + destruct (K1 r eq_refl) as (S & P & (B & _) & EL). rewrite P, Nat.eqb_refl. do 2 f_equal. symmetry. eapply tab_reshaped; eauto.
    + intros [U NE]. destruct (Nat.eqb_spec (prod (a_shape a)) (prod sh)) as [P|P]; [|reflexivity]. destruct (K3 U P NE). discriminate.
    + now apply NO.
  - (* transpose *) set (nd := length (a_shape a)) in *.
    destruct (ref_axis_cases i nd) as [(x & X)|[X N]]; [|rewrite X; rewrite (C06_transpose_panics m a i j ltac:(cbv zeta; fold nd; auto)); intros _; reflexivity].
    destruct (ref_axis_cases j nd) as [(y & Y)|[Y N]]; [|rewrite X, Y; rewrite (C06_transpose_panics m a i j ltac:(cbv zeta; fold nd; auto)); intros _; reflexivity].
    rewrite X, Y. cbn [bind]. apply ref_axis_Ok in X as [RX ->], Y as [RY ->]. destruct (C06_transpose b n bc a m i j C RX RY) as (r & -> & S & V & _). cbn [bind].
    unfold nd. rewrite (views_select _ _ _ _ V), S. reflexivity.
  - (* squeeze *) destruct (C07_squeeze b n bc a m C) as (S & (B & _) & E). do 2 f_equal. symmetry. eapply tab_reshaped; eauto.
  - (* unsqueeze *) destruct (C07_unsqueeze b n bc a m i C) as (K1 & K2). set (nd1 := length (a_shape a) + 1) in *.
    destruct (ref_axis_cases i nd1) as [(x & X)|[X N]]; [|rewrite X, K2 by auto; intros _; reflexivity]. rewrite X. cbn [bind]. apply ref_axis_Ok in X as [RX ->].
    destruct (K1 RX) as (r & -> & S & (B & _) & E). cbn [bind]. do 2 f_equal. symmetry. eapply tab_reshaped; eauto.
  - (* slice *) destruct (C08_slice b n bc a ixs C OK A) as (r & -> & S & V). cbn [bind]. rewrite (proj2 (slice_okb _ _) A). rewrite (views_select _ _ _ _ V), S. reflexivity.
  - (* slice_along *) destruct (ref_axis_cases i (length (a_shape a))) as [(k & K)|[K N]].
    + rewrite K. cbn [bind]. rewrite axis_ref in A. specialize (A k K). rewrite (proj2 (pick_okb_spec _ _) A).
      apply ref_axis_Ok in K as [RK ->]. destruct (C08_slice_along b n bc a i ix C OK RK A) as (r & -> & S & V). cbn [bind]. rewrite (views_select _ _ _ _ V), S. reflexivity.
    + rewrite K. unfold nd_slice_along. rewrite axis_ref, K. intros _. reflexivity.
  - (* diagonal *) set (nd := length (a_shape a)) in *.
    destruct (nd_offset_diagonal_along a o i j) as [r| |] eqn:E; cbn [bind] in *; [| |now apply NO].
    + pose proof (C30_diagonal_panics b n bc a o i j r C E) as K. cbv zeta in K. fold nd in K. destruct K as ((RX & RY & NE) & O1 & O2).
      destruct (ref_axis_cases i nd) as [(x & X)|[X N]]; [|contradiction]. destruct (ref_axis_cases j nd) as [(y & Y)|[Y N]]; [|contradiction].
      rewrite X, Y. cbn [bind]. apply ref_axis_Ok in X as [_ ->], Y as [_ ->].
      assert (LX : Z.to_nat (i mod Z.of_nat nd) < length (a_shape a) /\ Z.to_nat (j mod Z.of_nat nd) < length (a_shape a)).
      { fold nd. pose proof (Z.mod_pos_bound i (Z.of_nat nd)). pose proof (Z.mod_pos_bound j (Z.of_nat nd)). lia. }
      destruct LX as [LX LY]. apply pos_prod in OK. pose proof (proj1 (Forall_forall _ _) OK _ (nth_In _ 0 LX)) as PX. pose proof (proj1 (Forall_forall _ _) OK _ (nth_In _ 0 LY)) as PY.
      cbv beta in PX, PY.
      assert (NE' : Z.to_nat (i mod Z.of_nat nd) <> Z.to_nat (j mod Z.of_nat nd)).
      { pose proof (Z.mod_pos_bound i (Z.of_nat nd)). pose proof (Z.mod_pos_bound j (Z.of_nat nd)). lia. }
      assert (OO : (- Z.of_nat (nth (Z.to_nat (i mod Z.of_nat nd)) (a_shape a) 0%nat) < o < Z.of_nat (nth (Z.to_nat (j mod Z.of_nat nd)) (a_shape a) 0%nat))%Z) by (destruct (Z_le_dec 0 o); [specialize (O1 ltac:(lia))|specialize (O2 ltac:(lia))]; lia).
      destruct (C30_diagonal b n bc a o i j C RX RY NE' OO) as (r' & E' & S & V). assert (r' = r) by congruence. subst r'. fold nd in S, V.
      rewrite (proj2 (Nat.eqb_neq _ _) NE'), (proj2 (Z.ltb_lt _ _) (proj1 OO)), (proj2 (Z.ltb_lt _ _) (proj2 OO)). cbn [negb andb].
      rewrite (views_select _ _ _ _ V), S. reflexivity.
    + intros _. destruct (ref_axis_cases i nd) as [(x & X)|[X N]]; [|now rewrite X]. destruct (ref_axis_cases j nd) as [(y & Y)|[Y N]]; [|now rewrite X, Y]. rewrite X, Y. cbn [bind].
      destruct (Nat.eqb_spec x y) as [|NE]; cbn [negb andb]; [reflexivity|]. destruct (Z.ltb_spec (- Z.of_nat (nth x (a_shape a) 0)) o); cbn [andb]; [|reflexivity].
      destruct (Z.ltb_spec o (Z.of_nat (nth y (a_shape a) 0))); cbn [andb]; [|reflexivity]. apply ref_axis_Ok in X as [RX ->], Y as [RY ->].
      destruct (C30_diagonal b n bc a o i j C RX RY NE ltac:(split; assumption)) as (r' & E' & _). congruence.
  - (* einsum_view *) destruct A as [LS LO]. set (dm := ext [sub] [a_shape a]).
    assert (EXT : forall l, dm l = Spec.lookup sub (a_shape a) l) by (intros; unfold dm, ext; cbn [concat]; now rewrite !app_nil_r).
    destruct (agree dm sub (a_shape a)) eqn:AG; cbn [andb].
    2:{ assert (W : einsum_view a sub out = Panic); [|rewrite W; intros _; reflexivity]. apply C54_ill_formed_panics; auto.
        destruct (Nat.eq_dec (length (a_shape a)) (length sub)) as [L|L]; [|now left]. right. right. right. right.
        assert (NE : map dm sub <> a_shape a) by (intros Q; apply shapeseqb_spec in Q; unfold agree in AG; congruence).
        assert (D : exists j l, nth_error sub j = Some l /\ nth_error (a_shape a) j <> Some (dm l)).
        { clear -NE L. revert NE L. generalize (a_shape a) as sh. intros sh. generalize dm. clear. intros dm. revert sh. induction sub as [|l sub IH]; intros [|n sh] NE L; cbn [length map] in *; try lia; [easy|].
          destruct (Nat.eq_dec n (dm l)) as [->|Q]; [|exists 0, l; split; [reflexivity|cbn; congruence]]. destruct (IH sh) as (j & l' & H); [congruence|lia|]. exists (S j), l'. exact H. }
        destruct D as (j & l & J & D). assert (F : exists i, nth_error sub i = Some l /\ nth_error (a_shape a) i = Some (dm l)).
        { rewrite EXT. assert (IN : In l sub) by (eapply nth_error_In; eauto). clear -IN L. revert IN L. generalize (a_shape a). induction sub as [|x sub IH]; intros [|n sh] IN L; cbn [length] in *; try lia; [easy|]. cbn [Spec.lookup].
          destruct (Z.eqb_spec x l) as [->|NE]; [exists 0; split; reflexivity|]. destruct IN as [IN|IN]; [easy|]. destruct (IH sh IN ltac:(lia)) as (i & H). exists (S i). exact H. }
        destruct F as (i & F1 & F2). exists i, j, l. rewrite F2. split; [exact F1|]. split; [exact J|]. congruence. }
    apply shapeseqb_spec in AG. destruct (Nat.leb_spec (length sub) 32) as [L32|L32]; cbn [andb].
    2:{ rewrite C54_ill_formed_panics by auto. intros _. reflexivity. }
    destruct (nodupb Z.eqb out) eqn:ND; cbn [andb].
    2:{ rewrite C54_ill_formed_panics; auto. right. right. left. intros Q. apply (proj2 (nodupb_spec Z.eqb Z.eqb_eq out)) in Q. congruence. }
    apply (nodupb_spec Z.eqb Z.eqb_eq) in ND. destruct (forallb (fun l => existsb (Z.eqb l) sub) out) eqn:IN; cbn [andb].
    2:{ rewrite C54_ill_formed_panics; auto. right. right. right. left. destruct (forallb_forall (fun l => existsb (Z.eqb l) sub) out) as [_ Q].
        assert (D : (forall l, In l out -> In l sub) \/ exists l, In l out /\ ~ In l sub).
        { clear. induction out as [|x out IH]; [left; intros ? []|]. destruct (in_dec Z.eq_dec x sub) as [I|I]; [|right; exists x; split; [now left|exact I]].
          destruct IH as [IH|(l & ? & ?)]; [left; intros l [<-|J]; auto|right; exists l; split; [now right|auto]]. }
        destruct D as [D|D]; [|exact D]. apply all_mem_spec in D. congruence. }
    pose proof (proj1 (all_mem_spec _ _) IN) as IN'. destruct (C54_view nat [] a sub out dm LS LO ND IN' (eq_sym AG) (i_wf _ _ _ _ I) L32) as [K1 K2].
    destruct (forallb (fun l => existsb (Z.eqb l) out) sub) eqn:SUB.
    + pose proof (proj1 (all_mem_spec _ _) SUB) as SUB'. destruct (K1 SUB') as (r & -> & S & V & _). rewrite (views_select _ _ _ _ V), S. reflexivity.
    + rewrite K2; [reflexivity|]. assert (D : (forall l, In l sub -> In l out) \/ exists l, In l sub /\ ~ In l out).
      { clear. induction sub as [|x sub IH]; [left; intros ? []|]. destruct (in_dec Z.eq_dec x out) as [I|I]; [|right; exists x; split; [now left|exact I]].
        destruct IH as [IH|(l & ? & ?)]; [left; intros l [<-|J]; auto|right; exists l; split; [now right|auto]]. }
      destruct D as [D|D]; [|exact D]. apply all_mem_spec in D. congruence.
  - (* broadcast_to *) destruct (C10_broadcast_to b n bc a sh C) as [K1 K2]. destruct (broadcastableb (a_shape a) sh) eqn:B.
    + apply broadcastableb_spec in B. destruct (K1 B) as (r & -> & S & V & _). cbn [bind]. do 2 f_equal. pose proof (views_select r a _ bc V) as VS. rewrite S in VS. rewrite <- VS. reflexivity.
    + rewrite K2; [intros _; reflexivity|]. intros Q. apply broadcastableb_spec in Q. congruence.
Qed.

(** ** memory *)
Lemma nth_error_list_ext {A} : forall l m : list A, (forall i, nth_error l i = nth_error m i) -> l = m.
Proof.
  induction l as [|x l IH]; intros [|y m] H; [reflexivity|specialize (H 0); discriminate|specialize (H 0); discriminate|].
  pose proof (H 0) as H0. cbn in H0. injection H0 as ->. f_equal. apply IH. intros i. exact (H (S i)).
Qed.
Lemma bufs_ext {T} (l m : list (list T)) : length l = length m -> (forall b o, nth_error (nth b l []) o = nth_error (nth b m []) o) -> l = m.
Proof. intros L H. apply (nth_ext l m [] []); [exact L|]. intros b _. apply nth_error_list_ext. apply H. Qed.
Definition found {T} (r : res T) : option T := match r with Ok v => Some v | _ => None end.
Lemma abs_found {T} (h : heap T) b o : nth_error (nth b (abs_heap h) []) o = found (load h b o).
Proof.
  destruct (load h b o) as [v| |] eqn:E; cbn [found].
  - now apply abs_load.
  - now apply load_not_panic in E.
  - destruct (nth_error (nth b (abs_heap h) []) o) as [v|] eqn:N; [|reflexivity]. apply abs_load in N. congruence.
Qed.
Lemma abs_heap_length {T} (h : heap T) : length (abs_heap h) = length h.
Proof. apply map_length. Qed.

Lemma mapM_bind {A B C} (F : A -> res B) (g : B -> res C) : forall l xs, mapM F l = Ok xs -> mapM g xs = mapM (fun i => x <- F i ;; g x) l.
Proof.
  induction l as [|i l IH]; intros xs M; cbn [mapM] in *; [now injection M as <-|]. apply bind_Ok_inv in M as (x & X & M). apply bind_Ok_inv in M as (ys & Y & [= <-]).
  rewrite X. cbn [bind mapM]. now rewrite (IH ys Y).
Qed.

Section Refines.
  Context {T : Type}.
  Local Notation state := (@state T).
  Local Notation rstate := (@rstate T).

  Lemma data_abs (s : state) a bc : valid (s_heap s) a -> exists vs, elems (s_heap s) a = Ok vs /\ data (abs s) (tab_of (a, bc)) = Ok vs.
  Proof.
    intros V. destruct (valid_elems _ _ V) as (vs & E). exists vs. split; [exact E|]. unfold data. cbn [tab_of t_cells t_buf fst abs r_bufs]. unfold cells_of. rewrite mapM_map.
    rewrite <- E. apply mapM_ext. intros idx I. apply in_indices in I. destruct (proj2 V idx I) as (v & G). rewrite G. unfold get in G. apply abs_load in G. now rewrite G.
  Qed.
  Lemma at_get (h : heap T) a vs idx : elems h a = Ok vs -> in_range idx (a_shape a) -> at_ (a_shape a) vs idx = get h a idx.
  Proof. intros E R. destruct (nth_error_of_indices_get h a vs idx E R) as (y & N & G). unfold at_. now rewrite N, G. Qed.

  Lemma cells_fresh b n sh : cells_of (fresh_arr b n sh) = seq 0 (prod sh).
  Proof. unfold cells_of. cbn [fresh_arr a_off a_stride a_shape]. rewrite stride_from_shape_rm. cbn [Nat.add]. apply offsets_rm. Qed.

  Lemma abs_made (s : state) h' r sh val vs : fresh_result (s_heap s) h' r sh val -> mapM val (indices sh) = Ok vs ->
    abs (mkState h' (s_env s ++ [(r, false)]) (s_out s)) = ref_new (abs s) sh vs.
  Proof.
    intros ([LH X] & B & S & V & C & (l & N & LL) & G) M. unfold abs, ref_new. cbn [s_heap s_env s_out r_bufs r_env r_out].
    pose proof (mapM_length _ _ _ M) as LV. rewrite indices_length in LV. rewrite map_app. cbn [map].
    assert (EB : abs_heap h' = abs_heap (s_heap s) ++ [vs]).
    { apply bufs_ext; [rewrite app_length, !abs_heap_length; cbn; lia|]. intros b o. rewrite abs_found.
      destruct (lt_eq_lt_dec b (length (s_heap s))) as [[L| ->]|L].
      - rewrite X by exact L. rewrite app_nth1 by (rewrite abs_heap_length; exact L). symmetry. apply abs_found.
      - rewrite app_nth2 by (rewrite abs_heap_length; lia). rewrite abs_heap_length, Nat.sub_diag. cbn [nth].
        destruct (lt_dec o (prod sh)) as [L|L].
        + destruct (unrank_in_range o sh L) as [R RK]. specialize (G _ R).
          destruct (mapM_nth _ _ _ _ _ M (nth_indices_rank _ _ R)) as (v & NV & E). rewrite RK in NV. rewrite NV. rewrite E in G. unfold get in G. subst r. cbn [fresh_arr a_blk a_off a_stride] in G.
          rewrite stride_from_shape_rm, <- rank_dot, RK in G. cbn [Nat.add] in G. now rewrite G.
        + unfold load. rewrite N. rewrite (proj2 (nth_error_None l o)) by lia. rewrite (proj2 (nth_error_None vs o)) by lia. reflexivity.
      - rewrite nth_overflow by (rewrite app_length, abs_heap_length; cbn; lia). unfold load. rewrite (proj2 (nth_error_None h' b)) by lia. now destruct o. }
    rewrite EB. do 2 f_equal. f_equal. rewrite abs_heap_length, LV. subst r. unfold tab_of. cbn [fst snd]. rewrite cells_fresh. reflexivity.
  Qed.

  (** the model and the machine agree; where [ex] holds, also about rejecting *)
  Definition sim (ex : Prop) (p : res state) (q : res rstate) : Prop :=
    match p with Ok s' => q = Ok (abs s') | Panic => ex -> q = Panic | Oob => False end.

  Lemma sim_made (ex : Prop) (s : state) p q :
    match p with
    | Ok (h', r) => exists sh val vs, fresh_result (s_heap s) h' r sh val /\ mapM val (indices sh) = Ok vs /\ q = Ok (ref_new (abs s) sh vs)
    | Panic => ex -> q = Panic
    | Oob => False
    end -> sim ex (made s p) q.
  Proof.
    destruct p as [[h' r]| |]; cbn [made bind fst snd sim]; auto. intros (sh & val & vs & F & M & ->). f_equal. symmetry. eapply abs_made; eauto.
  Qed.

  Lemma sim_fop (ex : Prop) (s : state) p sh (val f : list nat -> res T) :
    ((forall idx, in_range idx sh -> exists v, val idx = Ok v) -> exists h' r, p = Ok (h', r) /\ fresh_result (s_heap s) h' r sh val) ->
    ((exists idx, in_range idx sh /\ val idx = Panic) -> p = Panic) -> (forall idx, in_range idx sh -> val idx <> Oob) ->
    (forall idx, in_range idx sh -> f idx = val idx) -> sim ex (made s p) (ref_make (abs s) sh f).
  Proof.
    intros K1 K2 NO E. unfold ref_make. rewrite (mapM_ext f val) by (intros idx I; apply E; now apply in_indices).
    destruct (all_or_one val sh NO) as [A|A].
    - destruct (K1 A) as (h' & r & -> & F). apply sim_made. destruct (mapM_Ok val (indices sh)) as (vs & M); [intros idx I; apply A; now apply in_indices|].
      exists sh, val, vs. split; [exact F|]. split; [exact M|]. now rewrite M.
    - rewrite (K2 A). cbn [made bind sim]. intros _. destruct A as (idx & R & P). rewrite (mapM_panics val _ idx); [reflexivity|now apply in_indices|exact P|].
      intros i I. apply NO. now apply in_indices.
  Qed.

  (** writes *)
  Lemma replace_length : forall (l : list T) c v, length (replace l c v) = length l.
  Proof. induction l as [|x l IH]; intros [|c] v; cbn [replace length]; auto. Qed.
  Lemma replace_nth : forall (l : list T) c v o, nth_error (replace l c v) o = if (o =? c) && (c <? length l) then Some v else nth_error l o.
  Proof.
    induction l as [|x l IH]; intros c v o.
    - cbn [replace length]. replace (c <? 0) with false by now destruct c. now rewrite andb_false_r.
    - destruct c as [|c], o as [|o]; cbn [replace length nth_error Nat.eqb andb]; auto. rewrite IH. reflexivity.
  Qed.
  Lemma fold_replace : forall cs vs (l : list T), length vs = length cs -> NoDup cs -> Forall (fun c => c < length l) cs ->
    (forall k c v, nth_error cs k = Some c -> nth_error vs k = Some v -> nth_error (fold_left (fun l q => replace l (fst q) (snd q)) (combine cs vs) l) c = Some v) /\
    (forall o, ~ In o cs -> nth_error (fold_left (fun l q => replace l (fst q) (snd q)) (combine cs vs) l) o = nth_error l o).
  Proof.
    induction cs as [|c cs IH]; intros [|v vs] l L ND F; cbn [length] in L; try discriminate; cbn [combine fold_left fst snd].
    - split; [intros [|k]; discriminate|reflexivity].
    - inversion ND; subst. inversion F; subst. destruct (IH vs (replace l c v)) as [H5 H6]; [lia|assumption|rewrite replace_length; assumption|]. split.
      + intros [|k] c' v' N1 N2; cbn [nth_error] in *.
        * injection N1 as <-. injection N2 as <-. rewrite H6 by assumption. rewrite replace_nth, Nat.eqb_refl. cbn [andb]. now rewrite (proj2 (Nat.ltb_lt _ _)) by assumption.
        * eapply H5; eauto.
      + intros o N. rewrite H6 by (intros I; apply N; now right). rewrite replace_nth. destruct (Nat.eqb_spec o c) as [->|]; [|reflexivity]. destruct N. now left.
  Qed.
  Lemma put_length (bufs : list (list T)) b cs vs : length (put bufs b cs vs) = length bufs.
  Proof. unfold put. rewrite map_length, combine_length, seq_length. lia. Qed.
  Lemma put_nth (bufs : list (list T)) b cs vs b' : b' < length bufs ->
    nth b' (put bufs b cs vs) [] = if b' =? b then fold_left (fun l q => replace l (fst q) (snd q)) (combine cs vs) (nth b' bufs []) else nth b' bufs [].
  Proof.
    intros L. unfold put. apply nth_error_nth. rewrite nth_error_map.
    assert (N : nth_error (combine (seq 0 (length bufs)) bufs) b' = Some (b', nth b' bufs [])).
    { assert (G : forall (l : list (list T)) a i, i < length l -> nth_error (combine (seq a (length l)) l) i = Some (a + i, nth i l [])).
      { clear. induction l as [|x l IH]; intros a i I; cbn [length] in I; [lia|]. cbn [length seq combine]. destruct i as [|i]; cbn [nth_error nth]; [do 2 f_equal; lia|]. rewrite IH by lia. do 2 f_equal. lia. }
      now apply G. }
    rewrite N. reflexivity.
  Qed.

  Lemma cells_nodup a : distinct a -> NoDup (cells_of a).
  Proof.
    intros D. unfold cells_of. assert (G : forall l, (forall i, In i l -> in_range i (a_shape a)) -> NoDup l -> NoDup (map (fun idx => a_off a + dot idx (a_stride a)) l)).
    { induction l as [|i l IH]; intros H ND; [constructor|]. inversion ND; subst. cbn [map]. constructor.
      - intros J. apply in_map_iff in J as (j & E & J). assert (j = i); [|congruence]. apply D; [apply H; now right|apply H; now left|lia].
      - apply IH; [|assumption]. intros j J. apply H. now right. }
    apply G; [|apply NoDup_indices]. intros i J. now apply in_indices.
  Qed.
  Lemma cells_in a b o : b = a_blk a -> In o (cells_of a) <-> cell_of a b o.
  Proof.
    intros ->. unfold cells_of, cell_of. rewrite in_map_iff. split; [intros (idx & E & I)|intros (idx & R & _ & E)]; exists idx; [|split; [lia|now apply in_indices]].
    split; [now apply in_indices|]. split; [reflexivity|lia].
  Qed.

  (** new contents of some cells of one array *)
  Lemma abs_put (s : state) h' b cs vs : length vs = length cs -> NoDup cs -> (forall c, In c cs -> exists v, load (s_heap s) b c = Ok v) -> b < length (s_heap s) ->
    same_elsewhere (s_heap s) h' (fun b' o => b' = b /\ In o cs) ->
    (forall k c v, nth_error cs k = Some c -> nth_error vs k = Some v -> load h' b c = Ok v) ->
    abs (mkState h' (s_env s) (s_out s)) = mkRef (put (r_bufs (abs s)) b cs vs) (r_env (abs s)) (r_out (abs s)).
  Proof.
    intros LV ND IN LB [LH SE] W. unfold abs. cbn [s_heap s_env s_out r_bufs r_env r_out]. f_equal. apply bufs_ext; [rewrite put_length, !abs_heap_length; auto|].
    assert (F : Forall (fun c => c < length (nth b (abs_heap (s_heap s)) [])) cs).
    { apply Forall_forall. intros c I. destruct (IN c I) as (v & L). apply abs_load in L. apply nth_error_Some. congruence. }
    destruct (fold_replace cs vs (nth b (abs_heap (s_heap s)) []) LV ND F) as [F1 F2].
    intros b' o. destruct (le_lt_dec (length (s_heap s)) b') as [L|L]; [rewrite !nth_overflow by (rewrite ?put_length, ?abs_heap_length; lia); reflexivity|].
    rewrite put_nth by (rewrite abs_heap_length; exact L). destruct (Nat.eqb_spec b' b) as [->|NB].
    - destruct (in_dec Nat.eq_dec o cs) as [I|I].
      + destruct (In_nth_error _ _ I) as (k & K). destruct (nth_error vs k) as [v|] eqn:V; [|apply nth_error_None in V; assert (k < length cs) by (apply nth_error_Some; congruence); lia].
        rewrite (F1 _ _ _ K V). apply abs_load. eapply W; eauto.
      + rewrite F2 by exact I. rewrite !abs_found, SE; [reflexivity|]. intros [_ Q]. contradiction.
    - rewrite !abs_found, SE; [reflexivity|]. intros [Q _]. contradiction.
  Qed.
  Lemma abs_array_put (s : state) h' a bc vs : valid (s_heap s) a -> distinct a -> 0 < prod (a_shape a) -> same_elsewhere (s_heap s) h' (cell_of a) -> elems h' a = Ok vs ->
    abs (mkState h' (s_env s) (s_out s)) = ref_put (abs s) (tab_of (a, bc)) vs.
  Proof.
    intros [W V] D P SE E. unfold ref_put. cbn [tab_of t_buf t_cells fst]. apply abs_put.
    - apply mapM_length in E. unfold cells_of. now rewrite map_length.
    - now apply cells_nodup.
    - intros c I. apply (cells_in a _ _ eq_refl) in I as (idx & R & _ & ->). apply V in R. exact R.
    - destruct (V _ (zero_in_range _ P)) as (v & L). unfold get in L. now apply load_lt in L.
    - destruct SE as [LH SE]. split; [exact LH|]. intros b o N. apply SE. intros Q. apply N. pose proof Q as (_ & _ & -> & _). split; [reflexivity|]. now apply (cells_in a _ _ eq_refl).
    - intros k c v K L. unfold cells_of in K. rewrite nth_error_map in K. destruct (nth_error (indices (a_shape a)) k) as [idx|] eqn:N; [|discriminate]. injection K as <-.
      destruct (mapM_nth _ _ _ _ _ E N) as (y & Y & G). assert (y = v) by congruence. subst. exact G.
  Qed.
End Refines.
