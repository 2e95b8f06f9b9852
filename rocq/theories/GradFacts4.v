(** GradFacts4.v: the engine follows the reference machine of SpecGrad. *)
From Coq Require Import List Arith Lia Bool ZArith Permutation Ring.
From Verif Require Import Base Spec Layout SpecFacts LayoutFacts Views ViewsFacts ViewsFacts2 ViewsFacts3 ViewsFacts4
  Kernels Access HeapFacts KernelFacts OpFacts AccessFacts Chain ChainFacts Reduce ReduceFacts Einsum EinsumFacts2
  PropsViews PropsOps PropsReduce PropsEinsum SpecGrad Autograd GradMath GradFacts GradFacts2 GradFacts3.
Import ListNotations.
Open Scope res_scope.

(** ** shapes *)
Lemma nth_ones k l d : nth k (l ++ repeat 1 d) 1 = nth k l 1.
Proof.
  destruct (Nat.ltb_spec k (length l)); [now rewrite app_nth1 by auto|]. rewrite app_nth2, (nth_overflow l) by auto.
  generalize (k - length l) as j. clear. induction d; intros [|j]; cbn; auto.
Qed.
Lemma combine_snoc {A B} (l : list A) (m : list B) a b : length l = length m -> combine (l ++ [a]) (m ++ [b]) = combine l m ++ [(a, b)].
Proof. revert m. induction l as [|x l IH]; intros [|y m] E; cbn in *; try discriminate; auto. rewrite IH by lia. reflexivity. Qed.
Lemma combine_rev {A B} (l : list A) (m : list B) : length l = length m -> combine (rev l) (rev m) = rev (combine l m).
Proof.
  revert m. induction l as [|x l IH]; intros [|y m] E; cbn in *; try discriminate; auto.
  rewrite combine_snoc by (rewrite !rev_length; lia). rewrite IH by lia. reflexivity.
Qed.
Lemma ones_left_length n l : length (ones_left n l) = Nat.max n (length l).
Proof. unfold ones_left. rewrite app_length, repeat_length. lia. Qed.
Lemma rev_repeat {A} (x : A) n : rev (repeat x n) = repeat x n.
Proof. induction n; cbn; auto. rewrite IHn. clear. induction n; cbn; auto. now rewrite IHn. Qed.
Lemma nth_join k : forall l m, length l = length m ->
  nth k (map (fun p => dim_join (fst p) (snd p)) (combine l m)) 1 = dim_join (nth k l 1) (nth k m 1).
Proof. induction k; intros [|x l] [|y m] L; cbn in *; try discriminate; auto. Qed.
Lemma dim_r_join a b k : dim_r (join a b) k = dim_join (dim_r a k) (dim_r b k).
Proof.
  unfold dim_r, join. rewrite <- map_rev, <- combine_rev by (rewrite !ones_left_length; lia).
  assert (E : forall n l, nth k (rev (ones_left n l)) 1 = nth k (rev l) 1).
  { intros n l. unfold ones_left. rewrite rev_app_distr, rev_repeat. apply nth_ones. }
  rewrite <- (E (length b) a), <- (E (length a) b).
  assert (L : length (rev (ones_left (length b) a)) = length (rev (ones_left (length a) b))) by (rewrite !rev_length, !ones_left_length; lia).
  now apply nth_join.
Qed.
Lemma join_spec a b : (exists k, ~ dim_compat (dim_r a k) (dim_r b k)) \/ join_shape a b (join a b).
Proof.
  assert (DEC : forall k, {dim_compat (dim_r a k) (dim_r b k)} + {~ dim_compat (dim_r a k) (dim_r b k)}).
  { intros k. unfold dim_compat. destruct (Nat.eq_dec (dim_r a k) (dim_r b k)); [auto|].
    destruct (Nat.eq_dec (dim_r a k) 1); [auto|]. destruct (Nat.eq_dec (dim_r b k) 1); [auto|]. right. lia. }
  destruct (Forall_Exists_dec _ DEC (seq 0 (Nat.max (length a) (length b)))) as [H|H].
  - right. split; [unfold join; rewrite map_length, combine_length, !ones_left_length; lia|]. intros k. split; [|apply dim_r_join].
    destruct (Nat.ltb_spec k (Nat.max (length a) (length b))).
    + rewrite Forall_forall in H. apply H, in_seq. lia.
    + left. now rewrite !dim_r_over by lia.
  - left. apply Exists_exists in H as (k & _ & H). now exists k.
Qed.

(** ** dual numbers *)
Lemma dual_total_fst {T} (N : num T) l : fst (total (dual N) l) = total N (map fst l).
Proof. induction l; [reflexivity|]. cbn [map]. rewrite !total_cons. cbn [dual nadd fst snd]. now rewrite <- IHl. Qed.
Lemma dual_total_snd {T} (N : num T) l : snd (total (dual N) l) = total N (map snd l).
Proof. induction l; [reflexivity|]. cbn [map]. rewrite !total_cons. cbn [dual nadd fst snd]. now rewrite <- IHl. Qed.

Lemma Ok_inj {A} (x y : A) : Ok x = Ok y -> x = y. Proof. congruence. Qed.

(** ** copies *)
Section Copy.
  Context {T : Type}.
  Implicit Types h : heap T.
  Lemma clone_made h a sh v : good h a sh v -> length sh <= MAX_DIMS ->
    exists h1, nd_clone h a = Ok (h1, fresh_arr (length h) (prod sh) sh) /\ made h h1 (fresh_arr (length h) (prod sh) sh) sh v.
  Proof.
    intros G MD. pose proof (good_shape _ _ _ _ G) as S. rewrite <- S in MD.
    destruct (nd_clone_ok h a (good_valid _ _ _ _ G) (good_flags _ _ _ _ G) (good_tight _ _ _ _ G) (fun _ => good_nb _ _ _ _ G) MD) as (vs & E & L & C & _).
    rewrite S in *. exists (h ++ [Some vs]). split; [auto|]. unfold elems in E. rewrite S in E.
    eapply made_of; [|intros idx R; now apply (good_get _ _ _ _ _ G)|apply rmaj_fresh].
    apply fresh_result_of; [now apply (good_prod _ _ _ _ G)|exact E].
  Qed.

  (** an operation computed on a row-major original and applied to its copy *)
  Lemma squeeze_copy a b : a_shape b = a_shape a -> rmaj a -> rmaj b ->
    reshaped_view ByValue b (a_shape (nd_squeeze ByValue a)) (a_stride (nd_squeeze ByValue a)) = nd_squeeze ByValue b.
  Proof. unfold rmaj. intros S A B. unfold nd_squeeze. rewrite reshaped_view_shape, reshaped_view_stride. now rewrite B, A, S. Qed.
  Lemma unsqueeze_copy a b axis r : a_shape b = a_shape a -> rmaj a -> rmaj b -> nd_unsqueeze ByValue a axis = Ok r ->
    nd_unsqueeze ByValue b axis = Ok (reshaped_view ByValue b (a_shape r) (a_stride r)).
  Proof.
    unfold rmaj. intros S A B E. assert (SS : a_stride b = a_stride a) by (rewrite B, A; now rewrite S).
    unfold nd_unsqueeze in *. rewrite S, SS. destruct (as_absolute axis (length (a_shape a) + 1)); try discriminate. cbn [bind] in *.
    destruct (_ =? _).
    - apply Ok_inj in E. subst r. now rewrite reshaped_view_shape, reshaped_view_stride.
    - destruct (vinsert (a_shape a) _ _); try discriminate. cbn [bind] in *. destruct (vget (a_stride a) _); try discriminate. cbn [bind] in *.
      destruct (vget _ _); try discriminate. cbn [bind] in *. destruct (vinsert (a_stride a) _ _); try discriminate. cbn [bind] in *.
      apply Ok_inj in E. subst r. now rewrite reshaped_view_shape, reshaped_view_stride.
  Qed.
  Lemma reshape_copy a b sh r : a_shape b = a_shape a -> rmaj a -> rmaj b -> f_unif (a_fl b) = true -> nd_reshape ByValue a sh = Ok r ->
    nd_reshape ByValue b sh = Ok (reshaped_view ByValue b (a_shape r) (a_stride r)).
  Proof.
    unfold rmaj. intros S A B U E. assert (SS : a_stride b = a_stride a) by (rewrite B, A; now rewrite S).
    unfold nd_reshape in *. rewrite S, SS, U. destruct (list_eqb sh (a_shape a)).
    - apply Ok_inj in E. subst r. unfold nd_view. rewrite reshaped_view_shape, reshaped_view_stride. now rewrite S, SS.
    - destruct (f_unif (a_fl a)); try discriminate. cbn [guard bind] in *. destruct (guard _); try discriminate. cbn [bind] in *.
      destruct (csub _ _); try discriminate. cbn [bind] in *. destruct (vget _ _); try discriminate. cbn [bind] in *.
      apply Ok_inj in E. subst r. now rewrite reshaped_view_shape, reshaped_view_stride.
  Qed.
End Copy.

Section Sim.
  Context {T : Type} (N : num T) (inv0 : T -> T).
  Hypothesis F : is_field N inv0.
  Add Ring T_ring4 : (field_ring N inv0 F).
  Notation ghost := (list (list nat * (@pert T -> list nat -> T))).
  Implicit Types h : heap T.

  (** the value of a reference tensor *)
  Definition sv (s : stensor) (idx : list nat) : T := fst (s_val s (fun _ _ => n0 N) idx).
  Definition sd (s : stensor) : @pert T -> list nat -> T := fun d idx => snd (s_val s d idx).

  Record tensor_ok (lv : list arr) (Lsh : list (list nat)) (Gh : ghost) (h : heap T) (t : tensor) (s : stensor (T := T)) : Prop := mkTok {
    k_rg : t_rg t = s_rg s;
    k_good : sgood lv h (t_arr t) (s_shape s) (sv s);
    k_fst : forall d idx, in_range idx (s_shape s) -> fst (s_val s d idx) = sv s idx;
    k_rm : s_rm s = true -> rmaj (t_arr t);
    k_fn : rspec N Lsh Gh (t_fn t) (s_shape s) (sd s);
    k_md : length (s_shape s) <= MAX_DIMS;
    k_none : t_rg t = false -> t_fn t = RNone;
    k_leaf : forall k, t_fn t = RLeaf k <-> s_leaf s = Some k }.

  Record Sim (st : gstate) (ss : sstate) (Gh : ghost) : Prop := mkSim {
    m_len : length Gh = length (g_nodes st);
    m_ts : Forall2 (tensor_ok (g_leaves st) (s_leaves ss) Gh (g_heap st)) (g_ts st) (s_ts ss);
    m_lives : lives (g_leaves st) (s_leaves ss) (g_heap st) (s_G ss);
    m_nodes : nodes_ok N (g_leaves st) (s_leaves ss) (g_nodes st) Gh (g_heap st);
    m_shapes : forall sh, In sh (s_leaves ss) \/ In sh (map fst Gh) -> In sh (map s_shape (s_ts ss)) }.

  (** *** growing the lists *)
  Lemma rspec_mono Lsh Gh l g r sh D : rspec N Lsh Gh r sh D -> rspec N (Lsh ++ l) (Gh ++ g) r sh D.
  Proof.
    destruct r as [|k|m]; cbn [rspec]; [auto|intros [E H]|intros (D' & E & H)].
    - split; [|auto]. rewrite nth_error_app1; [auto|]. apply nth_error_Some. congruence.
    - exists D'. split; [|auto]. rewrite nth_error_app1; [auto|]. apply nth_error_Some. congruence.
  Qed.
  Lemma rspec_depth Lsh Gh r sh D : rspec N Lsh Gh r sh D -> depth r <= length Gh.
  Proof. destruct r as [|k|m]; cbn; try lia. intros (D' & E & _). assert (m < length Gh) by (apply nth_error_Some; congruence). lia. Qed.
  Lemma op1_mono Lsh Gh l g m r sh D : op1 N Lsh Gh m r sh D -> op1 N (Lsh ++ l) (Gh ++ g) m r sh D.
  Proof. intros (H & ? & ?). split; [now apply rspec_mono|auto]. Qed.
  Definition above h (lv1 : list arr) : Prop := forall a, In a lv1 -> length h <= a_blk a.
  Lemma above_nil h : above h []. Proof. intros a []. Qed.
  Lemma sgood_mono lv lv1 h a sh v : sgood lv h a sh v -> above h lv1 -> sgood (lv ++ lv1) h a sh v.
  Proof.
    intros [G NB] A. split; [auto|]. rewrite map_app. intros I. apply in_app_or in I as [I|I]; [auto|].
    apply in_map_iff in I as (x & E & I). apply A in I. apply good_blk in G. lia.
  Qed.
  Lemma sgood_v lv h a sh v v' : sgood lv h a sh v -> (forall idx, in_range idx sh -> v idx = v' idx) -> sgood lv h a sh v'.
  Proof. intros [G NB] E. split; [|auto]. eapply good_v; eauto. Qed.
  Lemma node_mono lv lv1 Lsh l Gh g h m nd sh D : above h lv1 -> node_ok N lv Lsh Gh h m nd sh D -> node_ok N (lv ++ lv1) (Lsh ++ l) (Gh ++ g) h m nd sh D.
  Proof.
    intros A. destruct nd; cbn [node_ok]; intros H.
    - destruct H as (Dx & Dy & ? & ? & ?). exists Dx, Dy. repeat (split; [now apply op1_mono|]). auto.
    - destruct H as (Dx & Dy & ? & ? & ?). exists Dx, Dy. repeat (split; [now apply op1_mono|]). auto.
    - destruct H as (sx & sy & vx & vy & Dx & Dy & ? & ? & ? & ? & ? & ?). exists sx, sy, vx, vy, Dx, Dy. repeat (split; [now apply op1_mono|]). split; [auto|]. repeat (split; [now apply sgood_mono|]). auto.
    - destruct H as (Dx & ? & ?). exists Dx. split; [now apply op1_mono|]. auto.
    - destruct H as (sx & sy & vx & vy & Dx & Dy & ? & ? & ? & ? & ? & ?). exists sx, sy, vx, vy, Dx, Dy. repeat (split; [now apply op1_mono|]). split; [auto|]. repeat (split; [now apply sgood_mono|]). auto.
    - destruct H as (Dx & ? & ?). exists Dx. split; [now apply op1_mono|]. auto.
    - destruct H as (Dx & ? & ?). exists Dx. split; [now apply op1_mono|]. auto.
    - destruct H as (n & vx & vy & Dx & Dy & ? & ? & ? & ? & ?). exists n, vx, vy, Dx, Dy. repeat (split; [now apply op1_mono|]). repeat (split; [now apply sgood_mono|]). auto.
    - destruct H as (n & k & vx & vy & Dx & Dy & ? & ? & ? & ? & ?). exists n, k, vx, vy, Dx, Dy. repeat (split; [now apply op1_mono|]). repeat (split; [now apply sgood_mono|]). auto.
    - destruct H as (n & k & p & vx & vy & Dx & Dy & ? & ? & ? & ? & ?). exists n, k, p, vx, vy, Dx, Dy. repeat (split; [now apply op1_mono|]). repeat (split; [now apply sgood_mono|]). auto.
    - destruct H as (q & n & k & p & vx & vy & Dx & Dy & ? & ? & ? & ? & ?). exists q, n, k, p, vx, vy, Dx, Dy. repeat (split; [now apply op1_mono|]). repeat (split; [now apply sgood_mono|]). auto.
    - destruct H as (Dx & ? & ?). exists Dx. split; [now apply op1_mono|]. auto.
    - destruct H as (s & Dx & ? & ?). exists s, Dx. split; [now apply op1_mono|]. auto.
  Qed.
  Lemma tensor_mono lv lv1 Lsh l Gh g h h' t s : tensor_ok lv Lsh Gh h t s -> above h lv1 -> keeps lv h h' -> extends h h' \/ lv1 = [] ->
    tensor_ok (lv ++ lv1) (Lsh ++ l) (Gh ++ g) h' t s.
  Proof.
    intros [K1 K2 K3 K4 K5 K6 K7 K8] A K X. constructor; auto; [|now apply rspec_mono].
    destruct X as [X| ->]; [|rewrite app_nil_r; eapply sgood_keeps; eauto].
    pose proof (sgood_mono _ _ _ _ _ _ K2 A) as [G NB]. split; [|auto]. eapply good_extends; eauto.
  Qed.
  Lemma tensors_mono lv lv1 Lsh l Gh g h h' ts ss : Forall2 (tensor_ok lv Lsh Gh h) ts ss -> above h lv1 -> keeps lv h h' -> extends h h' \/ lv1 = [] ->
    Forall2 (tensor_ok (lv ++ lv1) (Lsh ++ l) (Gh ++ g) h') ts ss.
  Proof. intros H A K X. induction H; constructor; auto. eapply tensor_mono; eauto. Qed.

  Lemma Forall2_get {A B} (R : A -> B -> Prop) l m i : Forall2 R l m ->
    vget l i = Panic \/ exists x y, vget l i = Ok x /\ nth_error l i = Some x /\ nth_error m i = Some y /\ R x y.
  Proof.
    intros H. revert i. induction H as [|x y l m Hxy H IH]; intros [|i]; unfold vget in *; cbn; auto.
    right. exists x, y. auto.
  Qed.
  Lemma small_last (ss : sstate (T := T)) (t : stensor (T := T)) : small (s_push ss t) -> length (s_shape t) <= MAX_DIMS.
  Proof. unfold small, s_push. cbn. intros H. apply Forall_app in H as [_ H]. now apply Forall_inv in H. Qed.

  (** *** adding a tensor *)
  Lemma sim_push st ss Gh h1 nd sh D t s : Sim st ss Gh -> extends (g_heap st) h1 ->
    node_ok N (g_leaves st) (s_leaves ss) Gh h1 (length (g_nodes st)) nd sh D -> length sh <= MAX_DIMS ->
    tensor_ok (g_leaves st) (s_leaves ss) (Gh ++ [(sh, D)]) h1 t s -> s_shape s = sh ->
    Sim (mkG h1 (g_leaves st) (g_nodes st ++ [nd]) (g_ts st ++ [t])) (s_push ss s) (Gh ++ [(sh, D)]).
  Proof.
    intros [ML MT MLV MN MS] X OK MD TK ES. constructor; cbn [g_heap g_leaves g_nodes g_ts s_push s_ts s_leaves s_G].
    - rewrite !app_length. cbn. lia.
    - apply Forall2_app; [|auto]. rewrite <- (app_nil_r (g_leaves st)), <- (app_nil_r (s_leaves ss)).
      eapply tensors_mono; eauto using above_nil, keeps_extends.
    - eapply lives_extends; eauto.
    - intros m nd' E. destruct (Nat.ltb_spec m (length (g_nodes st))).
      + rewrite nth_error_app1 in E by auto. destruct (MN m nd' E) as (sh' & D' & E' & MD' & OK').
        exists sh', D'. split; [rewrite nth_error_app1; [auto|]; apply nth_error_Some; congruence|]. split; [auto|].
        rewrite <- (app_nil_r (g_leaves st)), <- (app_nil_r (s_leaves ss)). apply node_mono; [apply above_nil|].
        eapply node_keeps; eauto using keeps_extends.
      + rewrite nth_error_app2 in E by auto. destruct (m - length (g_nodes st)) as [|j] eqn:Q; [|destruct j; discriminate].
        injection E as <-. assert (m = length (g_nodes st)) by lia. subst m. exists sh, D.
        split; [rewrite nth_error_app2, ML, Nat.sub_diag by lia; reflexivity|]. split; [auto|].
        rewrite <- (app_nil_r (g_leaves st)), <- (app_nil_r (s_leaves ss)). apply node_mono; [apply above_nil|auto].
    - intros sh' I. rewrite map_app in I. rewrite map_app, in_app_iff. cbn [map fst] in *. rewrite in_app_iff in I. rewrite ES. cbn [In] in *.
      destruct I as [I|[I|[<-|[]]]]; auto.
  Qed.
  Lemma sim_push0 st ss Gh h1 t s : Sim st ss Gh -> extends (g_heap st) h1 ->
    tensor_ok (g_leaves st) (s_leaves ss) Gh h1 t s ->
    Sim (mkG h1 (g_leaves st) (g_nodes st) (g_ts st ++ [t])) (s_push ss s) Gh.
  Proof.
    intros [ML MT MLV MN MS] X TK. constructor; cbn [g_heap g_leaves g_nodes g_ts s_push s_ts s_leaves s_G]; auto.
    - apply Forall2_app; [|auto]. rewrite <- (app_nil_r (g_leaves st)), <- (app_nil_r (s_leaves ss)), <- (app_nil_r Gh).
      eapply tensors_mono; eauto using above_nil, keeps_extends.
    - eapply lives_extends; eauto.
    - eapply nodes_keeps; eauto using keeps_extends.
    - intros sh' I. rewrite map_app, in_app_iff. auto.
  Qed.

  (** the result of an operator *)
  Lemma sim_op st ss Gh h1 a (rg rm : bool) nd sh v val : Sim st ss Gh -> extends (g_heap st) h1 -> sgood (g_leaves st) h1 a sh v ->
    (rm = true -> rmaj a) -> length sh <= MAX_DIMS ->
    (forall d idx, in_range idx sh -> fst (val d idx) = v idx) ->
    (rg = true -> node_ok N (g_leaves st) (s_leaves ss) Gh h1 (length (g_nodes st)) nd sh (fun d idx => snd (val d idx))) ->
    (rg = false -> forall d idx, in_range idx sh -> snd (val d idx) = n0 N) ->
    exists Gh', Sim (push_op st h1 a rg nd) (s_push ss (mkS rg None rm sh val)) Gh'.
  Proof.
    intros SM X G RM MD FST ND NR. unfold push_op. destruct rg.
    - exists (Gh ++ [(sh, fun d idx => snd (val d idx))]). apply sim_push; auto. constructor; cbn; auto; try easy.
      + apply (sgood_v _ _ _ _ v); [auto|]. intros idx R. unfold sv. cbn. now rewrite FST.
      + intros d idx R. unfold sv. cbn. now rewrite !FST.
      + exists (fun d idx => snd (val d idx)). split; [|auto]. rewrite nth_error_app2, (m_len _ _ _ SM), Nat.sub_diag by (rewrite (m_len _ _ _ SM); lia). reflexivity.
    - exists Gh. apply sim_push0; auto. constructor; cbn; auto; try easy.
      + apply (sgood_v _ _ _ _ v); [auto|]. intros idx R. unfold sv. cbn. now rewrite FST.
      + intros d idx R. unfold sv. cbn. now rewrite !FST.
      + intros d idx R. now apply NR.
  Qed.
  (** a result that shows the operand's gradient *)
  Lemma sim_same st ss Gh h1 a (rm : bool) x s v val : Sim st ss Gh -> extends (g_heap st) h1 ->
    tensor_ok (g_leaves st) (s_leaves ss) Gh (g_heap st) x s -> sgood (g_leaves st) h1 a (s_shape s) v -> (rm = true -> rmaj a) ->
    (forall d idx, in_range idx (s_shape s) -> fst (val d idx) = v idx) ->
    (forall d idx, in_range idx (s_shape s) -> snd (val d idx) = snd (s_val s d idx)) ->
    exists Gh', Sim (push_same st h1 a x) (s_push ss (mkS (s_rg s) (s_leaf s) rm (s_shape s) val)) Gh'.
  Proof.
    intros SM X K G RM FST SND. exists Gh. apply sim_push0; auto. destruct K as [K1 K2 K3 K4 K5 K6 K7 K8].
    assert (E : (if t_rg x then t_fn x else RNone) = t_fn x) by (destruct (t_rg x) eqn:Q; [auto|symmetry; auto]).
    rewrite E. constructor; cbn; auto.
    - apply (sgood_v _ _ _ _ v); [auto|]. intros idx R. unfold sv. cbn. now rewrite FST.
    - intros d idx R. unfold sv. cbn. now rewrite !FST.
    - destruct (t_fn x) as [|k|m]; cbn [rspec] in *.
      + intros d idx R. unfold sd. cbn. rewrite SND by auto. now apply K5.
      + destruct K5 as [K5 K5']. split; [auto|]. intros d idx R. unfold sd. cbn. rewrite SND by auto. now apply K5'.
      + destruct K5 as (D' & K5 & K5'). exists D'. split; [auto|]. intros d idx R. unfold sd. cbn. rewrite SND by auto. now apply K5'.
  Qed.

  (** new contents of the gradient arrays *)
  Lemma sim_keeps st ss Gh h1 G' : Sim st ss Gh -> keeps (g_leaves st) (g_heap st) h1 -> lives (g_leaves st) (s_leaves ss) h1 G' ->
    Sim (mkG h1 (g_leaves st) (g_nodes st) (g_ts st)) (mkSS (s_ts ss) (s_leaves ss) G') Gh.
  Proof.
    intros [ML MT MLV MN MS] K L. constructor; cbn; auto.
    - rewrite <- (app_nil_r (g_leaves st)), <- (app_nil_r (s_leaves ss)), <- (app_nil_r Gh). eapply tensors_mono; eauto using above_nil.
    - eapply nodes_keeps; eauto.
  Qed.

  Definition outc (r : res gstate) (ss : sstate) : Prop := r = Panic \/ exists st' Gh', r = Ok st' /\ Sim st' ss Gh'.
  Lemma outc_ok st ss : (exists Gh, Sim st ss Gh) -> outc (Ok st) ss.
  Proof. intros (Gh & H). right. eauto. Qed.

  Lemma total_all0 {A} (f : A -> T) l : (forall x, In x l -> f x = n0 N) -> total N (map f l) = n0 N.
  Proof. intros H. transitivity (total N (map (fun _ => n0 N) l)); [now apply (total_ext N)|apply (total_zero N inv0 F)]. Qed.

  Section Step.
    Variables (st : gstate (T := T)) (ss : sstate (T := T)) (Gh : ghost).
    Hypothesis SM : Sim st ss Gh.
    Notation lv := (g_leaves st). Notation Lsh := (s_leaves ss). Notation hp := (g_heap st).
    Notation tok := (tensor_ok lv Lsh Gh hp).

    Lemma get1 i : vget (g_ts st) i = Panic \/ exists x s, vget (g_ts st) i = Ok x /\ nth_error (g_ts st) i = Some x /\ nth_error (s_ts ss) i = Some s /\ tok x s.
    Proof. apply Forall2_get, (m_ts _ _ _ SM). Qed.
    Lemma tok_op x s : tok x s -> op1 N Lsh Gh (length (g_nodes st)) (t_fn x) (s_shape s) (sd s).
    Proof. intros K. split; [apply K|]. split; [|apply K]. rewrite <- (m_len _ _ _ SM). eapply rspec_depth. apply K. Qed.
    Lemma tok_shape x s : tok x s -> a_shape (t_arr x) = s_shape s.
    Proof. intros K. apply (good_shape _ _ _ _ (proj1 (k_good _ _ _ _ _ _ K))). Qed.
    Lemma tok_zero x s d idx : tok x s -> s_rg s = false -> in_range idx (s_shape s) -> sd s d idx = n0 N.
    Proof. intros [K1 K2 K3 K4 K5 K6 K7 K8] E R. rewrite K7 in K5 by congruence. now apply K5. Qed.
    Lemma made_s h1 r sh v : made hp h1 r sh v -> sgood lv h1 r sh v.
    Proof. intros M. eapply made_sgood; eauto. apply (m_lives _ _ _ SM). Qed.
    Lemma tok_ext x s h1 : tok x s -> extends hp h1 -> sgood lv h1 (t_arr x) (s_shape s) (sv s).
    Proof. intros K X. eapply sgood_keeps; [apply K|now apply keeps_extends]. Qed.

    Ltac with1 i x s K := destruct (get1 i) as [->|(x & s & -> & ? & ? & K)]; [now left|]; cbn [bind]; cbn [sstep]; unfold with2, with1;
      match goal with H : nth_error (s_ts ss) i = Some s |- _ => rewrite !H end.

    Lemma new_step sh data : small (sstep N ss (INew sh data)) -> outc (exec N st (INew sh data)) (sstep N ss (INew sh data)).
    Proof.
      intros SMALL. cbn [exec sstep] in *. apply small_last in SMALL. destruct (new_array_made hp sh data (n0 N)) as [(h1 & r & E & M)|E]; rewrite E; [|now left].
      cbn [bind]. apply outc_ok. exists Gh. apply sim_push0; [auto|apply M|]. constructor; cbn; auto; try easy.
      - apply (sgood_v _ _ _ _ (fun idx => nth (rank idx sh) data (n0 N))); [now apply made_s|]. reflexivity.
      - intros _. apply M.
    Qed.
    Lemma neg_step i : small (sstep N ss (INeg i)) -> outc (exec N st (INeg i)) (sstep N ss (INeg i)).
    Proof.
      cbn [exec]. with1 i x s K. intros SMALL. apply small_last in SMALL. cbn in SMALL.
      destruct (a_neg_ok N hp (t_arr x) (s_shape s) (sv s) (proj1 (k_good _ _ _ _ _ _ K)) (k_md _ _ _ _ _ _ K)) as (h1 & r & E & M).
      rewrite E. cbn [bind]. apply outc_ok. rewrite (k_rg _ _ _ _ _ _ K), (tok_shape _ _ K). 
      apply (sim_op _ _ Gh _ _ _ _ _ _ _ _ SM (proj1 M) (made_s _ _ _ _ M)); auto.
      - intros _. apply M. 
      - intros d idx R. cbn. now rewrite (k_fst _ _ _ _ _ _ K).
      - intros _. exists (sd s). split; [now apply tok_op|]. split; [auto|]. reflexivity.
      - intros Q d idx R. cbn. fold (sd s d idx). rewrite (tok_zero _ _ _ _ K) by auto. ring.
    Qed.

    Lemma bin_step o i j : small (sstep N ss (IBin o i j)) -> outc (exec N st (IBin o i j)) (sstep N ss (IBin o i j)).
    Proof.
      cbn [exec]. with1 i x sx Kx. with1 j y sy Ky. intros SMALL. apply small_last in SMALL. cbn in SMALL.
      destruct (join_spec (s_shape sx) (s_shape sy)) as [J|J].
      { left. rewrite a_bin_panic; [reflexivity|]. now rewrite (tok_shape _ _ Kx), (tok_shape _ _ Ky). }
      pose proof (join_shape_broadcastable_l _ _ _ J) as Bx. pose proof (join_shape_broadcastable_r _ _ _ J) as By.
      destruct (a_bin_ok N o hp _ _ _ _ _ _ _ (proj1 (k_good _ _ _ _ _ _ Kx)) (proj1 (k_good _ _ _ _ _ _ Ky)) J SMALL) as (h1 & r & E & M).
      rewrite E. cbn [bind]. apply outc_ok. rewrite (k_rg _ _ _ _ _ _ Kx), (k_rg _ _ _ _ _ _ Ky).
      apply (sim_op _ _ Gh _ _ _ _ _ _ _ _ SM (proj1 M) (made_s _ _ _ _ M)); auto.
      - intros _. apply M.
      - intros d idx R. unfold m_bin. rewrite <- (k_fst _ _ _ _ _ _ Kx d) by now apply (bidx_in _ (join (s_shape sx) (s_shape sy))).
        rewrite <- (k_fst _ _ _ _ _ _ Ky d) by now apply (bidx_in _ (join (s_shape sx) (s_shape sy))). now destruct o.
      - intros _. unfold bnode. rewrite (tok_shape _ _ Kx), (tok_shape _ _ Ky). destruct o.
        + exists (sd sx), (sd sy). split; [now apply tok_op|]. split; [now apply tok_op|]. split; [auto|]. reflexivity.
        + exists (sd sx), (sd sy). split; [now apply tok_op|]. split; [now apply tok_op|]. split; [auto|]. reflexivity.
        + exists (s_shape sx), (s_shape sy), (sv sx), (sv sy), (sd sx), (sd sy). split; [now apply tok_op|]. split; [now apply tok_op|]. split; [auto|].
          split; [apply (tok_ext _ _ _ Kx), M|]. split; [apply (tok_ext _ _ _ Ky), M|].
          intros d idx R. unfold m_bin. cbn [bopf dual nmul snd].
          rewrite (k_fst _ _ _ _ _ _ Kx d) by now apply (bidx_in _ (join (s_shape sx) (s_shape sy))).
          rewrite (k_fst _ _ _ _ _ _ Ky d) by now apply (bidx_in _ (join (s_shape sx) (s_shape sy))). reflexivity.
        + exists (s_shape sx), (s_shape sy), (sv sx), (sv sy), (sd sx), (sd sy). split; [now apply tok_op|]. split; [now apply tok_op|]. split; [auto|].
          split; [apply (tok_ext _ _ _ Kx), M|]. split; [apply (tok_ext _ _ _ Ky), M|].
          intros d idx R. unfold m_bin. cbn [bopf dual ndiv snd].
          rewrite (k_fst _ _ _ _ _ _ Kx d) by now apply (bidx_in _ (join (s_shape sx) (s_shape sy))).
          rewrite (k_fst _ _ _ _ _ _ Ky d) by now apply (bidx_in _ (join (s_shape sx) (s_shape sy))). reflexivity.
      - intros Q d idx R. apply orb_false_iff in Q as [Qx Qy].
        pose proof (tok_zero _ _ d (bidx (s_shape sx) idx) Kx Qx (bidx_in _ _ _ Bx R)) as Zx.
        pose proof (tok_zero _ _ d (bidx (s_shape sy) idx) Ky Qy (bidx_in _ _ _ By R)) as Zy. unfold sd in *. unfold m_bin.
        destruct o; cbn [bopf dual nadd nsub nmul ndiv snd]; rewrite Zx, Zy, ?(fld_div _ _ F); ring.
    Qed.

    Lemma scal_step o i c : small (sstep N ss (IScal o i c)) -> outc (exec N st (IScal o i c)) (sstep N ss (IScal o i c)).
    Proof.
      cbn [exec]. with1 i x s K. intros SMALL. apply small_last in SMALL. cbn in SMALL.
      destruct (a_scal_ok N o hp (t_arr x) c (s_shape s) (sv s) (proj1 (k_good _ _ _ _ _ _ K)) (k_md _ _ _ _ _ _ K)) as (h1 & r & E & M).
      rewrite E. cbn [bind]. rewrite (k_rg _ _ _ _ _ _ K), (tok_shape _ _ K).
      assert (FS : forall d idx, in_range idx (s_shape s) -> fst (bopf (dual N) o (s_val s d idx) (c, n0 N)) = bopf N o (sv s idx) c).
      { intros d idx R. rewrite <- (k_fst _ _ _ _ _ _ K d) by auto. now destruct o. }
      assert (RM : true = true -> rmaj r) by (intros _; apply M).
      destruct o; apply outc_ok.
      - apply (sim_same _ _ Gh _ _ _ _ _ _ _ SM (proj1 M) K (made_s _ _ _ _ M)); auto. intros d idx R. cbn. ring.
      - apply (sim_same _ _ Gh _ _ _ _ _ _ _ SM (proj1 M) K (made_s _ _ _ _ M)); auto. intros d idx R. cbn. ring.
      - apply (sim_op _ _ Gh _ _ _ _ _ _ _ _ SM (proj1 M) (made_s _ _ _ _ M)); auto.
        + intros _. exists (sd s). split; [now apply tok_op|]. split; [auto|]. intros d idx R. cbn. unfold sd. ring.
        + intros Q d idx R. pose proof (tok_zero _ _ d idx K Q R) as Z. unfold sd in Z. cbn. rewrite Z. ring.
      - apply (sim_op _ _ Gh _ _ _ _ _ _ _ _ SM (proj1 M) (made_s _ _ _ _ M)); auto.
        + intros _. exists (sd s). split; [now apply tok_op|]. split; [auto|]. intros d idx R. cbn. unfold sd. rewrite !(fld_div _ _ F). ring.
        + intros Q d idx R. pose proof (tok_zero _ _ d idx K Q R) as Z. unfold sd in Z. cbn. rewrite Z, !(fld_div _ _ F). ring.
    Qed.

    (** products *)
    Lemma dot_sim x y sx sy (rg : bool) n : tok x sx -> tok y sy -> s_shape sx = [n] -> s_shape sy = [n] -> rg = t_rg x || t_rg y ->
      exists h1 a, a_dot N hp (t_arr x) (t_arr y) = Ok (h1, a) /\
        exists Gh', Sim (push_op st h1 a rg (NDot (t_fn x) (t_fn y) (t_arr x) (t_arr y)))
          (s_push ss (s_result (s_rg sx || s_rg sy) [] (fun d => m_dot (dual N) n (s_val sx d) (s_val sy d)))) Gh'.
    Proof.
      intros Kx Ky Sx Sy ->. pose proof (proj1 (k_good _ _ _ _ _ _ Kx)) as Gx. pose proof (proj1 (k_good _ _ _ _ _ _ Ky)) as Gy.
      rewrite Sx in Gx. rewrite Sy in Gy. destruct (a_dot_ok N inv0 F hp _ _ n _ _ Gx Gy) as (h1 & r & E & M).
      exists h1, r. split; [auto|]. rewrite (k_rg _ _ _ _ _ _ Kx), (k_rg _ _ _ _ _ _ Ky).
      assert (R1 : forall k, In k (seq 0 n) -> in_range [k] [n]) by (intros k I; apply in_seq in I; constructor; [lia|constructor]).
      assert (Fx : forall d k, In k (seq 0 n) -> fst (s_val sx d [k]) = sv sx [k]) by (intros; apply (k_fst _ _ _ _ _ _ Kx); rewrite Sx; auto).
      assert (Fy : forall d k, In k (seq 0 n) -> fst (s_val sy d [k]) = sv sy [k]) by (intros; apply (k_fst _ _ _ _ _ _ Ky); rewrite Sy; auto).
      apply (sim_op _ _ Gh _ _ _ _ _ _ _ _ SM (proj1 M) (made_s _ _ _ _ M)); auto; try (cbn; lia).
      - intros _. apply M.
      - intros d idx R. unfold m_dot. rewrite dual_total_fst, map_map. apply (total_ext N). intros k I. cbn. now rewrite Fx, Fy.
      - intros _. exists n, (sv sx), (sv sy), (sd sx), (sd sy). split; [rewrite <- Sx; now apply tok_op|]. split; [rewrite <- Sy; now apply tok_op|].
        split; [rewrite <- Sx; apply (tok_ext _ _ _ Kx), M|]. split; [rewrite <- Sy; apply (tok_ext _ _ _ Ky), M|]. split; [auto|].
        intros d idx R. unfold m_dot. rewrite dual_total_snd, map_map. apply (total_ext N). intros k I. cbn. now rewrite Fx, Fy.
      - intros Q d idx R. apply orb_false_iff in Q as [Qx Qy]. unfold m_dot. rewrite dual_total_snd, map_map.
        apply total_all0. intros k I. cbn. fold (sd sx d [k]). fold (sd sy d [k]).
        rewrite (tok_zero _ _ d [k] Kx Qx), (tok_zero _ _ d [k] Ky Qy) by (rewrite ?Sx, ?Sy; auto). ring.
    Qed.
    Lemma dot_panic a b : (forall n, ~ (a_shape a = [n] /\ a_shape b = [n])) -> a_dot N hp a b = Panic.
    Proof.
      intros H. apply (C26_mismatch_panics T (n0 N) (n1 N) (lift2 (nadd N)) (lift2 (nmul N)) (lift3 (nadd N) (nmul N)) hp a b).
      destruct (a_shape a) as [|n [|? ?]]; cbn [length]; [left; lia| |left; lia].
      destruct (a_shape b) as [|m [|? ?]]; cbn [length]; [right; left; lia| |right; left; lia].
      right. right. intros E. apply (H n). auto.
    Qed.
    Lemma dot_step i j : small (sstep N ss (IDot i j)) -> outc (exec N st (IDot i j)) (sstep N ss (IDot i j)).
    Proof.
      intros _. cbn [exec]. with1 i x sx Kx. with1 j y sy Ky.
      destruct (s_shape sx) as [|n [|? ?]] eqn:Sx; try (left; rewrite dot_panic; [reflexivity|]; intros m0 [E _]; rewrite (tok_shape _ _ Kx) in E; congruence).
      destruct (list_eq_dec Nat.eq_dec (s_shape sy) [n]) as [Sy|Sy].
      - destruct (dot_sim x y sx sy _ n Kx Ky Sx Sy eq_refl) as (h1 & a & E & SIM). rewrite E. cbn [bind]. apply outc_ok. exact SIM.
      - left. rewrite dot_panic; [reflexivity|]. intros m0 [E1 E2]. rewrite (tok_shape _ _ Kx) in E1. rewrite (tok_shape _ _ Ky) in E2. congruence.
    Qed.

    Lemma matvec_sim x y sx sy n k : tok x sx -> tok y sy -> s_shape sx = [n; k] -> s_shape sy = [k] ->
      exists h1 a, a_matmul N hp (t_arr x) (t_arr y) = Ok (h1, a) /\
        exists Gh', Sim (push_op st h1 a (t_rg x || t_rg y) (NMatVec (t_fn x) (t_fn y) (t_arr x) (t_arr y)))
          (s_push ss (s_result (s_rg sx || s_rg sy) [n] (fun d => m_matvec (dual N) k (s_val sx d) (s_val sy d)))) Gh'.
    Proof.
      intros Kx Ky Sx Sy. pose proof (proj1 (k_good _ _ _ _ _ _ Kx)) as Gx. pose proof (proj1 (k_good _ _ _ _ _ _ Ky)) as Gy.
      rewrite Sx in Gx. rewrite Sy in Gy. destruct (a_matvec_ok N inv0 F hp _ _ n k _ _ Gx Gy) as (h1 & r & E & M).
      exists h1, r. split; [auto|]. rewrite (k_rg _ _ _ _ _ _ Kx), (k_rg _ _ _ _ _ _ Ky).
      assert (R1 : forall t, In t (seq 0 k) -> in_range [t] [k]) by (intros t I; apply in_seq in I; constructor; [lia|constructor]).
      assert (R2 : forall i t, i < n -> In t (seq 0 k) -> in_range [i; t] [n; k]) by (intros i t J I; apply in_seq in I; repeat constructor; lia).
      assert (Fx : forall d i t, i < n -> In t (seq 0 k) -> fst (s_val sx d [i; t]) = sv sx [i; t]) by (intros; apply (k_fst _ _ _ _ _ _ Kx); rewrite Sx; auto).
      assert (Fy : forall d t, In t (seq 0 k) -> fst (s_val sy d [t]) = sv sy [t]) by (intros; apply (k_fst _ _ _ _ _ _ Ky); rewrite Sy; auto).
      assert (MD : length [n] <= MAX_DIMS) by (pose proof (k_md _ _ _ _ _ _ Ky) as Q; now rewrite Sy in Q).
      apply (sim_op _ _ Gh _ _ _ _ _ _ _ _ SM (proj1 M) (made_s _ _ _ _ M)); auto.
      - intros _. apply M.
      - intros d idx R. apply in_range1 in R as (i & -> & I). unfold m_matvec. rewrite dual_total_fst, map_map. apply (total_ext N). intros t J. cbn. now rewrite Fx, Fy.
      - intros _. exists n, k, (sv sx), (sv sy), (sd sx), (sd sy). split; [rewrite <- Sx; now apply tok_op|]. split; [rewrite <- Sy; now apply tok_op|].
        split; [rewrite <- Sx; apply (tok_ext _ _ _ Kx), M|]. split; [rewrite <- Sy; apply (tok_ext _ _ _ Ky), M|]. split; [auto|].
        intros d i I. unfold m_matvec. rewrite dual_total_snd, map_map. apply (total_ext N). intros t J. cbn. now rewrite Fx, Fy.
      - intros Q d idx R. apply in_range1 in R as (i & -> & I). apply orb_false_iff in Q as [Qx Qy]. unfold m_matvec. rewrite dual_total_snd, map_map.
        apply total_all0. intros t J. cbn. fold (sd sx d [i; t]). fold (sd sy d [t]).
        rewrite (tok_zero _ _ d [i; t] Kx Qx), (tok_zero _ _ d [t] Ky Qy) by (rewrite ?Sx, ?Sy; auto). ring.
    Qed.
    Lemma matmul_sim x y sx sy n k p : tok x sx -> tok y sy -> s_shape sx = [n; k] -> s_shape sy = [k; p] ->
      exists h1 a, a_matmul N hp (t_arr x) (t_arr y) = Ok (h1, a) /\
        exists Gh', Sim (push_op st h1 a (t_rg x || t_rg y) (NMatMul (t_fn x) (t_fn y) (t_arr x) (t_arr y)))
          (s_push ss (s_result (s_rg sx || s_rg sy) [n; p] (fun d => m_matmul (dual N) k (s_val sx d) (s_val sy d)))) Gh'.
    Proof.
      intros Kx Ky Sx Sy. pose proof (proj1 (k_good _ _ _ _ _ _ Kx)) as Gx. pose proof (proj1 (k_good _ _ _ _ _ _ Ky)) as Gy.
      rewrite Sx in Gx. rewrite Sy in Gy. destruct (a_matmul_ok N inv0 F hp _ _ n k p _ _ Gx Gy) as (h1 & r & E & M).
      exists h1, r. split; [auto|]. rewrite (k_rg _ _ _ _ _ _ Kx), (k_rg _ _ _ _ _ _ Ky).
      assert (R1 : forall j t, j < p -> In t (seq 0 k) -> in_range [t; j] [k; p]) by (intros j t J I; apply in_seq in I; repeat constructor; lia).
      assert (R2 : forall i t, i < n -> In t (seq 0 k) -> in_range [i; t] [n; k]) by (intros i t J I; apply in_seq in I; repeat constructor; lia).
      assert (Fx : forall d i t, i < n -> In t (seq 0 k) -> fst (s_val sx d [i; t]) = sv sx [i; t]) by (intros; apply (k_fst _ _ _ _ _ _ Kx); rewrite Sx; auto).
      assert (Fy : forall d t j, j < p -> In t (seq 0 k) -> fst (s_val sy d [t; j]) = sv sy [t; j]) by (intros; apply (k_fst _ _ _ _ _ _ Ky); rewrite Sy; auto).
      assert (MD : length [n; p] <= MAX_DIMS) by (pose proof (k_md _ _ _ _ _ _ Ky) as Q; now rewrite Sy in Q).
      apply (sim_op _ _ Gh _ _ _ _ _ _ _ _ SM (proj1 M) (made_s _ _ _ _ M)); auto.
      - intros _. apply M.
      - intros d idx R. apply in_range2 in R as (i & j & -> & I & J). unfold m_matmul. rewrite dual_total_fst, map_map. apply (total_ext N). intros t H. cbn. now rewrite Fx, Fy.
      - intros _. exists n, k, p, (sv sx), (sv sy), (sd sx), (sd sy). split; [rewrite <- Sx; now apply tok_op|]. split; [rewrite <- Sy; now apply tok_op|].
        split; [rewrite <- Sx; apply (tok_ext _ _ _ Kx), M|]. split; [rewrite <- Sy; apply (tok_ext _ _ _ Ky), M|]. split; [auto|].
        intros d i j I J. unfold m_matmul. rewrite dual_total_snd, map_map. apply (total_ext N). intros t H. cbn. now rewrite Fx, Fy.
      - intros Q d idx R. apply in_range2 in R as (i & j & -> & I & J). apply orb_false_iff in Q as [Qx Qy]. unfold m_matmul. rewrite dual_total_snd, map_map.
        apply total_all0. intros t H. cbn. fold (sd sx d [i; t]). fold (sd sy d [t; j]).
        rewrite (tok_zero _ _ d [i; t] Kx Qx), (tok_zero _ _ d [t; j] Ky Qy) by (rewrite ?Sx, ?Sy; auto). ring.
    Qed.
    Lemma bmm_sim x y sx sy q n k p : tok x sx -> tok y sy -> s_shape sx = [q; n; k] -> s_shape sy = [q; k; p] ->
      exists h1 a, a_bmm N hp (t_arr x) (t_arr y) = Ok (h1, a) /\
        exists Gh', Sim (push_op st h1 a (t_rg x || t_rg y) (NBmm (t_fn x) (t_fn y) (t_arr x) (t_arr y)))
          (s_push ss (s_result (s_rg sx || s_rg sy) [q; n; p] (fun d => m_bmm (dual N) k (s_val sx d) (s_val sy d)))) Gh'.
    Proof.
      intros Kx Ky Sx Sy. pose proof (proj1 (k_good _ _ _ _ _ _ Kx)) as Gx. pose proof (proj1 (k_good _ _ _ _ _ _ Ky)) as Gy.
      rewrite Sx in Gx. rewrite Sy in Gy. destruct (a_bmm_ok N inv0 F hp _ _ q n k p _ _ Gx Gy) as (h1 & r & E & M).
      exists h1, r. split; [auto|]. rewrite (k_rg _ _ _ _ _ _ Kx), (k_rg _ _ _ _ _ _ Ky).
      assert (R1 : forall b j t, b < q -> j < p -> In t (seq 0 k) -> in_range [b; t; j] [q; k; p]) by (intros b j t A J I; apply in_seq in I; repeat constructor; lia).
      assert (R2 : forall b i t, b < q -> i < n -> In t (seq 0 k) -> in_range [b; i; t] [q; n; k]) by (intros b i t A J I; apply in_seq in I; repeat constructor; lia).
      assert (Fx : forall d b i t, b < q -> i < n -> In t (seq 0 k) -> fst (s_val sx d [b; i; t]) = sv sx [b; i; t]) by (intros; apply (k_fst _ _ _ _ _ _ Kx); rewrite Sx; auto).
      assert (Fy : forall d b t j, b < q -> j < p -> In t (seq 0 k) -> fst (s_val sy d [b; t; j]) = sv sy [b; t; j]) by (intros; apply (k_fst _ _ _ _ _ _ Ky); rewrite Sy; auto).
      assert (MD : length [q; n; p] <= MAX_DIMS) by (pose proof (k_md _ _ _ _ _ _ Ky) as Q; now rewrite Sy in Q).
      apply (sim_op _ _ Gh _ _ _ _ _ _ _ _ SM (proj1 M) (made_s _ _ _ _ M)); auto.
      - intros _. apply M.
      - intros d idx R. apply in_range3 in R as (b & i & j & -> & A & I & J). unfold m_bmm. rewrite dual_total_fst, map_map. apply (total_ext N). intros t H. cbn. now rewrite Fx, Fy.
      - intros _. exists q, n, k, p, (sv sx), (sv sy), (sd sx), (sd sy). split; [rewrite <- Sx; now apply tok_op|]. split; [rewrite <- Sy; now apply tok_op|].
        split; [rewrite <- Sx; apply (tok_ext _ _ _ Kx), M|]. split; [rewrite <- Sy; apply (tok_ext _ _ _ Ky), M|]. split; [auto|].
        intros d b i j A I J. unfold m_bmm. rewrite dual_total_snd, map_map. apply (total_ext N). intros t H. cbn. now rewrite Fx, Fy.
      - intros Q d idx R. apply in_range3 in R as (b & i & j & -> & A & I & J). apply orb_false_iff in Q as [Qx Qy]. unfold m_bmm. rewrite dual_total_snd, map_map.
        apply total_all0. intros t H. cbn. fold (sd sx d [b; i; t]). fold (sd sy d [b; t; j]).
        rewrite (tok_zero _ _ d [b; i; t] Kx Qx), (tok_zero _ _ d [b; t; j] Ky Qy) by (rewrite ?Sx, ?Sy; auto). ring.
    Qed.
    Lemma matmul_panic a b : match a_shape a, a_shape b with [n], [m] => n <> m | [_; k], [m] => k <> m | [_; k], [k'; _] => k <> k' | _, _ => True end ->
      a_matmul N hp a b = Panic.
    Proof. apply (C26_mismatch_panics T (n0 N) (n1 N) (lift2 (nadd N)) (lift2 (nmul N)) (lift3 (nadd N) (nmul N)) hp a b). Qed.
    Lemma matmul_step i j : small (sstep N ss (IMatmul i j)) -> outc (exec N st (IMatmul i j)) (sstep N ss (IMatmul i j)).
    Proof.
      intros _. cbn [exec]. with1 i x sx Kx. with1 j y sy Ky. rewrite (tok_shape _ _ Kx), (tok_shape _ _ Ky).
      assert (P : match s_shape sx, s_shape sy with [n], [m] => n <> m | [_; k], [m] => k <> m | [_; k], [k'; _] => k <> k' | _, _ => True end ->
                  a_matmul N hp (t_arr x) (t_arr y) = Panic).
      { intros HP. apply matmul_panic. now rewrite (tok_shape _ _ Kx), (tok_shape _ _ Ky). }
      destruct (s_shape sx) as [|n [|k [|? ?]]] eqn:Sx; cbn [length Nat.eqb andb].
      - left. rewrite P by auto. reflexivity.
      - destruct (s_shape sy) as [|m [|? ?]] eqn:Sy; cbn [length Nat.eqb andb]; [left; rewrite P by auto; reflexivity| |left; rewrite P by auto; reflexivity].
        cbn [m_product fst snd]. destruct (Nat.eq_dec n m) as [<-|NE].
        + destruct (dot_sim x y sx sy _ n Kx Ky Sx Sy eq_refl) as (h1 & a & E & SIM). rewrite E. cbn [bind]. apply outc_ok. exact SIM.
        + left. rewrite dot_panic; [reflexivity|]. intros m0 [E1 E2]. rewrite (tok_shape _ _ Kx) in E1. rewrite (tok_shape _ _ Ky) in E2. congruence.
      - destruct (s_shape sy) as [|m [|p [|? ?]]] eqn:Sy; cbn [length Nat.eqb andb]; [left; rewrite P by auto; reflexivity| | |left; rewrite P by auto; reflexivity].
        + cbn [m_product fst snd]. destruct (Nat.eq_dec k m) as [<-|NE]; [|left; rewrite P by auto; reflexivity].
          destruct (matvec_sim x y sx sy n k Kx Ky Sx Sy) as (h1 & a & E & SIM). rewrite E. cbn [bind]. destruct (t_rg x || t_rg y) eqn:Q; apply outc_ok; exact SIM.
        + cbn [m_product fst snd]. destruct (Nat.eq_dec k m) as [<-|NE]; [|left; rewrite P by auto; reflexivity].
          destruct (matmul_sim x y sx sy n k p Kx Ky Sx Sy) as (h1 & a & E & SIM). rewrite E. cbn [bind]. destruct (t_rg x || t_rg y) eqn:Q; apply outc_ok; exact SIM.
      - left. rewrite P by auto. reflexivity.
    Qed.
    Lemma bmm_step i j : small (sstep N ss (IBmm i j)) -> outc (exec N st (IBmm i j)) (sstep N ss (IBmm i j)).
    Proof.
      intros _. cbn [exec]. with1 i x sx Kx. with1 j y sy Ky. 
      assert (P : match s_shape sx, s_shape sy with [q; _; _], [q'; _; _] => q <> q' | _, _ => True end -> a_bmm N hp (t_arr x) (t_arr y) = Panic).
      { intros HP. apply (C26_mismatch_panics T (n0 N) (n1 N) (lift2 (nadd N)) (lift2 (nmul N)) (lift3 (nadd N) (nmul N)) hp (t_arr x) (t_arr y)).
        now rewrite (tok_shape _ _ Kx), (tok_shape _ _ Ky). }
      destruct (s_shape sx) as [|q [|n [|k [|? ?]]]] eqn:Sx; try (left; rewrite P by auto; reflexivity).
      destruct (s_shape sy) as [|q' [|k' [|p [|? ?]]]] eqn:Sy; try (left; rewrite P by auto; reflexivity).
      destruct (Nat.eq_dec q q') as [<-|NE]; [|left; rewrite P by auto; reflexivity].
      destruct (Nat.eq_dec k k') as [<-|NE].
      - cbn [m_batched fst snd]. destruct (bmm_sim x y sx sy q n k p Kx Ky Sx Sy) as (h1 & a & E & SIM). rewrite E. cbn [bind]. apply outc_ok. exact SIM.
      - left. pose proof (good_pos _ _ _ _ (proj1 (k_good _ _ _ _ _ _ Kx))) as Px. pose proof (good_pos _ _ _ _ (proj1 (k_good _ _ _ _ _ _ Ky))) as Py.
        rewrite Sx in Px. rewrite Sy in Py. pose proof (good_wf _ _ _ _ (proj1 (k_good _ _ _ _ _ _ Kx))) as Wx. pose proof (good_wf _ _ _ _ (proj1 (k_good _ _ _ _ _ _ Ky))) as Wy.
        unfold wf in *. rewrite (tok_shape _ _ Kx), Sx in Wx. rewrite (tok_shape _ _ Ky), Sy in Wy.
        inversion Px as [|? ? P1 Px']; subst. inversion Px' as [|? ? P2 Px'']; subst. inversion Px'' as [|? ? P3 _]; subst.
        inversion Py as [|? ? P4 Py']; subst. inversion Py' as [|? ? P5 Py'']; subst. inversion Py'' as [|? ? P6 _]; subst.
        unfold a_bmm. rewrite (C26_bmm_inner_mismatch_panics T _ _ _ _ _ hp (t_arr x) (t_arr y) q n k k' p); auto; [rewrite (tok_shape _ _ Kx); auto|rewrite (tok_shape _ _ Ky); auto].
    Qed.

    (** views *)
    Definition op_spec (op : mode -> arr -> res arr) (sh sh' : list nat) (f : list nat -> list nat) (C Q : Prop) : Prop :=
      forall h a v m, good h a sh v -> op m a = Panic \/
        (C /\ exists r, op m a = Ok r /\ a_blk r = a_blk a /\ good h r sh' (fun i => v (f i)) /\ (Q -> rmaj a -> rmaj r)).
    Definition copy_spec (op : mode -> arr -> res arr) : Prop :=
      forall a b r, a_shape b = a_shape a -> rmaj a -> rmaj b -> f_unif (a_fl b) = true -> op ByValue a = Ok r ->
        op ByValue b = Ok (reshaped_view ByValue b (a_shape r) (a_stride r)).

    Lemma via_array_ok op m x s sh' f C Q : tok x s -> op_spec op (s_shape s) sh' f C Q ->
      via_array m op hp (t_arr x) = Panic \/
      (C /\ exists h1 a, via_array m op hp (t_arr x) = Ok (h1, a) /\ extends hp h1 /\ sgood lv h1 a sh' (fun i => sv s (f i)) /\
        (Q -> keeps_rm m s = true -> rmaj a)).
    Proof.
      intros K O. destruct (k_good _ _ _ _ _ _ K) as [G NB]. unfold via_array. destruct m.
      - destruct (O hp (t_arr x) _ ByRef G) as [E|(HC & r & E & W & Gr & RM)]; [left; now rewrite E|]. rewrite E. cbn [bind]. right. split; [auto|].
        exists hp, (lifetime_cast r). split; [auto|]. split; [split; auto|]. split; [split; [now apply cast_good|]; cbn; now rewrite W|].
        intros q Hk. apply cast_rmaj, RM; auto. now apply (k_rm _ _ _ _ _ _ K).
      - destruct (O hp (t_arr x) _ ByValue G) as [E|(HC & r & E & W & Gr & RM)]; [left; now rewrite E|]. rewrite E. cbn [bind]. right. split; [auto|].
        exists hp, r. split; [auto|]. split; [split; auto|]. split; [split; [auto|]; now rewrite W|].
        intros q Hk. apply RM; auto. now apply (k_rm _ _ _ _ _ _ K).
      - destruct (clone_made hp _ _ _ G (k_md _ _ _ _ _ _ K)) as (h1 & E1 & M). rewrite E1. cbn [bind].
        destruct (O h1 _ _ ByValue (proj1 (made_s _ _ _ _ M))) as [E|(HC & r & E & W & Gr & RM)]; [left; now rewrite E|]. rewrite E. cbn [bind]. right. split; [auto|].
        exists h1, r. split; [auto|]. split; [apply M|]. split; [split; [auto|]; rewrite W; apply (made_s _ _ _ _ M)|].
        intros q Hk. apply RM; auto. apply M.
    Qed.
    Lemma via_strides_ok op m x s sh' f C Q : tok x s -> op_spec op (s_shape s) sh' f C Q -> copy_spec op -> (m = TClone -> s_rm s = true) ->
      via_strides m op hp (t_arr x) = Panic \/
      (C /\ exists h1 a, via_strides m op hp (t_arr x) = Ok (h1, a) /\ extends hp h1 /\ sgood lv h1 a sh' (fun i => sv s (f i)) /\
        (Q -> keeps_rm m s = true -> rmaj a)).
    Proof.
      intros K O CP NC. destruct m; [apply (via_array_ok op TRef x s sh' f C Q K O)|apply (via_array_ok op TMove x s sh' f C Q K O)|].
      destruct (k_good _ _ _ _ _ _ K) as [G NB]. cbn [via_strides].
      destruct (O hp (t_arr x) _ ByValue G) as [E|(HC & r & E & _)]; [left; now rewrite E|]. rewrite E. cbn [bind].
      destruct (clone_made hp _ _ _ G (k_md _ _ _ _ _ _ K)) as (h1 & E1 & M). rewrite E1. cbn [bind].
      pose proof (k_rm _ _ _ _ _ _ K (NC eq_refl)) as RX. assert (RB : rmaj (fresh_arr (length hp) (prod (s_shape s)) (s_shape s))) by apply M.
      pose proof (CP (t_arr x) (fresh_arr (length hp) (prod (s_shape s)) (s_shape s)) r (eq_sym (tok_shape _ _ K)) RX RB eq_refl E) as E2.
      destruct (O h1 _ _ ByValue (proj1 (made_s _ _ _ _ M))) as [E3|(_ & r' & E3 & W & Gr & RM)]; [congruence|].
      rewrite E2 in E3. apply Ok_inj in E3. subst r'. right. split; [auto|].
      eexists h1, _. split; [reflexivity|]. split; [apply M|]. split; [split; [exact Gr|]; rewrite W; apply (made_s _ _ _ _ M)|].
      intros q _. apply RM; auto.
    Qed.

    Lemma view_op sh : op_spec (fun m a => Ok (nd_view m a)) sh sh (fun i => i) True True.
    Proof. intros h a v m G. right. split; [auto|]. exists (nd_view m a). split; [auto|]. split; [apply view_blk|]. split; [now apply view_good|]. intros _. apply view_rmaj. Qed.
    Lemma reshape_op sh sh' : op_spec (fun m a => nd_reshape m a sh') sh sh' (fun i => unrank (rank i sh') sh) (prod sh' = prod sh) True.
    Proof. intros h a v m G. destruct (reshape_good h a sh v m sh' G) as [E|(r & E & W & P & Gr & RM)]; [now left|]. right. split; [auto|]. exists r. auto. Qed.
    Lemma squeeze_op sh : op_spec (fun m a => Ok (nd_squeeze m a)) sh (filter (fun n => negb (n =? 1)) sh) (expand_unit sh) True True.
    Proof.
      intros h a v m G. right. split; [auto|]. exists (nd_squeeze m a). split; [auto|]. split; [apply reshaped_view_blk|]. split; [now apply squeeze_good|].
      intros _. apply squeeze_rmaj.
    Qed.
    Lemma unsqueeze_op sh axis : let k := axis_of axis (length sh + 1) in
      op_spec (fun m a => nd_unsqueeze m a axis) sh (insert_at k 1 sh) (delete_at k) (k <= length sh) True.
    Proof.
      intros k h a v m G. destruct (unsqueeze_good h a sh v m axis G) as [E|(r & E & W & H)]; [now left|]. cbv zeta in H. destruct H as (L & _ & Gr & RM).
      right. split; [auto|]. exists r. auto.
    Qed.
    Lemma transpose_op sh a1 a2 : let i := axis_of a1 (length sh) in let j := axis_of a2 (length sh) in
      op_spec (fun m a => nd_transpose m a a1 a2) sh (swap_at i j sh) (swap_at i j)
        (as_absolute a1 (length sh) = Ok i /\ as_absolute a2 (length sh) = Ok j /\ i < length sh /\ j < length sh) False.
    Proof.
      intros i j h a v m G. destruct (transpose_good h a sh v m a1 a2 G) as [E|(r & E & W & H)]; [now left|]. cbv zeta in H. destruct H as (L1 & L2 & A1 & A2 & Gr).
      right. split; [auto|]. exists r. split; [auto|]. split; [auto|]. split; [auto|]. intros [].
    Qed.
    Lemma reshape_cp sh' : copy_spec (fun m a => nd_reshape m a sh').
    Proof. intros a b r S A B U E. now apply (reshape_copy a b). Qed.
    Lemma squeeze_cp : copy_spec (fun m a => Ok (nd_squeeze m a)).
    Proof. intros a b r S A B U E. apply Ok_inj in E. subst r. f_equal. symmetry. now apply squeeze_copy. Qed.
    Lemma unsqueeze_cp axis : copy_spec (fun m a => nd_unsqueeze m a axis).
    Proof. intros a b r S A B U E. now apply (unsqueeze_copy a b). Qed.

    (** a view with a reshape node *)
    Lemma view_node m (rm : bool) x s h1 a sh' f :
      tok x s -> extends hp h1 -> sgood lv h1 a sh' (fun i => sv s (f i)) -> (rm = true -> rmaj a) -> length sh' <= MAX_DIMS ->
      (forall i, in_range i sh' -> in_range (f i) (s_shape s)) -> prod (s_shape s) = prod sh' ->
      (forall i, in_range i sh' -> f i = unrank (rank i sh') (s_shape s)) ->
      exists Gh', Sim (push_op st h1 a (t_rg x) (NReshape (t_fn x) (a_shape (t_arr x)))) (s_push ss (s_view m rm s sh' f)) Gh'.
    Proof.
      intros K X G RM MD FI P FE. rewrite (k_rg _ _ _ _ _ _ K), (tok_shape _ _ K).
      apply (sim_op _ _ Gh _ _ _ _ _ _ _ _ SM X G); auto.
      - intros d i R. apply (k_fst _ _ _ _ _ _ K). auto.
      - intros _. exists (sd s). split; [now apply tok_op|]. split; [auto|]. intros d i R. rewrite <- FE by auto. reflexivity.
      - intros Q d i R. apply (tok_zero _ _ d (f i) K Q). auto.
    Qed.

    Lemma view_step m i : small (sstep N ss (IView m i)) -> outc (exec N st (IView m i)) (sstep N ss (IView m i)).
    Proof.
      intros _. cbn [exec]. with1 i x s K.
      destruct (via_array_ok _ m x s _ _ _ _ K (view_op (s_shape s))) as [E|(_ & h1 & a & E & X & G & RM)]; rewrite E; [now left|]. cbn [bind].
      apply outc_ok. apply (sim_same _ _ Gh _ _ _ _ _ _ _ SM X K G); auto. intros d idx R. apply (k_fst _ _ _ _ _ _ K). auto.
    Qed.
    Lemma reshape_step m i sh' : in_scope ss (IReshape m i sh') -> small (sstep N ss (IReshape m i sh')) ->
      outc (exec N st (IReshape m i sh')) (sstep N ss (IReshape m i sh')).
    Proof.
      cbn [exec in_scope]. with1 i x s K. rewrite (tok_shape _ _ K). intros SC SMALL.
      destruct (list_eq_dec Nat.eq_dec sh' (s_shape s)) as [->|NE].
      - rewrite (proj2 (list_eqb_spec _ _) eq_refl).
        destruct (via_array_ok _ m x s _ _ _ _ K (view_op (s_shape s))) as [E|(_ & h1 & a & E & X & G & RM)]; rewrite E; [now left|]. cbn [bind].
        apply outc_ok. apply (sim_same _ _ Gh _ _ _ _ _ _ _ SM X K G); auto. intros d idx R. apply (k_fst _ _ _ _ _ _ K). auto.
      - destruct (list_eqb sh' (s_shape s)) eqn:Q; [apply list_eqb_spec in Q; congruence|]. apply small_last in SMALL. cbn in SMALL.
        destruct (via_strides_ok _ m x s _ _ _ _ K (reshape_op (s_shape s) sh') (reshape_cp sh')) as [E|(P & h1 & a & E & X & G & RM)].
        + intros ->. now apply SC. + rewrite E. now left.
        + rewrite E. cbn [bind]. apply outc_ok.
          assert (FI : forall j, in_range j sh' -> in_range (unrank (rank j sh') (s_shape s)) (s_shape s)).
          { intros j R. apply unrank_in_range. rewrite <- P. now apply rank_lt. }
          pose proof (view_node m (keeps_rm m s) x s h1 a sh' _ K X G (RM I) SMALL FI (eq_sym P) (fun _ _ => eq_refl)) as V. now rewrite (tok_shape _ _ K) in V.
    Qed.
    Lemma squeeze_step m i : in_scope ss (ISqueeze m i) -> small (sstep N ss (ISqueeze m i)) ->
      outc (exec N st (ISqueeze m i)) (sstep N ss (ISqueeze m i)).
    Proof.
      cbn [exec in_scope]. with1 i x s K. intros SC SMALL. apply small_last in SMALL. cbn in SMALL.
      destruct (via_strides_ok _ m x s _ _ _ _ K (squeeze_op (s_shape s)) squeeze_cp) as [E|(P & h1 & a & E & X & G & RM)].
      - intros ->. now apply SC. - rewrite E. now left.
      - rewrite E. cbn [bind]. apply outc_ok.
        assert (FI : forall j, in_range j (filter (fun n => negb (n =? 1)) (s_shape s)) -> in_range (expand_unit (s_shape s) j) (s_shape s)).
        { intros j R. apply (squeeze_spec (s_shape s) (rm_stride (s_shape s))); [apply rm_stride_length|].
          rewrite squeeze_shape_spec by (apply rm_stride_length). auto. }
        apply (view_node m _ x s h1 a); auto; [symmetry; apply prod_filter|].
        intros j R. rewrite <- rank_expand by auto. symmetry. now apply unrank_rank, FI.
    Qed.
    Lemma unsqueeze_step m i axis : in_scope ss (IUnsqueeze m i axis) -> small (sstep N ss (IUnsqueeze m i axis)) ->
      outc (exec N st (IUnsqueeze m i axis)) (sstep N ss (IUnsqueeze m i axis)).
    Proof.
      cbn [exec in_scope]. with1 i x s K. intros SC SMALL. apply small_last in SMALL. cbn in SMALL.
      destruct (via_strides_ok _ m x s _ _ _ _ K (unsqueeze_op (s_shape s) axis) (unsqueeze_cp axis)) as [E|(P & h1 & a & E & X & G & RM)].
      - intros ->. now apply SC. - rewrite E. now left.
      - rewrite E. cbn [bind]. apply outc_ok. set (k := axis_of axis (length (s_shape s) + 1)) in *.
        assert (FI : forall j, in_range j (insert_at k 1 (s_shape s)) -> in_range (delete_at k j) (s_shape s)).
        { intros j R. now apply (in_range_insert k j (s_shape s)). }
        apply (view_node m _ x s h1 a); auto; [symmetry; apply prod_insert|].
        intros j R. rewrite <- rank_delete by auto. symmetry. now apply unrank_rank, FI.
    Qed.
    Lemma transpose_step m i a1 a2 : small (sstep N ss (ITranspose m i a1 a2)) -> outc (exec N st (ITranspose m i a1 a2)) (sstep N ss (ITranspose m i a1 a2)).
    Proof.
      cbn [exec]. with1 i x s K. intros SMALL. apply small_last in SMALL. cbn in SMALL.
      destruct (via_array_ok _ m x s _ _ _ _ K (transpose_op (s_shape s) a1 a2)) as [E|(P & h1 & a & E & X & G & RM)]; rewrite E; [now left|]. cbn [bind].
      apply outc_ok. rewrite (k_rg _ _ _ _ _ _ K). destruct P as (A1 & A2 & L1 & L2).
      assert (FI : forall j, in_range j (swap_at (axis_of a1 (length (s_shape s))) (axis_of a2 (length (s_shape s))) (s_shape s)) ->
                     in_range (swap_at (axis_of a1 (length (s_shape s))) (axis_of a2 (length (s_shape s))) j) (s_shape s)) by (intros j R; now apply in_range_swap).
      apply (sim_op _ _ Gh _ _ _ _ _ _ _ _ SM X G); auto; try discriminate.
      - intros d j R. apply (k_fst _ _ _ _ _ _ K). auto.
      - intros _. exists (s_shape s), (sd s). split; [now apply tok_op|]. cbv zeta. split; [auto|]. split; [auto|]. split; [auto|]. split; [auto|]. split; [auto|].
        reflexivity.
      - intros Q d j R. apply (tok_zero _ _ d _ K Q). auto.
    Qed.

    (** backward *)
    Lemma run_bw_ok y s h1 g ga (u : bool) : tok y s -> extends hp h1 -> sgood lv h1 g (s_shape s) ga -> (u = true -> rmaj g) ->
      (run_bw N st h1 y g = Panic /\ calm (g_nodes st) (S (length (g_nodes st))) (t_fn y) (s_shape s) u = false) \/
      exists st', run_bw N st h1 y g = Ok st' /\ Sim st' (s_backward N ss s ga) Gh.
    Proof.
      intros K X G U. pose proof (keeps_extends lv _ _ X) as KX. unfold run_bw.
      destruct (bw_entry N inv0 F lv Lsh (g_nodes st) Gh (m_len _ _ _ SM) [] (S (length (g_nodes st))) h1 (t_fn y) (s_shape s) (sd s) g ga (s_G ss) u)
        as [[E C]|(h2 & E & KE & L)]; try (rewrite E; cbn [bind]).
      - pose proof (tok_op _ _ K) as (_ & H & _). lia.
      - intros b [].
      - apply K. - apply K. - auto. - auto.
      - eapply nodes_keeps; [apply (m_nodes _ _ _ SM)|auto].
      - eapply lives_extends; [apply (m_lives _ _ _ SM)|auto].
      - left. auto.
      - right. eexists. split; [reflexivity|]. unfold s_backward. apply sim_keeps; auto. eapply keeps_trans; eauto.
    Qed.
    Lemma backward_step i : outc (exec N st (IBackward i)) (sstep N ss (IBackward i)).
    Proof.
      cbn [exec]. with1 i y s K. rewrite (tok_shape _ _ K).
      destruct (nd_full_made hp (n1 N) (s_shape s) (good_prod _ _ _ _ (proj1 (k_good _ _ _ _ _ _ K)))) as (h1 & g & E & M & _).
      rewrite E. cbn [bind]. destruct (run_bw_ok y s h1 g (fun _ => n1 N) true K (proj1 M) (made_s _ _ _ _ M)) as [[E2 _]|(st' & E2 & SIM)].
      - intros _. apply M. - left. auto. - right. eauto.
    Qed.
    Lemma backward_with_step i sd0 : in_scope ss (IBackwardWith i sd0) -> outc (exec N st (IBackwardWith i sd0)) (sstep N ss (IBackwardWith i sd0)).
    Proof.
      cbn [exec in_scope]. with1 i y s K. intros SC. rewrite (tok_shape _ _ K). destruct sd0 as [sh data| |j|]; cbn in SC; try easy; cbn [seed_arr seed_val].
      - destruct (new_array_made hp sh data (n0 N)) as [(h1 & g & E & M)|E]; rewrite E; [|now left]. cbn [bind].
        assert (SG : a_shape g = sh) by (apply (good_shape _ _ _ _ (proj1 (proj2 (proj2 M))))). rewrite SG.
        destruct (list_eqb sh (s_shape s)) eqn:Q; [|now left]. cbn [guard bind]. apply list_eqb_spec in Q.
        pose proof (made_s _ _ _ _ M) as Gg. rewrite Q in Gg. rewrite Q.
        destruct (run_bw_ok y s h1 g _ true K (proj1 M) Gg) as [[E2 _]|(st' & E2 & SIM)].
        + intros _. apply M. + left. auto. + right. eauto.
      - destruct (get1 j) as [E|(z & sz & E & _ & E' & Kz)]; rewrite E; [now left|]. cbn [bind]. rewrite E', (tok_shape _ _ Kz).
        destruct (list_eqb (s_shape sz) (s_shape s)) eqn:Q; [|now left]. cbn [guard bind]. apply list_eqb_spec in Q.
        pose proof (k_good _ _ _ _ _ _ Kz) as Gz. rewrite Q in Gz.
        destruct (run_bw_ok y s hp (t_arr z) _ (s_rm sz) K (ext_refl hp) Gz) as [[E2 _]|(st' & E2 & SIM)].
        + apply Kz. + left. auto. + right. eauto.
    Qed.

    (** zero_gradient *)
    Lemma zero_step i : outc (exec N st (IZeroGrad i)) (sstep N ss (IZeroGrad i)).
    Proof.
      cbn [exec]. with1 i x s K. destruct (t_fn x) as [|k|m] eqn:Q.
      - destruct (s_leaf s) as [k|] eqn:E; [apply (k_leaf _ _ _ _ _ _ K) in E; congruence|]. apply outc_ok. eauto.
      - rewrite (proj1 (k_leaf _ _ _ _ _ _ K k) Q). pose proof (k_fn _ _ _ _ _ _ K) as RS. rewrite Q in RS. destruct RS as [ES _].
        pose proof (m_lives _ _ _ SM) as LV. assert (LV' := LV). destruct LV as (LL & ND & H1).
        destruct (nth_error lv k) as [a|] eqn:Ea; [|apply nth_error_None in Ea; assert (k < length Lsh) by (apply nth_error_Some; congruence); lia].
        unfold vget. rewrite Ea. cbn [bind]. destruct (H1 k a Ea) as (sh & ES' & Fa & MD & Ga).
        destruct (nd_fill_ok hp a (n0 N) (good_valid _ _ _ _ Ga) (good_nz _ _ _ _ Ga)) as (h2 & E & EL & SE).
        { intros _. rewrite Fa. reflexivity. }
        rewrite E. cbn [bind]. apply outc_ok. exists Gh.
        assert (IB : In (a_blk a) (map a_blk lv)) by (apply in_map; eapply nth_error_In; eauto).
        assert (OTH : forall b o, b <> a_blk a -> load h2 b o = load hp b o).
        { intros b o Hb. apply SE. intros (i0 & _ & Q' & _). contradiction. }
        apply sim_keeps; auto.
        + split; [destruct SE as [Q' _]; lia|]. intros b o _ Hb. apply OTH. intros ->. contradiction.
        + split; [auto|]. split; [auto|]. intros k' a' E'. destruct (H1 k' a' E') as (sh' & Es' & Fa' & MD' & Ga'). exists sh'. split; [auto|]. split; [auto|]. split; [auto|].
          destruct (k' =? k) eqn:Q'.
          * apply Nat.eqb_eq in Q'. subst k'. rewrite Ea in E'. injection E' as <-. rewrite ES' in Es'. injection Es' as <-.
            split; [apply Ga|]. split; [apply Ga|]. intros i0 I. apply EL. now rewrite (good_shape _ _ _ _ Ga).
          * apply Nat.eqb_neq in Q'. eapply good_heap; [exact Ga'|]. intros o. apply OTH. intros Q2. apply Q'.
            assert (U := proj1 (NoDup_nth_error (map a_blk lv)) ND). apply U.
            -- rewrite map_length. apply nth_error_Some. congruence.
            -- rewrite !nth_error_map, Ea, E'. cbn. congruence.
      - destruct (s_leaf s) as [k|] eqn:E; [apply (k_leaf _ _ _ _ _ _ K) in E; congruence|]. apply outc_ok. eauto.
    Qed.

    (** set_requires_grad *)
    Lemma set_ok {A} (l : list A) i x : i < length l -> vset l i x = Ok (set_nth l i x).
    Proof.
      intros L. unfold vset. assert (E : upd l i x = Some (set_nth l i x)).
      { revert i L. induction l as [|y l IH]; intros [|i] L; cbn in L; try lia; [reflexivity|]. cbn [upd]. rewrite IH by lia. reflexivity. }
      now rewrite E.
    Qed.
    Lemma Forall2_set {A B} (R : A -> B -> Prop) l m i x y : Forall2 R l m -> R x y -> Forall2 R (set_nth l i x) (set_nth m i y).
    Proof.
      intros H XY. unfold set_nth. revert i. induction H as [|a b l m Hab H IH]; intros [|i]; cbn.
      - now repeat constructor. - now repeat constructor. - now constructor. - constructor; [auto|apply IH].
    Qed.
    Lemma set_shapes (l : list (stensor (T := T))) i s s' : nth_error l i = Some s -> s_shape s' = s_shape s -> map s_shape (set_nth l i s') = map s_shape l.
    Proof.
      unfold set_nth. revert i. induction l as [|y l IH]; intros [|i] E ES; cbn in *; try discriminate; [injection E as ->; now rewrite ES|].
      f_equal. now apply IH.
    Qed.
    Lemma sim_set i t s s' : Sim (mkG hp lv (g_nodes st) (g_ts st)) ss Gh -> tok t s' -> nth_error (s_ts ss) i = Some s -> s_shape s' = s_shape s ->
      Sim (mkG hp lv (g_nodes st) (set_nth (g_ts st) i t)) (mkSS (set_nth (s_ts ss) i s') Lsh (s_G ss)) Gh.
    Proof.
      intros [ML MT MLV MN MS] K ES SS. constructor; cbn; auto; [apply Forall2_set; auto|].
      intros sh I. rewrite set_shapes with (s := s); auto.
    Qed.
    Lemma st_eta : mkG hp lv (g_nodes st) (g_ts st) = st. Proof. now destruct st. Qed.

    Lemma setgrad_step i b : outc (exec N st (ISetGrad i b)) (sstep N ss (ISetGrad i b)).
    Proof.
      cbn [exec]. with1 i x s K. assert (LI : i < length (g_ts st)) by (apply nth_error_Some; congruence).
      rewrite (k_rg _ _ _ _ _ _ K), (tok_shape _ _ K). 
      assert (NONE : tok (mkT (t_arr x) false RNone) (mkS false None (s_rm s) (s_shape s) (fun d idx => (fst (s_val s d idx), n0 N)))).
      { destruct K as [K1 K2 K3 K4 K5 K6 K7 K8]. constructor; cbn; auto; try easy. }
      destruct b.
      - destruct (s_rg s) eqn:Q; [apply outc_ok; eauto|].
        destruct (nd_full_made hp (n0 N) (s_shape s) (good_prod _ _ _ _ (proj1 (k_good _ _ _ _ _ _ K)))) as (h1 & g & E & M & Fg).
        rewrite E. cbn [bind]. rewrite set_ok by auto. cbn [bind]. apply outc_ok. exists Gh.
        assert (AB : above hp [g]) by (intros a [<-|[]]; rewrite Fg; cbn; lia).
        assert (X : extends hp h1) by apply M. assert (KX := keeps_extends lv _ _ X).
        pose proof (m_lives _ _ _ SM) as LV. assert (LV' := LV). destruct LV as (LL & ND & H1).
        assert (LK : length lv = length Lsh) by auto. rewrite <- (app_nil_r Gh).
        constructor; cbn [g_heap g_leaves g_nodes g_ts s_ts s_leaves s_G].
        + rewrite app_nil_r. apply (m_len _ _ _ SM).
        + apply Forall2_set; [eapply tensors_mono; eauto; apply (m_ts _ _ _ SM)|].
          pose proof (tensor_mono _ [g] _ [s_shape s] _ [] _ h1 _ _ K AB KX (or_introl X)) as [K1 K2 K3 K4 K5 K6 K7 K8].
          constructor; cbn; auto; try easy.
          * split; [rewrite nth_error_app2, LK, Nat.sub_diag by lia; reflexivity|]. intros d idx _. unfold sd. cbn. now rewrite LK.
          * intros k. rewrite LK. split; congruence.
        + split; [rewrite !app_length; cbn; lia|]. split.
          * rewrite map_app. apply (Permutation_NoDup (Permutation_cons_append _ _)). constructor; [|auto].
            apply (lives_new lv Lsh hp (s_G ss)); [auto|]. rewrite Fg. cbn. lia.
          * intros k a E'. destruct (Nat.ltb_spec k (length lv)).
            -- rewrite nth_error_app1 in E' by auto. destruct (H1 k a E') as (sh & ES & Fa & MD & Ga). exists sh.
               split; [rewrite nth_error_app1; [auto|lia]|]. split; [auto|]. split; [auto|].
               replace (k =? length Lsh) with false by (symmetry; apply Nat.eqb_neq; lia). eapply good_extends; eauto.
            -- rewrite nth_error_app2 in E' by auto. destruct (k - length lv) as [|j] eqn:J; [|destruct j; discriminate]. injection E' as <-.
               exists (s_shape s). assert (k = length Lsh) by lia. subst k. rewrite nth_error_app2, Nat.sub_diag by lia.
               split; [auto|]. split; [rewrite Fg; reflexivity|]. split; [apply K|]. rewrite Nat.eqb_refl. apply M.
        + intros m nd E'. destruct (m_nodes _ _ _ SM m nd E') as (sh & D & EG & MD & OK). exists sh, D. rewrite app_nil_r. split; [auto|]. split; [auto|].
          rewrite <- (app_nil_r Gh). eapply node_keeps; [apply node_mono; eauto|now apply keeps_extends].
        + intros sh I. rewrite (set_shapes _ _ s) by auto. rewrite in_app_iff, app_nil_r in I. 
          destruct I as [[I|[<-|[]]]|I]; [apply (m_shapes _ _ _ SM); auto| |apply (m_shapes _ _ _ SM); auto].
          apply in_map. eapply nth_error_In; eauto.
      - destruct (s_rg s) eqn:Q.
        + rewrite set_ok by auto. cbn [bind]. apply outc_ok. exists Gh. apply (sim_set i _ s); [now rewrite st_eta|auto|auto|auto].
        + right. exists st, Gh. split; [auto|].
          assert (TX : tok x (mkS false None (s_rm s) (s_shape s) (fun d idx => (fst (s_val s d idx), n0 N)))).
          { destruct K as [K1 K2 K3 K4 K5 K6 K7 K8]. rewrite Q in K1. specialize (K7 K1). constructor; cbn; auto; try easy; rewrite K7; cbn; easy. }
          assert (ES : set_nth (g_ts st) i x = g_ts st).
          { unfold set_nth. clear - H. revert i H. induction (g_ts st) as [|y l IH]; intros [|i] H; cbn in *; try discriminate; [congruence|]. f_equal. now apply IH. }
          pose proof (sim_set i x s _ ltac:(rewrite st_eta; exact SM) TX ltac:(eassumption) eq_refl) as S'. now rewrite ES, st_eta in S'.
    Qed.

    Theorem exec_ok i : in_scope ss i -> small (sstep N ss i) -> outc (exec N st i) (sstep N ss i).
    Proof.
      destruct i; intros SC SMALL.
      - now apply new_step. - now apply setgrad_step. - now apply neg_step. - now apply bin_step. - now apply scal_step. - now apply dot_step.
      - now apply matmul_step. - now apply bmm_step. - now apply view_step. - now apply reshape_step. - now apply squeeze_step. - now apply unsqueeze_step.
      - now apply transpose_step. - now apply backward_step. - now apply backward_with_step. - now apply zero_step.
    Qed.
  End Step.

  Lemma run_ok p : forall st ss Gh, Sim st ss Gh -> admissible N p ss -> outc (run N p st) (srun N p ss).
  Proof.
    induction p as [|i p IH]; intros st ss Gh SM A.
    - apply outc_ok. eauto.
    - destruct A as (SC & SMALL & A). cbn [run srun fold_left]. destruct (exec_ok st ss Gh SM i SC SMALL) as [->|(st' & Gh' & -> & SM')]; [now left|].
      cbn [bind]. now apply (IH st' (sstep N ss i) Gh').
  Qed.
  Lemma sim0 : Sim g0 (s0 N) [].
  Proof.
    constructor; cbn; auto. - split; [auto|]. split; [constructor|]. intros k a E. destruct k; discriminate.
    - intros m nd E. destruct m; discriminate. - intros sh [[]|[]].
  Qed.
End Sim.
