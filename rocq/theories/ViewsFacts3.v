(** ViewsFacts3.v: broadcasting and diagonals. *)
From Coq Require Import List Arith Lia Bool ZArith Permutation Sorted.
From Verif Require Import Base Spec Layout SpecFacts LayoutFacts Views ViewsFacts.
Import ListNotations.
Open Scope res_scope.

(** ** broadcast_to *)
Lemma bshape_ok_spec sh : forall last, length last = length sh ->
  bshape_ok sh last = true <-> Forall2 (fun n m => n = 1 \/ n = m) sh last.
Proof.
  induction sh as [|n sh IH]; intros [|m last] L; cbn [length] in L; try discriminate.
  - split; [constructor|reflexivity].
  - cbn [bshape_ok]. rewrite andb_true_iff, orb_true_iff, !Nat.eqb_eq, IH by lia. split.
    + intros [A B]; now constructor.
    + intros H; inversion H; auto.
Qed.

Lemma skipn_sub_length {A} (l : list A) k : k <= length l -> length (skipn (length l - k) l) = k.
Proof. intros H. rewrite skipn_length. lia. Qed.

Lemma broadcast_shape_ok sh to : broadcastable sh to -> broadcast_shape sh to = Ok to.
Proof.
  intros [L F]. unfold broadcast_shape. destruct (Nat.ltb_spec (length to) (length sh)); [lia|].
  apply bshape_ok_spec in F; [|now apply skipn_sub_length]. now rewrite F.
Qed.

Lemma broadcast_shape_panic sh to : ~ broadcastable sh to -> broadcast_shape sh to = Panic.
Proof.
  intros H. unfold broadcast_shape. destruct (Nat.ltb_spec (length to) (length sh)); [reflexivity|].
  destruct (bshape_ok sh _) eqn:E; [|reflexivity]. exfalso. apply H. split; [lia|].
  apply bshape_ok_spec in E; [exact E|now apply skipn_sub_length].
Qed.

Lemma bstride_go_ok osh : forall bsh st,
  length st = length osh -> Forall2 (fun n m => n = 1 \/ n = m) osh bsh ->
  exists r, bstride_go st bsh osh = Ok r /\ length r = length osh /\
    forall idx, in_range idx bsh -> in_range (clamp idx osh) osh /\ dot idx r = dot (clamp idx osh) st.
Proof.
  induction osh as [|n osh IH]; intros bsh [|s st] L F; cbn [length] in L; try discriminate; inversion F as [|? m ? bsh' NM F']; subst.
  - exists []. repeat split; auto; try (inversion H; subst; cbn; auto; constructor).
  - destruct (IH bsh' st ltac:(lia) F') as (r & E & LR & H).
    cbn [bstride_go]. destruct (Nat.eqb_spec n 1) as [N|N].
    + subst n. cbn [bind]. rewrite E. cbn [bind]. eexists. split; [reflexivity|]. split; [cbn; lia|].
      intros idx R; inversion R as [|i m' idx' bsh'' Hi Hr]; subst. destruct (H _ Hr) as [R' D].
      cbn [clamp Nat.eqb dot]. split; [constructor; [lia|exact R']|]. lia.
    + destruct NM as [NM|NM]; [contradiction|]. subst m. rewrite Nat.eqb_refl. cbn [bind]. rewrite E. cbn [bind].
      eexists. split; [reflexivity|]. split; [cbn; lia|].
      intros idx R; inversion R as [|i m' idx' bsh'' Hi Hr]; subst. destruct (H _ Hr) as [R' D].
      cbn [clamp]. destruct (Nat.eqb_spec n 1); [contradiction|]. cbn [dot].
      split; [constructor; auto|]. lia.
Qed.

Lemma dot_repeat0 k idx : dot idx (repeat 0 k) = 0.
Proof. revert idx; induction k as [|k IH]; intros [|i idx]; cbn [repeat dot]; auto. rewrite IH. lia. Qed.

Lemma broadcast_stride_ok sh st to :
  length st = length sh -> broadcastable sh to ->
  exists r, broadcast_stride st to sh = Ok r /\ length r = length to /\
    forall idx, in_range idx to -> in_range (bidx sh idx) sh /\ dot idx r = dot (bidx sh idx) st.
Proof.
  intros L [LE F]. unfold broadcast_stride. destruct (Nat.ltb_spec (length to) (length sh)); [lia|].
  destruct (bstride_go_ok _ _ _ L F) as (r & E & LR & H'). rewrite E. cbn [bind].
  eexists. split; [reflexivity|]. split; [rewrite app_length, repeat_length; lia|].
  intros idx R. unfold bidx. pose proof (in_range_length _ _ R) as LI. rewrite LI.
  set (k := length to - length sh) in *.
  rewrite <- (firstn_skipn k idx) in R at 1. rewrite <- (firstn_skipn k to) in R at 1.
  apply in_range_app in R as [R1 R2]; [|rewrite !firstn_length; lia].
  destruct (H' _ R2) as [R3 D]. split; [exact R3|].
  rewrite <- (firstn_skipn k idx) at 1. rewrite dot_app by (rewrite firstn_length, repeat_length; lia).
  rewrite dot_repeat0, D. reflexivity.
Qed.

Lemma nd_broadcast_to_ok a to :
  wf a -> broadcastable (a_shape a) to ->
  exists r, nd_broadcast_to a to = Ok r /\ a_shape r = to /\ views r a (bidx (a_shape a)) /\
    flags_ok r /\ f_write (a_fl r) = false.
Proof.
  intros W B. unfold nd_broadcast_to. rewrite (broadcast_shape_ok _ _ B). cbn [bind].
  destruct (broadcast_stride_ok _ _ _ W B) as (bst & E & L & H). rewrite E. cbn [bind].
  eexists. split; [reflexivity|]. cbn [a_shape a_stride a_off a_blk reshaped_view].
  split; [reflexivity|]. split; [|split; [|reflexivity]].
  - split; [reflexivity|]. split; [exact L|]. intros idx R. destruct (H idx R). cbn. split; [auto|lia].
  - unfold flags_ok. cbn [a_fl a_shape a_stride reshaped_view]. cbn. apply update_flags_ok.
Qed.

Lemma nd_broadcast_to_panic a to : ~ broadcastable (a_shape a) to -> nd_broadcast_to a to = Panic.
Proof. intros H. unfold nd_broadcast_to. now rewrite broadcast_shape_panic. Qed.

(** ** broadcast_shapes *)
Lemma bshapes_go_spec s1 : forall s2, length s1 = length s2 ->
  (exists r, bshapes_go s1 s2 = Ok r /\ length r = length s1 /\
     forall j, j < length s1 -> dim_compat (nth j s1 1) (nth j s2 1) /\ nth j r 1 = dim_join (nth j s1 1) (nth j s2 1)) \/
  (bshapes_go s1 s2 = Panic /\ exists j, j < length s1 /\ ~ dim_compat (nth j s1 1) (nth j s2 1)).
Proof.
  induction s1 as [|a s1 IH]; intros [|b s2] L; cbn [length] in L; try discriminate.
  - left. exists []. repeat split; auto; cbn in *; lia.
  - cbn [bshapes_go].
    assert (D : (exists x, (if a =? 1 then Ok b else if b =? 1 then Ok a else if a =? b then Ok a else @Panic nat) = Ok x /\
                 dim_compat a b /\ x = dim_join a b) \/
                ((if a =? 1 then Ok b else if b =? 1 then Ok a else if a =? b then Ok a else @Panic nat) = Panic /\ ~ dim_compat a b)).
    { unfold dim_join, dim_compat. destruct (Nat.eqb_spec a 1), (Nat.eqb_spec b 1), (Nat.eqb_spec a b); subst;
        first [left; eexists; repeat split; eauto; fail | right; split; [reflexivity|lia]]. }
    destruct D as [(x & -> & C & ->)|[-> C]]; cbn [bind].
    + destruct (IH s2 ltac:(lia)) as [(r & E & LR & H)|[E (j & Hj & NC)]]; rewrite E; cbn [bind].
      * left. eexists. split; [reflexivity|]. split; [cbn; lia|].
        intros [|j] Hj; cbn [nth]; [auto|]. apply H. cbn in Hj; lia.
      * right. split; [reflexivity|]. exists (S j). cbn [nth length]. split; [lia|exact NC].
    + right. split; [reflexivity|]. exists 0. cbn. split; [lia|exact C].
Qed.

Lemma dim_r_pad k sh j : dim_r (repeat 1 k ++ sh) j = dim_r sh j.
Proof.
  unfold dim_r. rewrite rev_app_distr. destruct (Nat.ltb_spec j (length (rev sh))) as [H|H].
  - now rewrite app_nth1.
  - rewrite app_nth2 by exact H. rewrite (nth_overflow (rev sh)) by exact H.
    destruct (Nat.ltb_spec (j - length (rev sh)) (length (rev (repeat 1 k)))) as [K|K].
    + assert (I : In (nth (j - length (rev sh)) (rev (repeat 1 k)) 1) (rev (repeat 1 k))) by now apply nth_In.
      apply in_rev in I. now apply repeat_spec in I.
    + now apply nth_overflow.
Qed.

Lemma dim_r_nth sh k : k < length sh -> dim_r sh k = nth (length sh - 1 - k) sh 1.
Proof. intros H. unfold dim_r. rewrite rev_nth by exact H. f_equal. lia. Qed.

Lemma dim_r_over sh k : length sh <= k -> dim_r sh k = 1.
Proof. intros H. unfold dim_r. apply nth_overflow. now rewrite rev_length. Qed.

Lemma bshapes_go_dims s1 s2 : length s1 = length s2 ->
  (exists r, bshapes_go s1 s2 = Ok r /\ length r = length s1 /\
     forall k, dim_compat (dim_r s1 k) (dim_r s2 k) /\ dim_r r k = dim_join (dim_r s1 k) (dim_r s2 k)) \/
  (bshapes_go s1 s2 = Panic /\ exists k, ~ dim_compat (dim_r s1 k) (dim_r s2 k)).
Proof.
  intros L. destruct (bshapes_go_spec s1 s2 L) as [(r & E & LR & H)|[E (j & Hj & NC)]].
  - left. exists r. split; [exact E|]. split; [exact LR|]. intros k.
    destruct (Nat.ltb_spec k (length s1)) as [K|K].
    + rewrite !dim_r_nth by lia. rewrite LR, <- L. apply H. lia.
    + rewrite !dim_r_over by lia. split; [left; reflexivity|reflexivity].
  - right. split; [exact E|]. exists (length s1 - 1 - j). rewrite !dim_r_nth by lia. rewrite <- L.
    replace (length s1 - 1 - (length s1 - 1 - j)) with j by lia. exact NC.
Qed.

Lemma dim_compat_sym a b : dim_compat a b -> dim_compat b a.
Proof. unfold dim_compat. intuition. Qed.

Lemma dim_join_sym a b : dim_compat a b -> dim_join a b = dim_join b a.
Proof. unfold dim_compat, dim_join. intros H. destruct (Nat.eqb_spec a 1), (Nat.eqb_spec b 1); lia. Qed.

Lemma broadcast_shapes_char a b :
  (exists r, broadcast_shapes a b = Ok r /\ join_shape a b r) \/
  (broadcast_shapes a b = Panic /\ exists k, ~ dim_compat (dim_r a k) (dim_r b k)).
Proof.
  unfold broadcast_shapes, pad, csub.
  destruct (Nat.ltb_spec (length b) (length a)) as [H|H].
  - destruct (Nat.ltb_spec (length a) (length b)); [lia|]. cbn [bind].
    destruct (bshapes_go_dims (repeat 1 (length a - length b) ++ b) a) as [(r & E & LR & D)|[E (k & NC)]];
      rewrite ?E; try (rewrite app_length, repeat_length in *; lia).
    + left. exists r. split; [reflexivity|]. rewrite app_length, repeat_length in LR. split; [lia|].
      intros k. destruct (D k) as [C J]. rewrite dim_r_pad in *.
      split; [now apply dim_compat_sym|]. rewrite J. now apply dim_join_sym.
    + right. split; [reflexivity|]. exists k. rewrite dim_r_pad in NC. intros C; apply NC. now apply dim_compat_sym.
  - destruct (Nat.ltb_spec (length b) (length a)); [lia|]. cbn [bind].
    destruct (bshapes_go_dims (repeat 1 (length b - length a) ++ a) b) as [(r & E & LR & D)|[E (k & NC)]];
      rewrite ?E; try (rewrite app_length, repeat_length in *; lia).
    + left. exists r. split; [reflexivity|]. rewrite app_length, repeat_length in LR. split; [lia|].
      intros k. destruct (D k) as [C J]. rewrite dim_r_pad in *. auto.
    + right. split; [reflexivity|]. exists k. now rewrite dim_r_pad in NC.
Qed.

Lemma dim_r_ext s1 s2 : length s1 = length s2 -> (forall k, dim_r s1 k = dim_r s2 k) -> s1 = s2.
Proof.
  intros L H. rewrite <- (rev_involutive s1), <- (rev_involutive s2). f_equal.
  apply nth_ext with (d := 1) (d' := 1); [now rewrite !rev_length|]. intros k _. apply H.
Qed.

Lemma join_shape_unique a b r1 r2 : join_shape a b r1 -> join_shape a b r2 -> r1 = r2.
Proof.
  intros [L1 H1] [L2 H2]. apply dim_r_ext; [congruence|]. intros k.
  destruct (H1 k) as [_ ->], (H2 k) as [_ ->]. reflexivity.
Qed.

Lemma broadcast_shapes_ok_iff a b r : broadcast_shapes a b = Ok r <-> join_shape a b r.
Proof.
  destruct (broadcast_shapes_char a b) as [(r' & E & J)|[E (k & NC)]]; rewrite E; split; intros H.
  - injection H as <-. exact J.
  - f_equal. eapply join_shape_unique; eauto.
  - discriminate.
  - exfalso. apply NC. apply H.
Qed.

Lemma broadcast_shapes_panic_iff a b :
  broadcast_shapes a b = Panic <-> exists k, ~ dim_compat (dim_r a k) (dim_r b k).
Proof.
  destruct (broadcast_shapes_char a b) as [(r & E & J)|[E N]]; rewrite E; split; intros H; auto; try discriminate.
  destruct H as (k & H). exfalso. apply H. apply J.
Qed.

Lemma join_shape_sym a b r : join_shape a b r -> join_shape b a r.
Proof.
  intros [L H]. split; [lia|]. intros k. destruct (H k) as [C J].
  split; [now apply dim_compat_sym|]. rewrite J. now apply dim_join_sym.
Qed.

Lemma broadcast_shapes_comm a b : broadcast_shapes a b = broadcast_shapes b a.
Proof.
  destruct (broadcast_shapes_char a b) as [(r & E & J)|[E N]]; rewrite E; symmetry.
  - apply broadcast_shapes_ok_iff. now apply join_shape_sym.
  - apply broadcast_shapes_panic_iff. destruct N as (k & N). exists k. intros C. apply N. now apply dim_compat_sym.
Qed.

Lemma broadcast_shapes_idem a : broadcast_shapes a a = Ok a.
Proof.
  apply broadcast_shapes_ok_iff. split; [lia|]. intros k. split; [now left|].
  unfold dim_join. destruct (Nat.eqb_spec (dim_r a k) 1); auto.
Qed.

Lemma broadcast_shapes_assoc a b c :
  (r <- broadcast_shapes a b ;; broadcast_shapes r c) = (r <- broadcast_shapes b c ;; broadcast_shapes a r).
Proof.
  destruct (broadcast_shapes_char a b) as [(ab & E1 & J1)|[E1 (k & N)]];
    destruct (broadcast_shapes_char b c) as [(bc & E2 & J2)|[E2 (k' & N')]]; rewrite E1, E2; cbn [bind].
  - destruct J1 as [L1 H1], J2 as [L2 H2].
    destruct (broadcast_shapes_char ab c) as [(r & E & L & H)|[E (k & N)]]; rewrite E; symmetry.
    + apply broadcast_shapes_ok_iff. split; [lia|]. intros k.
      destruct (H1 k) as [C1 D1], (H2 k) as [C2 D2], (H k) as [C D].
      rewrite D2, D, D1. rewrite D1 in C. unfold dim_compat, dim_join in *.
      destruct (Nat.eqb_spec (dim_r a k) 1), (Nat.eqb_spec (dim_r b k) 1); try lia;
      destruct (Nat.eqb_spec (dim_r c k) 1); try lia;
      repeat match goal with |- context [?x =? 1] => destruct (Nat.eqb_spec x 1) end; lia.
    + apply broadcast_shapes_panic_iff. exists k. intros C. apply N. clear N.
      destruct (H1 k) as [C1 D1], (H2 k) as [C2 D2]. rewrite D1. rewrite D2 in C.
      unfold dim_compat, dim_join in *. 
      destruct (Nat.eqb_spec (dim_r a k) 1), (Nat.eqb_spec (dim_r b k) 1); try lia.
  - apply broadcast_shapes_panic_iff. exists k'. intros C. apply N'. clear N'.
    destruct J1 as [L1 H1]. destruct (H1 k') as [C1 D1]. rewrite D1 in C.
    unfold dim_compat, dim_join in *. destruct (Nat.eqb_spec (dim_r a k') 1); lia.
  - symmetry. apply broadcast_shapes_panic_iff. exists k. intros C. apply N. clear N.
    destruct J2 as [L2 H2]. destruct (H2 k) as [C2 D2]. rewrite D2 in C.
    unfold dim_compat, dim_join in *. destruct (Nat.eqb_spec (dim_r b k) 1); lia.
  - reflexivity.
Qed.

Lemma nth_skipn {A} (l : list A) k j d : nth j (skipn k l) d = nth (k + j) l d.
Proof. revert l; induction k as [|k IH]; intros [|x l]; cbn [skipn nth plus]; auto. now destruct j. Qed.

(** both operands broadcast to the common shape *)
Lemma Forall2_nth_error {A B} (R : A -> B -> Prop) l1 l2 (d1 : A) (d2 : B) :
  length l1 = length l2 -> (forall j, j < length l1 -> R (nth j l1 d1) (nth j l2 d2)) -> Forall2 R l1 l2.
Proof.
  revert l2; induction l1 as [|x l1 IH]; intros [|y l2] L H; cbn [length] in *; try discriminate; [constructor|].
  constructor; [apply (H 0); lia|]. apply IH; [lia|]. intros j Hj. apply (H (S j)). lia.
Qed.

Lemma broadcastable_dims sh to : broadcastable sh to <->
  length sh <= length to /\ forall k, k < length sh -> dim_r sh k = 1 \/ dim_r sh k = dim_r to k.
Proof.
  unfold broadcastable. split; intros [L H]; split; auto.
  - intros k K. rewrite !dim_r_nth by lia.
    assert (G : forall j, j < length sh -> nth j sh 1 = 1 \/ nth j sh 1 = nth (length to - length sh + j) to 1).
    { clear k K. intros j J. rewrite <- nth_skipn.
      revert H J. generalize (skipn (length to - length sh) to). clear. intros l F; revert j.
      induction F as [|n m sh l NM F IH]; intros [|j] J; cbn [length] in J; try lia; cbn [nth]; [exact NM|].
      apply IH. lia. }
    destruct (G (length sh - 1 - k) ltac:(lia)) as [G1|G1]; [left; exact G1|right].
    rewrite G1. f_equal. lia.
  - apply Forall2_nth_error with (d1 := 1) (d2 := 1).
    + now rewrite skipn_sub_length.
    + intros j J. rewrite nth_skipn.
      destruct (H (length sh - 1 - j) ltac:(lia)) as [G|G]; rewrite !dim_r_nth in G by lia;
        replace (length sh - 1 - (length sh - 1 - j)) with j in G by lia.
      * left; exact G.
      * right. rewrite G. f_equal. lia.
Qed.

Lemma join_shape_broadcastable_l a b r : join_shape a b r -> broadcastable a r.
Proof.
  intros [L H]. apply broadcastable_dims. split; [lia|]. intros k K. destruct (H k) as [C ->].
  unfold dim_join. destruct (Nat.eqb_spec (dim_r a k) 1); auto.
Qed.

Lemma join_shape_broadcastable_r a b r : join_shape a b r -> broadcastable b r.
Proof. intros J. apply join_shape_broadcastable_l with (b := a). now apply join_shape_sym. Qed.

(** the common shape is the least one both broadcast to *)
Lemma join_shape_least a b r s : join_shape a b r -> broadcastable a s -> broadcastable b s -> broadcastable r s.
Proof.
  intros [L H] A B. apply broadcastable_dims in A as [LA A], B as [LB B].
  apply broadcastable_dims. split; [lia|]. intros k K. destruct (H k) as [C ->].
  unfold dim_join. destruct (Nat.eqb_spec (dim_r a k) 1) as [E|E].
  - destruct (Nat.ltb_spec k (length b)); [auto|]. left. now apply dim_r_over.
  - destruct (Nat.ltb_spec k (length a)); [auto|]. left. now apply dim_r_over.
Qed.

(** ** get_broadcasted_axes *)
Lemma bcast_axes_go_spec bsh : forall i diff osh k,
  (i <= diff -> length bsh = (diff - i) + length osh) -> (diff <= i -> length bsh = length osh) ->
  In k (bcast_axes_go i diff bsh osh) <->
  i <= k < i + length bsh /\
  (k < diff \/ (nth (k - Nat.max i diff) osh 0 = 1 /\ 1 < nth (k - i) bsh 0)).
Proof.
  induction bsh as [|m bsh IH]; intros i diff osh k L1 L2; cbn [bcast_axes_go length].
  - split; [intros []|lia].
  - cbn [length] in *. destruct (Nat.ltb_spec i diff) as [D|D].
    + cbn [orb]. rewrite orb_true_r. cbn [In]. rewrite IH by (intros; lia).
      split.
      * intros [<-|[H1 H2]]; [lia|]. split; [lia|]. destruct H2 as [H2|[H2 H3]]; [left; exact H2|right].
        replace (Nat.max i diff) with diff by lia. replace (Nat.max (S i) diff) with diff in H2 by lia.
        split; [exact H2|]. replace (k - i) with (S (k - S i)) by lia. exact H3.
      * intros [H1 H2]. destruct (Nat.eq_dec i k); [left; assumption|right]. split; [lia|].
        destruct H2 as [H2|[H2 H3]]; [left; exact H2|right].
        replace (Nat.max i diff) with diff in H2 by lia. replace (Nat.max (S i) diff) with diff by lia.
        split; [exact H2|]. replace (k - i) with (S (k - S i)) in H3 by lia. exact H3.
    + destruct osh as [|n osh]; [specialize (L2 ltac:(lia)); cbn in L2; lia|].
      cbn [length] in *. rewrite orb_false_r.
      assert (IH' := IH (S i) diff osh k ltac:(intros; lia) ltac:(intros; lia)).
      replace (Nat.max i diff) with i by lia. replace (Nat.max (S i) diff) with (S i) in IH' by lia.
      destruct (Nat.eqb_spec n 1) as [N|N], (Nat.ltb_spec 1 m) as [M|M]; cbn [andb In]; rewrite IH'; clear IH IH'.
      * split.
        -- intros [<-|[H1 H2]]; [split; [lia|right]; rewrite Nat.sub_diag; auto|].
           split; [lia|]. destruct H2 as [H2|H2]; [left; exact H2|right]. replace (k - i) with (S (k - S i)) by lia. exact H2.
        -- intros [H1 H2]. destruct (Nat.eq_dec i k); [left; assumption|right]. split; [lia|].
           destruct H2 as [H2|H2]; [left; exact H2|right]. replace (k - i) with (S (k - S i)) in H2 by lia. exact H2.
      * split.
        -- intros [H1 H2]. split; [lia|]. destruct H2 as [H2|H2]; [left; exact H2|right]. replace (k - i) with (S (k - S i)) by lia. exact H2.
        -- intros [H1 H2]. destruct H2 as [H2|H2]; [lia|].
           destruct (Nat.eq_dec i k); [subst k; rewrite Nat.sub_diag in H2; cbn in H2; lia|]. split; [lia|]. right.
           replace (k - i) with (S (k - S i)) in H2 by lia. exact H2.
      * split.
        -- intros [H1 H2]. split; [lia|]. destruct H2 as [H2|H2]; [left; exact H2|right]. replace (k - i) with (S (k - S i)) by lia. exact H2.
        -- intros [H1 H2]. destruct H2 as [H2|H2]; [lia|].
           destruct (Nat.eq_dec i k); [subst k; rewrite Nat.sub_diag in H2; cbn in H2; lia|]. split; [lia|]. right.
           replace (k - i) with (S (k - S i)) in H2 by lia. exact H2.
      * split.
        -- intros [H1 H2]. split; [lia|]. destruct H2 as [H2|H2]; [left; exact H2|right]. replace (k - i) with (S (k - S i)) by lia. exact H2.
        -- intros [H1 H2]. destruct H2 as [H2|H2]; [lia|].
           destruct (Nat.eq_dec i k); [subst k; rewrite Nat.sub_diag in H2; cbn in H2; lia|]. split; [lia|]. right.
           replace (k - i) with (S (k - S i)) in H2 by lia. exact H2.
Qed.

Lemma bcast_axes_go_sorted bsh : forall i diff osh, 
  StronglySorted lt (bcast_axes_go i diff bsh osh) /\ Forall (le i) (bcast_axes_go i diff bsh osh).
Proof.
  induction bsh as [|m bsh IH]; intros i diff osh; cbn [bcast_axes_go]; [split; constructor|].
  set (p := if i <? diff then (1, osh) else match osh with n :: r => (n, r) | [] => (0, []) end).
  destruct p as [fd osh']. destruct (IH (S i) diff osh') as [S1 F1].
  assert (F2 : Forall (le i) (bcast_axes_go (S i) diff bsh osh')).
  { eapply Forall_impl; [|exact F1]. cbn; lia. }
  destruct (_ || _); split; auto; constructor; auto.
Qed.

(** ** diagonals *)
Definition inwin (i k n : nat) : bool := (i <=? k) && (k <? i + n).

Lemma undiag_spec sh : forall i ax1 ax2 x y st rest,
  ax1 <> ax2 -> length st = length sh ->
  in_range rest (drop_two i ax1 ax2 sh) ->
  (inwin i ax1 (length sh) = true -> x < nth (ax1 - i) sh 0) ->
  (inwin i ax2 (length sh) = true -> y < nth (ax2 - i) sh 0) ->
  in_range (undiag i ax1 ax2 x y (length sh) rest) sh /\
  dot (undiag i ax1 ax2 x y (length sh) rest) st =
    dot rest (drop_two i ax1 ax2 st)
    + (if inwin i ax1 (length sh) then x * nth (ax1 - i) st 0 else 0)
    + (if inwin i ax2 (length sh) then y * nth (ax2 - i) st 0 else 0).
Proof.
  induction sh as [|n sh IH]; intros i ax1 ax2 x y [|s st] rest NE L R H1 H2; cbn [length] in L; try discriminate.
  - cbn in R. inversion R; subst. cbn [undiag length dot drop_two].
    assert (W1 : inwin i ax1 0 = false) by (unfold inwin; destruct (Nat.leb_spec i ax1), (Nat.ltb_spec ax1 (i + 0)); auto; lia).
    assert (W2 : inwin i ax2 0 = false) by (unfold inwin; destruct (Nat.leb_spec i ax2), (Nat.ltb_spec ax2 (i + 0)); auto; lia).
    rewrite W1, W2. split; [constructor|reflexivity].
  - cbn [length undiag drop_two] in *.
    assert (W : forall k, inwin i k (S (length sh)) = (i =? k) || inwin (S i) k (length sh)).
    { intros k. unfold inwin. destruct (Nat.leb_spec i k), (Nat.ltb_spec k (i + S (length sh))), (Nat.eqb_spec i k),
        (Nat.leb_spec (S i) k), (Nat.ltb_spec k (S i + length sh)); cbn; auto; lia. }
    assert (W0 : inwin (S i) i (length sh) = false).
    { unfold inwin. destruct (Nat.leb_spec (S i) i); [lia|reflexivity]. }
    assert (SUB : forall k m l, inwin (S i) k (length sh) = true -> nth (k - i) (m :: l) 0 = nth (k - S i) l 0).
    { intros k m l H. unfold inwin in H. apply andb_true_iff in H as [H _]. apply Nat.leb_le in H.
      replace (k - i) with (S (k - S i)) by lia. reflexivity. }
    rewrite !W in *.
    destruct (Nat.eqb_spec i ax1) as [E1|E1].
    + subst ax1. cbn [orb] in *. rewrite Nat.sub_diag in *.
      destruct (Nat.eqb_spec i ax2) as [E2|E2]; [congruence|]. cbn [orb] in *.
      destruct (IH (S i) i ax2 x y st rest NE ltac:(lia) R) as [R' D].
      { rewrite W0; discriminate. }
      { intros K. specialize (H2 K). now rewrite (SUB _ _ _ K) in H2. }
      split; [constructor; [now apply H1|exact R']|]. cbn [dot]. rewrite D, ?W0. change (nth 0 (s :: st) 0) with s.
      destruct (inwin (S i) ax2 (length sh)) eqn:K; [rewrite (SUB _ _ _ K)|]; lia.
    + destruct (Nat.eqb_spec i ax2) as [E2|E2].
      * subst ax2. cbn [orb] in *. rewrite Nat.sub_diag in *.
        destruct (IH (S i) ax1 i x y st rest NE ltac:(lia) R) as [R' D].
        { intros K. specialize (H1 K). now rewrite (SUB _ _ _ K) in H1. }
        { rewrite W0; discriminate. }
        split; [constructor; [now apply H2|exact R']|]. cbn [dot]. rewrite D, ?W0. change (nth 0 (s :: st) 0) with s.
        destruct (inwin (S i) ax1 (length sh)) eqn:K; [rewrite (SUB _ _ _ K)|]; lia.
      * cbn [orb] in *. inversion R as [|r n' rest' sh' Hr Hrest]; subst.
        destruct (IH (S i) ax1 ax2 x y st rest' NE ltac:(lia) Hrest) as [R' D].
        { intros K. specialize (H1 K). now rewrite (SUB _ _ _ K) in H1. }
        { intros K. specialize (H2 K). now rewrite (SUB _ _ _ K) in H2. }
        split; [constructor; auto|]. cbn [dot]. rewrite D.
        destruct (inwin (S i) ax1 (length sh)) eqn:K1; [rewrite (SUB _ _ _ K1)|];
          (destruct (inwin (S i) ax2 (length sh)) eqn:K2; [rewrite (SUB _ _ _ K2)|]); lia.
Qed.

Lemma drop_two_length i ax1 ax2 l1 l2 : length l1 = length l2 ->
  length (drop_two i ax1 ax2 l1) = length (drop_two i ax1 ax2 l2).
Proof.
  revert i l2; induction l1 as [|x l1 IH]; intros i [|y l2] L; cbn [length] in L; try discriminate; [reflexivity|].
  cbn [drop_two]. destruct (_ || _); cbn [length]; rewrite (IH (S i) l2) by lia; reflexivity.
Qed.

(** index map of the offset diagonal *)
Definition diag_index (nd ax1 ax2 : nat) (off : Z) (idx : list nat) : list nat :=
  undiag 0 ax1 ax2 (last idx 0 + Z.to_nat (- off)) (last idx 0 + Z.to_nat off) nd (removelast idx).

Lemma nd_diagonal_ok a off axis1 axis2 i j :
  wf a -> as_absolute axis1 (length (a_shape a)) = Ok i -> as_absolute axis2 (length (a_shape a)) = Ok j ->
  i <> j ->
  let d1 := nth i (a_shape a) 0 in let d2 := nth j (a_shape a) 0 in
  (- Z.of_nat d1 < off < Z.of_nat d2)%Z ->
  exists r, nd_offset_diagonal_along a off axis1 axis2 = Ok r /\
    a_shape r = drop_two 0 i j (a_shape a) ++ [Nat.min (d1 - Z.to_nat (- off)) (d2 - Z.to_nat off)] /\
    views r a (diag_index (length (a_shape a)) i j off) /\ flags_ok r.
Proof.
  intros W E1 E2 NE d1 d2 O. unfold wf in W. unfold nd_offset_diagonal_along. rewrite E1, E2.
  apply as_absolute_inv in E1 as [Hi _], E2 as [Hj _].
  destruct (Nat.leb_spec 2 (length (a_shape a))); [|lia]. cbn [guard bind].
  destruct (Nat.eqb_spec i j); [contradiction|]. cbn [negb guard bind].
  rewrite (@vget_nth _ (a_shape a) i 0), (@vget_nth _ (a_shape a) j 0),
    (@vget_nth _ (a_stride a) i 0), (@vget_nth _ (a_stride a) j 0) by lia. cbn [bind].
  fold d1 d2. set (s1 := nth i (a_stride a) 0). set (s2 := nth j (a_stride a) 0).
  assert (G : (if (0 <=? off)%Z then if d2 <=? Z.to_nat off then Panic else Ok (Z.to_nat off * s2, d1, d2 - Z.to_nat off)
     else if d1 <=? Z.to_nat (- off) then Panic else Ok (Z.to_nat (- off) * s1, d1 - Z.to_nat (- off), d2)) =
     Ok (Z.to_nat (- off) * s1 + Z.to_nat off * s2, d1 - Z.to_nat (- off), d2 - Z.to_nat off)).
  { destruct (Z.leb_spec 0 off).
    - destruct (Nat.leb_spec d2 (Z.to_nat off)); [lia|]. replace (Z.to_nat (- off)) with 0 by lia. do 3 f_equal; lia.
    - destruct (Nat.leb_spec d1 (Z.to_nat (- off))); [lia|]. replace (Z.to_nat off) with 0 by lia. do 3 f_equal; lia. }
  rewrite G. cbn [bind]. clear G. eexists. split; [reflexivity|]. unfold reshaped_view_with_offset.
  cbn [a_shape]. split; [reflexivity|].
  split; [|unfold flags_ok; cbn; apply update_flags_ok].
  split; [reflexivity|]. cbn [a_shape a_stride a_off].
  pose proof (drop_two_length 0 i j _ _ W) as LD.
  split; [rewrite !app_length; cbn [length]; lia|].
  intros idx R.
  assert (LI := in_range_length _ _ R). rewrite app_length in LI. cbn [length] in LI.
  assert (NEi : idx <> []) by (intros ->; cbn in LI; lia).
  set (l := last idx 0). set (rest := removelast idx).
  assert (IS : idx = rest ++ [l]) by now apply app_removelast_last.
  assert (LR : length rest = length (drop_two 0 i j (a_shape a))).
  { rewrite IS, app_length in LI. cbn [length] in LI. lia. }
  rewrite IS in R. apply in_range_app in R as [R1 R2]; [|exact LR].
  inversion R2 as [|? ? ? ? Hl _].
  assert (W1 : inwin 0 i (length (a_shape a)) = true).
  { unfold inwin. destruct (Nat.leb_spec 0 i), (Nat.ltb_spec i (0 + length (a_shape a))); auto; lia. }
  assert (W2 : inwin 0 j (length (a_shape a)) = true).
  { unfold inwin. destruct (Nat.leb_spec 0 j), (Nat.ltb_spec j (0 + length (a_shape a))); auto; lia. }
  unfold diag_index. fold l rest.
  destruct (undiag_spec (a_shape a) 0 i j (l + Z.to_nat (- off)) (l + Z.to_nat off) (a_stride a) rest NE W R1) as [R' D].
  { intros _. rewrite Nat.sub_0_r. fold d1. lia. }
  { intros _. rewrite Nat.sub_0_r. fold d2. lia. }
  split; [exact R'|]. rewrite D, W1, W2, !Nat.sub_0_r. fold s1 s2.
  rewrite IS. rewrite dot_app by congruence. cbn [dot]. lia.
Qed.
