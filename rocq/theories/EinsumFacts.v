(** EinsumFacts.v: the axis ordering is a permutation; the multi-operand generator
    enumerates the index box. *)
From Coq Require Import List Arith Lia Bool ZArith Permutation.
From Verif Require Import Base Spec Layout SpecFacts LayoutFacts Views Kernels Access HeapFacts ReduceFacts Reduce Einsum.
Import ListNotations.
Open Scope res_scope.

(** ** find_best_axis_ordering *)
Lemma vget_lt {A} (l : list A) i : i < length l -> exists x, nth_error l i = Some x /\ vget l i = Ok x.
Proof.
  intros L. unfold vget. destruct (nth_error l i) eqn:E; [eauto|]. apply nth_error_None in E. lia.
Qed.

Lemma vset_lt {A} (l : list A) i x : i < length l -> vset l i x = Ok (firstn i l ++ x :: skipn (S i) l).
Proof.
  revert i. induction l as [|y l IH]; intros [|i]; cbn [length]; intros L; try lia; [reflexivity|].
  specialize (IH i ltac:(lia)). unfold vset in *. cbn [upd firstn skipn app].
  destruct (upd l i x); [|discriminate]. injection IH as ->. reflexivity.
Qed.

Lemma find_pos_ok strides order s0 : Forall (fun j => j < length strides) order ->
  forall i1 pos, i1 <= length order -> i1 <= pos -> exists p, find_pos strides order s0 i1 pos = Ok p /\ p <= pos.
Proof.
  intros F. induction i1 as [|i IH]; intros pos L P; cbn [find_pos]; [eauto|].
  destruct (vget_lt order i ltac:(lia)) as (j & N & ->). cbn [bind].
  assert (J : j < length strides) by (rewrite Forall_forall in F; apply F; now apply nth_error_In in N).
  destruct (vget_lt strides j J) as (s1 & _ & ->). cbn [bind].
  destruct (cmp_strides s0 s1 true false) as [[|] [|]].
  - apply IH; lia.
  - apply IH; lia.
  - destruct (IH i) as (p & E & Q); [lia|lia|]. exists p. split; [auto|lia].
  - eauto.
Qed.

(** moving a block of n cells one step to the right overwrites the cell after it *)
Lemma shift_order_eq : forall n (pre mid : list nat) x post, length mid = n ->
  shift_order (pre ++ mid ++ x :: post) (length pre + n) n = Ok (pre ++ match mid with [] => x :: post | m :: _ => m :: mid ++ post end).
Proof.
  induction n as [|n IH]; intros pre mid x post L; cbn [shift_order].
  - destruct mid; [reflexivity|discriminate].
  - destruct (@exists_last _ mid) as (mid' & y & ->); [destruct mid; discriminate|].
    rewrite app_length in L. cbn [length] in L. assert (L' : length mid' = n) by lia.
    replace (length pre + S n - 1) with (length pre + n) by lia.
    assert (G : nth_error (pre ++ (mid' ++ [y]) ++ x :: post) (length pre + n) = Some y).
    { rewrite nth_error_app2 by lia. replace (length pre + n - length pre) with n by lia.
      rewrite <- app_assoc. rewrite nth_error_app2 by lia. now rewrite L', Nat.sub_diag. }
    unfold vget at 1. rewrite G. cbn [bind].
    rewrite vset_lt by (rewrite !app_length; cbn [length]; rewrite ?app_length; cbn [length]; lia). cbn [bind].
    rewrite app_assoc. rewrite firstn_app.
    replace (length pre + S n - length (pre ++ mid' ++ [y])) with 0 by (rewrite !app_length; cbn [length]; lia).
    rewrite firstn_all2 by (rewrite !app_length; cbn [length]; lia). rewrite firstn_O, app_nil_r.
    rewrite skipn_app. rewrite skipn_all2 by (rewrite !app_length; cbn [length]; lia).
    replace (S (length pre + S n) - length (pre ++ mid' ++ [y])) with 1 by (rewrite !app_length; cbn [length]; lia).
    cbn [skipn app]. rewrite <- !app_assoc. cbn [app]. rewrite (IH pre mid' y (y :: post) L'). destruct mid' as [|m mid'']; cbn [app].
    + reflexivity.
    + reflexivity.
Qed.

Lemma split_at {A} (l : list A) i : i < length l -> exists x, l = firstn i l ++ x :: skipn (S i) l /\ nth_error l i = Some x.
Proof.
  intros L. destruct (nth_error l i) as [x|] eqn:E; [|apply nth_error_None in E; lia].
  exists x. split; [|reflexivity]. rewrite <- (firstn_skipn i l) at 1. f_equal. now apply skipn_nth.
Qed.

Lemma order_step_ok strides i0 order p :
  Forall (fun j => j < length strides) order -> i0 < length order ->
  exists o' p', order_step strides i0 (order, p) = Ok (o', p') /\ Permutation order o'.
Proof.
  intros F L. unfold order_step. destruct (split_at order i0 L) as (j0 & E & N).
  unfold vget at 1. rewrite N. cbn [bind].
  assert (J : j0 < length strides) by (rewrite Forall_forall in F; apply F; now apply nth_error_In in N).
  destruct (vget_lt strides j0 J) as (s0 & _ & ->). cbn [bind].
  destruct (find_pos_ok strides order s0 F i0 i0 ltac:(lia) (le_n _)) as (pos & -> & PL). cbn [bind].
  destruct (pos =? i0) eqn:Q; [eauto|]. apply Nat.eqb_neq in Q.
  set (pre := firstn pos order). set (mid := skipn pos (firstn i0 order)). set (post := skipn (S i0) order).
  assert (Lp : length pre = pos) by (unfold pre; rewrite firstn_length; lia).
  assert (Lm : length mid = i0 - pos) by (unfold mid; rewrite skipn_length, firstn_length; lia).
  assert (E' : order = pre ++ mid ++ j0 :: post).
  { rewrite E at 1. fold post. rewrite app_assoc. f_equal. unfold pre, mid.
    rewrite <- (firstn_skipn pos (firstn i0 order)) at 1. f_equal. rewrite firstn_firstn. f_equal. lia. }
  clearbody pre mid post. pose proof (shift_order_eq (i0 - pos) pre mid j0 post Lm) as SE. rewrite <- E' in SE.
  replace (length pre + (i0 - pos)) with i0 in SE by lia. rewrite SE. cbn [bind].
  destruct mid as [|m mid'] eqn:EM; [cbn [length] in Lm; lia|].
  rewrite vset_lt by (rewrite !app_length; cbn [length]; lia). cbn [bind].
  rewrite firstn_app, Lp, Nat.sub_diag, firstn_O, app_nil_r, (firstn_all2 pre) by lia.
  rewrite skipn_app, skipn_all2 by lia. replace (S pos - length pre) with 1 by lia. cbn [skipn app].
  eexists _, _. split; [reflexivity|]. rewrite E'. apply Permutation_app_head.
  change (Permutation (m :: mid' ++ j0 :: post) (j0 :: (m :: mid') ++ post)).
  apply Permutation_sym. apply (Permutation_middle (m :: mid') post j0).
Qed.

Lemma Permutation_bound l l' n : Permutation l l' -> Forall (fun j => j < n) l -> Forall (fun j => j < n) l'.
Proof.
  intros P F. rewrite Forall_forall in *. intros x I. apply F. apply Permutation_in with l'; auto. now apply Permutation_sym.
Qed.

Lemma order_loop_ok strides is : forall order p,
  Forall (fun j => j < length strides) order -> Forall (fun i => i < length order) is ->
  exists o' p', for_each (order_step strides) is (order, p) = Ok (o', p') /\ Permutation order o'.
Proof.
  induction is as [|i is IH]; intros order p F FI; cbn [for_each]; [eauto|].
  inversion FI; subst. destruct (order_step_ok strides i order p F) as (o1 & p1 & -> & P1); [auto|]. cbn [bind].
  destruct (IH o1 p1) as (o2 & p2 & E & P2).
  - now apply Permutation_bound with order.
  - rewrite <- (Permutation_length P1). auto.
  - exists o2, p2. split; auto. now apply Permutation_trans with o1.
Qed.

Lemma find_best_axis_ordering_ok n strides : n <= MAX_DIMS -> n <= length strides ->
  exists o, find_best_axis_ordering n strides = Ok o /\ match o with None => True | Some ord => Permutation (seq 0 n) ord end.
Proof.
  intros L1 L2. unfold find_best_axis_ordering, guard. rewrite (proj2 (Nat.leb_le _ _) L1). cbn [bind].
  destruct (order_loop_ok strides (seq 1 (n - 1)) (seq 0 n) false) as (o & p & -> & P).
  - apply Forall_forall. intros x I. apply in_seq in I. lia.
  - apply Forall_forall. intros x I. apply in_seq in I. rewrite seq_length. lia.
  - cbn [bind]. destruct p; eexists; split; try reflexivity; auto.
Qed.

Lemma permute_array_ok {A} (d : A) (l : list A) perm : length perm = length l -> Forall (fun j => j < length l) perm ->
  permute_array l perm = Ok (map (fun j => nth j l d) perm).
Proof.
  intros L F. unfold permute_array, guard. rewrite L, Nat.eqb_refl. cbn [bind]. apply mapM_pure_ext.
  intros j I. rewrite Forall_forall in F. destruct (vget_lt l j (F j I)) as (x & N & ->). f_equal. symmetry. now apply nth_error_nth.
Qed.

(** ** The generator *)
(** strides of operand k along the axes *)
Definition col (k : nat) (rows : list (list nat)) : list nat := map (fun r => nth k r 0) rows.

(** positions of all operands at an index *)
Definition lin (nops : nat) (rows : list (list nat)) (idx : list nat) : list nat :=
  map (fun k => dot idx (col k rows)) (seq 0 nops).

Lemma lin_length nops rows idx : length (lin nops rows idx) = nops.
Proof. unfold lin. now rewrite map_length, seq_length. Qed.

Lemma add_lists_map {A} (f g : A -> nat) l : add_lists (map f l) (map g l) = map (fun x => f x + g x) l.
Proof. induction l; cbn [map add_lists]; congruence. Qed.

Lemma sub_lists_map {A} (f g : A -> nat) d l : (forall x, In x l -> g x * d <= f x) ->
  sub_lists (map f l) (map g l) d = Ok (map (fun x => f x - g x * d) l).
Proof.
  induction l as [|x l IH]; intros H; cbn [map sub_lists]; [reflexivity|].
  unfold csub. destruct (f x <? g x * d) eqn:Q; [apply Nat.ltb_lt in Q; specialize (H x (or_introl eq_refl)); lia|]. cbn [bind].
  rewrite IH; [reflexivity|]. intros y I. apply H. now right.
Qed.

Lemma row_map (r : list nat) n : length r = n -> r = map (fun k => nth k r 0) (seq 0 n).
Proof.
  intros <-. induction r as [|x r IH]; [reflexivity|]. cbn [length seq map nth]. f_equal. rewrite IH at 1. now rewrite <- seq_shift, map_map.
Qed.

Lemma nth_map_seq (f : nat -> nat) n k : k < n -> nth k (map f (seq 0 n)) 0 = f k.
Proof.
  intros L. rewrite (nth_indep _ 0 (f 0)) by (now rewrite map_length, seq_length). rewrite map_nth, seq_nth by auto. reflexivity.
Qed.

Lemma sub_lists_row nops r f d : length r = nops -> (forall k, k < nops -> nth k r 0 * d <= f k) ->
  sub_lists (map f (seq 0 nops)) r d = Ok (map (fun k => f k - nth k r 0 * d) (seq 0 nops)).
Proof.
  intros L H. pose proof (sub_lists_map f (fun k => nth k r 0) d (seq 0 nops)) as E. rewrite <- (row_map r nops L) in E.
  apply E. intros k I. apply in_seq in I. apply H. lia.
Qed.

Lemma add_lists_row nops r f : length r = nops -> add_lists (map f (seq 0 nops)) r = map (fun k => f k + nth k r 0) (seq 0 nops).
Proof. intros L. pose proof (add_lists_map f (fun k => nth k r 0) (seq 0 nops)) as E. now rewrite <- (row_map r nops L) in E. Qed.

(** the counters run downwards: position n - i *)
Definition down (sh idx : list nat) : list nat := map (fun p => fst p - snd p) (combine sh idx).

Lemma down_zeros sh : down sh (repeat 0 (length sh)) = sh.
Proof. induction sh as [|n sh IH]; [reflexivity|]. unfold down in *. cbn [length repeat combine map fst snd]. rewrite IH. f_equal. lia. Qed.

Lemma map_lin_add nops (base : list nat) (f : nat -> nat) : length base = nops ->
  add_lists base (map f (seq 0 nops)) = map (fun k => nth k base 0 + f k) (seq 0 nops).
Proof. intros L. rewrite (row_map base nops L) at 1. apply add_lists_map. Qed.

Lemma mfig_carry_spec nops sh : forall rows idx base,
  length rows = length sh -> Forall (fun r => length r = nops) rows -> in_range idx sh -> length base = nops ->
  (rank idx sh + 1 < prod sh /\
   exists idx', mfig_carry sh rows (down sh idx) (add_lists base (lin nops rows idx)) = Ok (down sh idx', add_lists base (lin nops rows idx'), false) /\
                in_range idx' sh /\ rank idx' sh = rank idx sh + 1) \/
  (rank idx sh + 1 = prod sh /\
   mfig_carry sh rows (down sh idx) (add_lists base (lin nops rows idx)) = Ok (sh, base, true)).
Proof.
  induction sh as [|n sh IH]; intros rows idx base LR FR R LB.
  - destruct idx as [|i idx]; [|inversion R]. right. split; [reflexivity|]. unfold down. cbn [combine map mfig_carry]. f_equal. f_equal. f_equal.
    unfold lin. rewrite (map_lin_add nops base _ LB). etransitivity; [|symmetry; apply (row_map base nops LB)]. apply map_ext. intros k. cbn [dot]. lia.
  - destruct rows as [|r rows]; [discriminate|]. destruct idx as [|i idx]; [inversion R|]. apply in_range_cons in R as [Hi R'].
    apply Forall_cons_iff in FR as [Lr FR']. cbn [length] in LR.
    assert (PS : 0 < prod sh). { pose proof (rank_lt idx sh R'). lia. }
    set (base' := add_lists base (map (fun k => i * nth k r 0) (seq 0 nops))).
    assert (LB' : length base' = nops). { unfold base'. rewrite (map_lin_add nops base _ LB), map_length, seq_length. reflexivity. }
    assert (E : forall idx, add_lists base (lin nops (r :: rows) (i :: idx)) = add_lists base' (lin nops rows idx)).
    { intros j. unfold lin at 2. rewrite (map_lin_add nops base' _ LB'). unfold lin. rewrite (map_lin_add nops base _ LB). apply map_ext_in.
      intros k I. apply in_seq in I. unfold base'. rewrite (map_lin_add nops base _ LB).
      rewrite (nth_map_seq (fun k => nth k base 0 + i * nth k r 0)) by lia. cbn [col map dot]. fold (col k rows). lia. }
    cbn [rank]. rewrite prod_cons.
    change (down (n :: sh) (i :: idx)) with (n - i :: down sh idx). cbn [mfig_carry]. rewrite E.
    destruct (IH rows idx base' ltac:(lia) FR' R' LB') as [(Q & idx' & -> & R1 & K)|(Q & ->)]; cbn [bind].
    + left. split; [nia|]. exists (i :: idx'). split; [|split].
      * change (down (n :: sh) (i :: idx')) with (n - i :: down sh idx'). now rewrite E.
      * constructor; auto.
      * cbn [rank]. lia.
    + unfold csub. destruct (n - i <? 1) eqn:Q1; [apply Nat.ltb_lt in Q1; lia|]. cbn [bind]. apply Nat.ltb_ge in Q1.
      destruct (n - i - 1 =? 0) eqn:Q2; cbn [negb].
      * apply Nat.eqb_eq in Q2. right. split; [nia|].
        destruct (n <? 1) eqn:Q3; [apply Nat.ltb_lt in Q3; lia|]. cbn [bind].
        unfold base' at 1. rewrite (map_lin_add nops base _ LB).
        rewrite (sub_lists_row nops r); [|auto|].
        -- cbn [bind]. f_equal. f_equal. f_equal. etransitivity; [|symmetry; apply (row_map base nops LB)]. apply map_ext. intros k.
           replace i with (n - 1) by lia. lia.
        -- intros k _. replace i with (n - 1) by lia. lia.
      * apply Nat.eqb_neq in Q2. left. split; [nia|]. exists (S i :: repeat 0 (length sh)). split; [|split].
        -- f_equal. f_equal. f_equal.
           ++ change (down (n :: sh) (S i :: repeat 0 (length sh))) with (n - S i :: down sh (repeat 0 (length sh))). rewrite down_zeros. f_equal. lia.
           ++ unfold base' at 1. rewrite (map_lin_add nops base _ LB). rewrite (add_lists_row nops r) by auto.
              unfold lin. rewrite (map_lin_add nops base _ LB). apply map_ext. intros k. cbn [col map dot]. rewrite dot_zeros. lia.
        -- constructor; [lia|]. now apply in_range_zeros.
        -- cbn [rank]. rewrite rank_zeros. lia.
Qed.

Lemma add_lists_0 l : add_lists (repeat 0 (length l)) l = l.
Proof. induction l; cbn [length repeat add_lists]; [reflexivity|]. f_equal; auto. Qed.

(** generator state at an index *)
Definition mfig_at (nops : nat) (sh : list nat) (rows : list (list nat)) (k : nat) (idx : list nat) : mfig :=
  mkMfig sh rows nops (prod sh) k (down sh idx) (lin nops rows idx).

Lemma repeat_0_map n : forall s, repeat 0 n = map (fun _ => 0) (seq s n).
Proof. induction n; intros s; cbn [repeat seq map]; [reflexivity|]. f_equal. auto. Qed.

Lemma mfig_from_ok nops sh rows : length rows = length sh -> nops <= MAX_ARGS -> length sh <= MAX_DIMS ->
  mfig_from nops sh rows = Ok (mfig_at nops sh rows 0 (repeat 0 (length sh))).
Proof.
  intros L1 L2 L3. unfold mfig_from, guard. rewrite L1, Nat.eqb_refl, (proj2 (Nat.leb_le _ _) L2), (proj2 (Nat.leb_le _ _) L3). cbn [bind].
  unfold mfig_at. rewrite down_zeros. do 2 f_equal. unfold lin.
  rewrite (repeat_0_map nops 0). apply map_ext. intros k. now rewrite dot_zeros.
Qed.

Lemma mfig_increment_spec nops sh rows k idx : length rows = length sh -> Forall (fun r => length r = nops) rows -> in_range idx sh ->
  exists idx', mfig_increment (mfig_at nops sh rows k idx) = Ok (mfig_at nops sh rows k idx') /\ in_range idx' sh /\
    (rank idx sh + 1 < prod sh -> rank idx' sh = rank idx sh + 1).
Proof.
  intros LR FR R. unfold mfig_increment, mfig_at. cbn [m_shape m_strides m_idx m_flat m_nops m_size m_iter].
  assert (E : forall j, lin nops rows j = add_lists (repeat 0 nops) (lin nops rows j)).
  { intros j. rewrite <- (lin_length nops rows j) at 2. now rewrite add_lists_0. }
  destruct (mfig_carry_spec nops sh rows idx (repeat 0 nops) LR FR R (repeat_length _ _)) as [(Q & idx' & H & R' & K)|(Q & H)]; rewrite <- E in H; rewrite H; cbn [bind].
  - exists idx'. rewrite <- E. auto.
  - exists (repeat 0 (length sh)). split; [|split; [|intros; lia]].
    + rewrite down_zeros. do 2 f_equal. unfold lin. 
      rewrite (repeat_0_map nops 0). apply map_ext. intros j. now rewrite dot_zeros.
    + apply in_range_zeros. pose proof (rank_lt idx sh R). lia.
Qed.

Lemma mfig_run_spec nops sh rows : length rows = length sh -> Forall (fun r => length r = nops) rows ->
  forall fuel k idx, in_range idx sh -> rank idx sh = k -> prod sh - k < fuel ->
  mfig_run fuel (mfig_at nops sh rows k idx) = Ok (skipn k (map (lin nops rows) (indices sh))).
Proof.
  intros LR FR. induction fuel as [|fuel IH]; intros k idx R K L; [lia|]. cbn [mfig_run]. unfold mfig_next.
  pose proof (rank_lt idx sh R) as RL. cbn [mfig_at m_iter m_size].
  destruct (k =? prod sh) eqn:Q; [apply Nat.eqb_eq in Q; lia|].
  assert (N : nth_error (map (lin nops rows) (indices sh)) k = Some (lin nops rows idx)).
  { apply map_nth_error. rewrite <- K. now apply nth_indices_rank. }
  destruct (mfig_increment_spec nops sh rows k idx LR FR R) as (idx' & H & R' & K').
  change (mfig_increment (mkMfig sh rows nops (prod sh) k (down sh idx) (lin nops rows idx))) with (mfig_increment (mfig_at nops sh rows k idx)).
  rewrite H. cbn [bind mfig_at m_shape m_strides m_nops m_size m_iter m_idx m_flat].
  rewrite (skipn_nth _ _ _ N).
  destruct (Nat.eq_dec (k + 1) (prod sh)) as [QE|QN].
  - destruct fuel as [|fuel']; [lia|]. cbn [mfig_run]. unfold mfig_next. cbn [m_iter m_size]. rewrite QE, Nat.eqb_refl. cbn [bind].
    rewrite skipn_all2; [reflexivity|]. rewrite map_length, indices_length. lia.
  - specialize (K' ltac:(lia)).
    change (mkMfig sh rows nops (prod sh) (k + 1) (down sh idx') (lin nops rows idx')) with (mfig_at nops sh rows (k + 1) idx').
    rewrite IH; [|auto|lia|lia]. cbn [bind]. do 3 f_equal. lia.
Qed.

Lemma mfig_list_ok nops sh rows : length rows = length sh -> Forall (fun r => length r = nops) rows ->
  nops <= MAX_ARGS -> length sh <= MAX_DIMS ->
  mfig_list nops sh rows = Ok (map (lin nops rows) (indices sh)).
Proof.
  intros LR FR L1 L2. unfold mfig_list. rewrite mfig_from_ok by auto. cbn [bind m_size mfig_at].
  destruct (Nat.eq_dec (prod sh) 0) as [Z|NZ].
  - rewrite Z. cbn [mfig_run]. unfold mfig_next, mfig_at. cbn [m_iter m_size]. rewrite Z. cbn [Nat.eqb bind].
    rewrite indices_0 by auto. reflexivity.
  - change (mkMfig sh rows nops (prod sh) 0 (down sh (repeat 0 (length sh))) (lin nops rows (repeat 0 (length sh)))) with (mfig_at nops sh rows 0 (repeat 0 (length sh))).
    rewrite (mfig_run_spec nops sh rows LR FR); [reflexivity|apply in_range_zeros; lia|apply rank_zeros|lia].
Qed.
