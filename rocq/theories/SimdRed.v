(** SimdRed.v: facts about the vectorised reductions.  Every kernel evaluates one
    expression tree whose leaves are the start values and the elements. *)
From Coq Require Import List Arith Lia Bool Permutation.
From Verif Require Import Base Spec Layout SpecFacts LayoutFacts Views ViewsFacts ViewsFacts2 ViewsFacts3 Kernels HeapFacts KernelFacts OpFacts Reduce ReduceFacts Simd SimdFacts SimdOps.
Import ListNotations.
Open Scope res_scope.

(** a way of bracketing a reduction *)
Inductive tree (T : Type) := Leaf (x : T) | Node (l r : tree T).
Arguments Leaf {T}. Arguments Node {T}.
Fixpoint teval {T} (op : T -> T -> T) (t : tree T) : T :=
  match t with Leaf x => x | Node l r => op (teval op l) (teval op r) end.
Fixpoint leaves {T} (t : tree T) : list T :=
  match t with Leaf x => [x] | Node l r => leaves l ++ leaves r end.

Section Trees.
  Context {T : Type}.
  Variable op : T -> T -> T.
  Definition lv (ts : list (tree T)) : list T := concat (map leaves ts).

  Lemma map2_teval ts : forall us, map2 op (map (teval op) ts) (map (teval op) us) = map (teval op) (map2 Node ts us).
  Proof. induction ts as [|t ts IH]; intros [|u us]; cbn [map map2 teval]; auto. now rewrite IH. Qed.

  Lemma lv_node ts : forall us, length ts = length us -> Permutation (lv (map2 Node ts us)) (lv ts ++ lv us).
  Proof.
    induction ts as [|t ts IH]; intros [|u us] E; cbn in E; try discriminate; [constructor|].
    unfold lv in *. cbn [map2 map concat leaves]. rewrite IH by lia. rewrite <- !app_assoc. apply Permutation_app_head.
    rewrite !app_assoc. apply Permutation_app_tail. apply Permutation_app_comm.
  Qed.

  Lemma lv_leaf xs : lv (map Leaf xs) = xs.
  Proof. unfold lv. induction xs as [|x xs IH]; cbn; [reflexivity|]. now f_equal. Qed.
  Lemma teval_leaf xs : map (teval op) (map Leaf xs) = xs.
  Proof. rewrite map_map. cbn [teval]. apply map_id. Qed.

  Lemma seq_split k m l : k <= m -> m <= l -> seq k (l - k) = seq k (m - k) ++ seq m (l - m).
  Proof. intros A B. replace (l - k) with ((m - k) + (l - m)) by lia. rewrite seq_app. f_equal. f_equal. lia. Qed.

  Variable step : T -> T -> T.
  Lemma red_tail_at (h : heap T) p s n (g : nat -> T) (R : forall i, i < n -> ld h (padd p (i * s)) = Ok (g i)) c : forall k out, k + c = n ->
    red_tail step h (padd p (k * s)) c s out = Ok (fold_left step (map g (seq k c)) out).
  Proof.
    induction c as [|c IH]; intros k out E; cbn [red_tail seq map fold_left]; [reflexivity|].
    rewrite R by lia. cbn [bind]. rewrite padd_add. replace (k * s + s) with (S k * s) by lia. apply IH. lia.
  Qed.

End Trees.

Section Red.
  Context {T : Type}.
  Variable L : nat.
  Hypothesis HL : L = 2 \/ L = 4.
  Variable op : T -> T -> T.

  Lemma HL4 : L = 1 \/ L = 2 \/ L = 4. Proof. destruct HL; auto. Qed.
  Lemma HLpos : 0 < L. Proof. destruct HL as [-> | ->]; lia. Qed.

  Lemma hor_pairs_tree ts : length ts = L ->
    exists t, hor_pairs op (map (teval op) ts) = Ok (teval op t) /\ Permutation (leaves t) (lv ts).
  Proof.
    intros E. destruct HL as [-> | ->].
    - destruct ts as [|a [|b [|]]]; try discriminate. exists (Node a b). split; [reflexivity|].
      unfold lv. cbn [map concat leaves]. now rewrite app_nil_r.
    - destruct ts as [|a [|b [|c [|d [|]]]]]; try discriminate. exists (Node (Node a b) (Node c d)). split; [reflexivity|].
      unfold lv. cbn [map concat leaves]. now rewrite app_nil_r, <- app_assoc.
  Qed.
  Lemma hor_halves_tree ts : length ts = L ->
    exists t, hor_halves op (map (teval op) ts) = Ok (teval op t) /\ Permutation (leaves t) (lv ts).
  Proof.
    intros E. destruct HL as [-> | ->].
    - destruct ts as [|a [|b [|]]]; try discriminate. exists (Node a b). split; [reflexivity|].
      unfold lv. cbn [map concat leaves]. now rewrite app_nil_r.
    - destruct ts as [|a [|b [|c [|d [|]]]]]; try discriminate. exists (Node (Node a c) (Node b d)). split; [reflexivity|].
      unfold lv. cbn [map concat leaves]. rewrite app_nil_r, <- !app_assoc. apply Permutation_app_head.
      rewrite !app_assoc. apply Permutation_app_tail, Permutation_app_comm.
  Qed.

  Variable h : heap T.
  Variable p : ptr.
  Variable s : nat.
  Variable n : nat.
  Variable g : nat -> T.
  (** the n elements from p on, at step s *)
  Hypothesis R : forall i, i < n -> ld h (padd p (i * s)) = Ok (g i).

  Lemma vgather_at k : k + L <= n -> vgather L h (Mem (padd p (k * s))) s = Ok (map g (seq k L)).
  Proof.
    intros LE. rewrite vgather_eq by apply HL4. rewrite (seq_add k L), map_map. apply mapM_pure_ext. intros i I.
    apply in_seq in I. cbn [src_add src_ld]. rewrite padd_add, <- Nat.mul_add_distr_r. apply R. lia.
  Qed.

  Variable hor : list T -> res T.
  Hypothesis Hhor : forall ts, length ts = L -> exists t, hor (map (teval op) ts) = Ok (teval op t) /\ Permutation (leaves t) (lv ts).
  Variable step : T -> T -> T.

  (** the vector loop covers a prefix, in some bracketing; the scalar loop does the rest *)
  Definition covers (ts : list (tree T)) (k : nat) (out : res T) : Prop :=
    exists t m, k <= m <= n /\ Permutation (leaves t) (lv ts ++ map g (seq k (m - k))) /\
      out = Ok (fold_left step (map g (seq m (n - m))) (teval op t)).

  Lemma covers_tail ts k : length ts = L -> k <= n ->
    covers ts k (out <- hor (map (teval op) ts) ;; red_tail step h (padd p (k * s)) (n - k) s out).
  Proof.
    intros E LE. destruct (Hhor ts E) as (t & -> & P). exists t, k. split; [lia|].
    rewrite Nat.sub_diag, app_nil_r. split; [exact P|]. cbn [bind]. apply (red_tail_at step h p s n g R). lia.
  Qed.

  Lemma red_uniform_covers fuel : forall k ts, n - k < fuel -> k <= n -> length ts = L ->
    covers ts k (red_uniform_go L op hor step fuel h (padd p (k * s)) (n - k) s (map (teval op) ts)).
  Proof.
    pose proof HLpos as PL. induction fuel as [|fuel IH]; intros k ts F LE E; [lia|]. cbn [red_uniform_go].
    destruct (Nat.leb_spec L (n - k)) as [B|_]; [|now apply covers_tail].
    rewrite vgather_at by lia. cbn [bind]. rewrite padd_add. replace (k * s + s * L) with ((k + L) * s) by lia.
    replace (n - k - L) with (n - (k + L)) by lia.
    rewrite <- (teval_leaf op (map g (seq k L))), map2_teval.
    destruct (IH (k + L) (map2 Node ts (map Leaf (map g (seq k L))))) as (t & m & I & P & Q);
      [lia|lia|rewrite map2_length, !map_length, seq_length; lia|].
    exists t, m. split; [lia|]. split; [|exact Q].
    rewrite P, lv_node by (now rewrite !map_length, seq_length). rewrite lv_leaf, <- app_assoc, <- map_app.
    rewrite (seq_split k (k + L) m) by lia. replace (k + L - k) with L by lia. reflexivity.
  Qed.
End Red.

Section Contig.
  Context {T : Type}.
  Variable L : nat.
  Hypothesis HL : L = 2 \/ L = 4.
  Variable op : T -> T -> T.
  Variable h : heap T.
  Variable p : ptr.
  Variable n : nat.
  Variable g : nat -> T.
  Hypothesis R : forall i, i < n -> ld h (padd p i) = Ok (g i).

  Lemma vload_at k : k + L <= n -> vload L h (Mem (padd p k)) = Ok (map g (seq k L)).
  Proof.
    clear HL. intros LE. unfold vload. rewrite (seq_add k L), map_map. apply mapM_pure_ext. intros i I.
    apply in_seq in I. cbn [src_add src_ld]. rewrite padd_add. apply R. lia.
  Qed.

  Variable hor : list T -> res T.
  Hypothesis Hhor : forall ts, length ts = L -> exists t, hor (map (teval op) ts) = Ok (teval op t) /\ Permutation (leaves t) (lv ts).
  Variable step : T -> T -> T.

  Lemma R1 : forall i, i < n -> ld h (padd p (i * 1)) = Ok (g i).
  Proof. intros i I. rewrite Nat.mul_1_r. now apply R. Qed.

  (** the tree of four vectors added pairwise *)
  Definition quads (k : nat) : list (tree T) :=
    map2 Node (map2 Node (map Leaf (map g (seq k L))) (map Leaf (map g (seq (k + 1 * L) L))))
              (map2 Node (map Leaf (map g (seq (k + 2 * L) L))) (map Leaf (map g (seq (k + 3 * L) L)))).
  Lemma quads_length k : length (quads k) = L.
  Proof. clear HL. unfold quads. rewrite !map2_length, !map_length, !seq_length. lia. Qed.
  Lemma quads_eval k : map2 op (map2 op (map g (seq k L)) (map g (seq (k + 1 * L) L)))
      (map2 op (map g (seq (k + 2 * L) L)) (map g (seq (k + 3 * L) L))) = map (teval op) (quads k).
  Proof. unfold quads. now rewrite <- !map2_teval, !teval_leaf. Qed.
  Lemma quads_leaves k : Permutation (lv (quads k)) (map g (seq k (4 * L))).
  Proof.
    clear HL. unfold quads. rewrite !lv_node by (repeat (rewrite map2_length || rewrite map_length || rewrite seq_length); lia). rewrite !lv_leaf.
    rewrite <- !app_assoc, <- !map_app.
    replace (4 * L) with (L + (L + (L + L))) by lia. rewrite !seq_app. 
    replace (k + 1 * L) with (k + L) by lia. replace (k + 2 * L) with (k + L + L) by lia.
    replace (k + 3 * L) with (k + L + L + L) by lia. reflexivity.
  Qed.

  Lemma red_contig_covers fuel : forall k ts, n - k < fuel -> k <= n -> length ts = L ->
    covers op n g step ts k (red_contig_go L op hor step fuel h (padd p k) (n - k) (map (teval op) ts)).
  Proof.
    pose proof (HLpos L HL) as PL. induction fuel as [|fuel IH]; intros k ts F LE E; [lia|]. cbn [red_contig_go].
    destruct (Nat.leb_spec (4 * L) (n - k)) as [B|_].
    - rewrite !padd_add, !Nat.mul_0_l, !Nat.add_0_r, !vload_at by lia. cbn [bind].
      rewrite quads_eval, map2_teval. replace (n - k - 4 * L) with (n - (k + 4 * L)) by lia.
      destruct (IH (k + 4 * L) (map2 Node ts (quads k))) as (t & m & I & P & Q);
        [lia|lia|rewrite map2_length, quads_length; lia|].
      exists t, m. split; [lia|]. split; [|exact Q].
      rewrite P, lv_node by (now rewrite quads_length). rewrite quads_leaves, <- app_assoc, <- map_app.
      rewrite (seq_split k (k + 4 * L) m) by lia. replace (k + 4 * L - k) with (4 * L) by lia. reflexivity.
    - replace (padd p k) with (padd p (k * 1)) by (now rewrite Nat.mul_1_r). now apply (covers_tail L HL op h p 1 n g R1 hor Hhor step ts k).
  Qed.

  (** the variant that combines the lanes in every iteration *)
  Lemma red_each_tree fuel : forall k t0, n - k < fuel -> k <= n ->
    exists t, red_each_go L op hor op fuel h (padd p k) (n - k) (teval op t0) = Ok (teval op t) /\
      Permutation (leaves t) (leaves t0 ++ map g (seq k (n - k))).
  Proof.
    pose proof (HLpos L HL) as PL. induction fuel as [|fuel IH]; intros k t0 F LE; [lia|]. cbn [red_each_go].
    destruct (Nat.leb_spec (4 * L) (n - k)) as [B|_].
    - rewrite !padd_add, !Nat.mul_0_l, !Nat.add_0_r, !vload_at by lia. cbn [bind].
      rewrite quads_eval. destruct (Hhor (quads k) (quads_length k)) as (tq & -> & PQ). cbn [bind].
      change (op (teval op t0) (teval op tq)) with (teval op (Node t0 tq)). replace (n - k - 4 * L) with (n - (k + 4 * L)) by lia.
      destruct (IH (k + 4 * L) (Node t0 tq)) as (t & E & P); [lia|lia|]. exists t. split; [exact E|].
      rewrite P. cbn [leaves]. rewrite PQ, quads_leaves, <- app_assoc, <- map_app.
      rewrite (seq_split k (k + 4 * L) n) by lia. replace (k + 4 * L - k) with (4 * L) by lia. reflexivity.
    - replace (padd p k) with (padd p (k * 1)) by (now rewrite Nat.mul_1_r). rewrite (red_tail_at op h p 1 n g R1) by lia.
      generalize (seq k (n - k)) as l. intros l. revert t0. clear. induction l as [|i l IH]; intros t0; cbn [map fold_left].
      + exists t0. split; [reflexivity|]. now rewrite app_nil_r.
      + destruct (IH (Node t0 (Leaf (g i)))) as (t & E & P). exists t. split; [exact E|]. rewrite P. cbn [leaves]. now rewrite <- app_assoc.
  Qed.
End Contig.

(** ** sum, product, min and max of an array *)
Section Whole.
  Context {T : Type}.
  Variable L : nat.
  Hypothesis HL : L = 2 \/ L = 4.

  Lemma lv_repeat (x : T) k : lv (repeat (Leaf x) k) = repeat x k.
  Proof. unfold lv. induction k as [|k IH]; cbn; [reflexivity|]. now f_equal. Qed.
  Lemma teval_repeat (op : T -> T -> T) x k : map (teval op) (repeat (Leaf x) k) = repeat x k.
  Proof. induction k as [|k IH]; cbn; [reflexivity|]. now f_equal. Qed.

  Lemma tree_fold (op : T -> T -> T) l : forall t, exists t',
    fold_left op l (teval op t) = teval op t' /\ leaves t' = leaves t ++ l.
  Proof.
    induction l as [|x l IH]; intros t; cbn [fold_left].
    - exists t. now rewrite app_nil_r.
    - destruct (IH (Node t (Leaf x))) as (t' & E & Q). exists t'. split; [exact E|]. rewrite Q. cbn [leaves]. now rewrite <- app_assoc.
  Qed.

  Lemma foldM_pure (op : T -> T -> T) l : forall acc, foldM (fun v acc => Ok (op acc v)) l acc = Ok (fold_left op l acc).
  Proof. induction l as [|x l IH]; intros acc; cbn [foldM fold_left bind]; auto. Qed.

  (** what the array layout gives the kernels *)
  Lemma sk_reduce_cases contig uniform (g : T -> T -> res T) dflt (h : heap T) a xs :
    valid h a -> no_bcast (a_shape a) (a_stride a) \/ has_uniform_stride (a_shape a) (a_stride a) = None ->
    length (a_shape a) <= MAX_DIMS -> elems h a = Ok xs ->
    (exists s, (forall i, i < length xs -> ld h (padd (a_ptr a) (i * s)) = Ok (nth i xs dflt)) /\
       ((s = 1 /\ sk_reduce contig uniform g dflt h (a_ptr a) (a_shape a) (a_stride a) = contig h (a_ptr a) (length xs)) \/
        sk_reduce contig uniform g dflt h (a_ptr a) (a_shape a) (a_stride a) = uniform h (a_ptr a) (length xs) s)) \/
    sk_reduce contig uniform g dflt h (a_ptr a) (a_shape a) (a_stride a) = foldM g xs dflt.
  Proof.
    intros V D MD E.
    assert (LN : length xs = prod (a_shape a)) by (unfold elems in E; apply mapM_length in E; now rewrite indices_length in E).
    rewrite elems_offsets in E. unfold sk_reduce.
    destruct (has_uniform_stride (a_shape a) (a_stride a)) as [s|] eqn:U.
    - left. destruct D as [NB|]; [|discriminate]. exists s.
      rewrite (has_uniform_spec _ _ _ (eq_sym (proj1 V)) NB U), mapM_map in E. split.
      + intros i I. assert (NE : nth_error (seq 0 (prod (a_shape a))) i = Some i) by (rewrite nth_error_seq; [reflexivity|lia]).
        destruct (mapM_nth _ _ _ _ _ E NE) as (y & NY & ->).
        apply (nth_error_nth _ _ dflt) in NY. now rewrite NY.
      + rewrite LN. destruct (Nat.eqb_spec s 1); auto.
    - right. rewrite fig_list_ok' by (try apply V; exact MD). cbn [bind].
      assert (H : forall i, In i (offsets (a_shape a) (a_stride a)) -> exists v, ld h (padd (a_ptr a) i) = Ok v).
      { intros i I. apply in_map_iff in I as (idx & <- & I). apply in_indices in I. exact (proj2 V idx I). }
      rewrite fold_idx_eq by exact H. now rewrite E.
  Qed.

  Lemma map_nth_seq (xs : list T) d : map (fun i => nth i xs d) (seq 0 (length xs)) = xs.
  Proof.
    induction xs as [|x xs IH]; [reflexivity|]. cbn [length seq map nth]. f_equal. rewrite <- seq_shift, map_map. exact IH.
  Qed.

  Lemma sum_tree (add : T -> T -> T) (zero : T) (h : heap T) a xs :
    valid h a -> no_bcast (a_shape a) (a_stride a) \/ has_uniform_stride (a_shape a) (a_stride a) = None ->
    length (a_shape a) <= MAX_DIMS -> elems h a = Ok xs ->
    exists t k, 1 <= k <= L /\ Permutation (leaves t) (repeat zero k ++ xs) /\
      sk_reduce (simd_sum_contiguous L add zero) (simd_sum_uniform L add zero) (fun v acc => Ok (add acc v)) zero
        h (a_ptr a) (a_shape a) (a_stride a) = Ok (teval add t).
  Proof.
    intros V D MD E. pose proof (HLpos L HL) as PL.
    destruct (sk_reduce_cases (simd_sum_contiguous L add zero) (simd_sum_uniform L add zero) (fun v acc => Ok (add acc v)) zero h a xs V D MD E)
      as [(s & R & [(-> & ->) | ->]) | ->].
    - unfold simd_sum_contiguous, red_contig. rewrite <- (teval_repeat add zero L).
      destruct (red_contig_covers L HL add h (a_ptr a) (length xs) (fun i => nth i xs zero)
        (fun i I => eq_trans (f_equal (fun k => ld h (padd (a_ptr a) k)) (eq_sym (Nat.mul_1_r i))) (R i I))
        (hor_pairs add) (hor_pairs_tree L HL add) add (S (length xs)) 0 (repeat (Leaf zero) L)) as (t & m & I & P & Q);
        [lia|lia|apply repeat_length|].
      rewrite padd_0, Nat.sub_0_r in Q. destruct (tree_fold add (map (fun i => nth i xs zero) (seq m (length xs - m))) t) as (t' & F & G).
      exists t', L. split; [lia|]. split; [|rewrite Q, F; reflexivity].
      rewrite G, P, lv_repeat, <- app_assoc, <- map_app, <- (seq_split 0 m (length xs)) by lia.
      now rewrite Nat.sub_0_r, map_nth_seq.
    - unfold simd_sum_uniform, red_uniform. rewrite <- (teval_repeat add zero L).
      destruct (red_uniform_covers L HL add h (a_ptr a) s (length xs) (fun i => nth i xs zero) R
        (hor_pairs add) (hor_pairs_tree L HL add) add (S (length xs)) 0 (repeat (Leaf zero) L)) as (t & m & I & P & Q);
        [lia|lia|apply repeat_length|].
      rewrite Nat.mul_0_l, padd_0, Nat.sub_0_r in Q. destruct (tree_fold add (map (fun i => nth i xs zero) (seq m (length xs - m))) t) as (t' & F & G).
      exists t', L. split; [lia|]. split; [|rewrite Q, F; reflexivity].
      rewrite G, P, lv_repeat, <- app_assoc, <- map_app, <- (seq_split 0 m (length xs)) by lia.
      now rewrite Nat.sub_0_r, map_nth_seq.
    - rewrite foldM_pure. destruct (tree_fold add xs (Leaf zero)) as (t & F & G). cbn [teval] in F.
      exists t, 1. split; [lia|]. rewrite F, G. split; reflexivity.
  Qed.

  Lemma product_tree (mul : T -> T -> T) (one : T) (h : heap T) a xs :
    valid h a -> no_bcast (a_shape a) (a_stride a) \/ has_uniform_stride (a_shape a) (a_stride a) = None ->
    length (a_shape a) <= MAX_DIMS -> elems h a = Ok xs ->
    exists t k, 1 <= k <= L /\ Permutation (leaves t) (repeat one k ++ xs) /\
      sk_reduce (simd_product_contiguous L mul one) (simd_product_uniform L mul one) (fun v acc => Ok (mul acc v)) one
        h (a_ptr a) (a_shape a) (a_stride a) = Ok (teval mul t).
  Proof.
    intros V D MD E. pose proof (HLpos L HL) as PL.
    destruct (sk_reduce_cases (simd_product_contiguous L mul one) (simd_product_uniform L mul one) (fun v acc => Ok (mul acc v)) one h a xs V D MD E)
      as [(s & R & [(-> & ->) | ->]) | ->].
    - unfold simd_product_contiguous, red_each.
      destruct (red_each_tree L HL mul h (a_ptr a) (length xs) (fun i => nth i xs one)
        (fun i I => eq_trans (f_equal (fun k => ld h (padd (a_ptr a) k)) (eq_sym (Nat.mul_1_r i))) (R i I))
        (hor_halves mul) (hor_halves_tree L HL mul) (S (length xs)) 0 (Leaf one)) as (t & Q & P); [lia|lia|].
      rewrite padd_0, Nat.sub_0_r in Q. exists t, 1. split; [lia|]. split; [|exact Q].
      rewrite P, Nat.sub_0_r, map_nth_seq. reflexivity.
    - unfold simd_product_uniform, red_uniform. rewrite <- (teval_repeat mul one L).
      destruct (red_uniform_covers L HL mul h (a_ptr a) s (length xs) (fun i => nth i xs one) R
        (hor_halves mul) (hor_halves_tree L HL mul) mul (S (length xs)) 0 (repeat (Leaf one) L)) as (t & m & I & P & Q);
        [lia|lia|apply repeat_length|].
      rewrite Nat.mul_0_l, padd_0, Nat.sub_0_r in Q. destruct (tree_fold mul (map (fun i => nth i xs one) (seq m (length xs - m))) t) as (t' & F & G).
      exists t', L. split; [lia|]. split; [|rewrite Q, F; reflexivity].
      rewrite G, P, lv_repeat, <- app_assoc, <- map_app, <- (seq_split 0 m (length xs)) by lia.
      now rewrite Nat.sub_0_r, map_nth_seq.
    - rewrite foldM_pure. destruct (tree_fold mul xs (Leaf one)) as (t & F & G). cbn [teval] in F.
      exists t, 1. split; [lia|]. rewrite F, G. split; reflexivity.
  Qed.

  (** in a commutative monoid every bracketing has the same value *)
  Lemma tree_monoid (add : T -> T -> T) (zero : T) (A : forall x y z, add (add x y) z = add x (add y z))
      (C : forall x y, add x y = add y x) (Z : forall x, add zero x = x) t :
    teval add t = fold_right add zero (leaves t).
  Proof.
    assert (AP : forall l r, fold_right add zero (l ++ r) = add (fold_right add zero l) (fold_right add zero r)).
    { induction l as [|x l IH]; intros r; cbn [app fold_right]; [now rewrite Z|]. now rewrite IH, A. }
    induction t as [x|l IHl r IHr]; cbn [teval leaves fold_right]; [now rewrite C, Z|]. now rewrite AP, IHl, IHr.
  Qed.
  Lemma fold_perm (add : T -> T -> T) (zero : T) (A : forall x y z, add (add x y) z = add x (add y z))
      (C : forall x y, add x y = add y x) l l' : Permutation l l' -> fold_right add zero l = fold_right add zero l'.
  Proof.
    induction 1 as [|x l l' _ IH|x y l|l l' l'' _ IH1 _ IH2]; cbn [fold_right]; [reflexivity|now rewrite IH| |congruence].
    now rewrite <- !A, (C x y).
  Qed.
  Lemma fold_left_right (add : T -> T -> T) (zero : T) (A : forall x y z, add (add x y) z = add x (add y z))
      (C : forall x y, add x y = add y x) (Z : forall x, add zero x = x) l :
    fold_left add l zero = fold_right add zero l.
  Proof.
    assert (G : forall l acc, fold_left add l acc = add acc (fold_right add zero l)).
    { induction l0 as [|x l0 IH]; intros acc; cbn [fold_left fold_right]; [now rewrite C, Z|]. now rewrite IH, A. }
    now rewrite G, Z.
  Qed.

  (** *** min and max: one argument, with the order read one way or the other *)
  Section MinMax.
    Variable P : T -> Prop.
    Variable le : T -> T -> Prop.
    Hypothesis le_refl : forall x, P x -> le x x.
    Hypothesis le_trans : forall x y z, P x -> P y -> P z -> le x y -> le y z -> le x z.
    Variable op step : T -> T -> T.
    Hypothesis opP : forall x y, P x -> P y -> (op x y = x \/ op x y = y) /\ le (op x y) x /\ le (op x y) y.
    Hypothesis stepP : forall x y, P x -> P y -> (step x y = x \/ step x y = y) /\ le (step x y) x /\ le (step x y) y.

    Definition least (v : T) (l : list T) : Prop := In v l /\ forall x, In x l -> le v x.

    Lemma least_app u v l r w : Forall P l -> Forall P r -> least u l -> least v r ->
      (w = u \/ w = v) -> le w u -> le w v -> least w (l ++ r).
    Proof.
      intros F1 F2 [I1 L1] [I2 L2] O W1 W2. rewrite Forall_forall in F1, F2.
      assert (PW : P w) by (destruct O as [-> | ->]; auto). split.
      - apply in_or_app. destruct O as [-> | ->]; auto.
      - intros x I. apply in_app_or in I as [I|I]; [apply (le_trans w u x)|apply (le_trans w v x)]; auto.
    Qed.

    Lemma tree_least t : Forall P (leaves t) -> least (teval op t) (leaves t).
    Proof.
      induction t as [x|l IHl r IHr]; intros F; cbn [teval leaves] in *.
      - inversion F; subst. split; [now left|]. intros y [<- | []]. auto.
      - apply Forall_app in F as [F1 F2]. specialize (IHl F1). specialize (IHr F2).
        assert (PL : P (teval op l)) by (eapply Forall_forall; [exact F1|apply IHl]).
        assert (PR : P (teval op r)) by (eapply Forall_forall; [exact F2|apply IHr]).
        destruct (opP _ _ PL PR) as (O & W1 & W2). eapply least_app; eauto.
    Qed.

    Lemma fold_least xs : forall v l, Forall P l -> Forall P xs -> least v l -> least (fold_left step xs v) (l ++ xs).
    Proof.
      induction xs as [|x xs IH]; intros v l F1 F2 H; cbn [fold_left].
      - now rewrite app_nil_r.
      - inversion F2 as [|? ? PX F3]; subst. replace (l ++ x :: xs) with ((l ++ [x]) ++ xs) by now rewrite <- app_assoc.
        assert (PV : P v) by (eapply Forall_forall; [exact F1|apply H]).
        destruct (stepP v x PV PX) as (O & W1 & W2). apply IH; auto.
        + apply Forall_app; auto.
        + eapply least_app; eauto. split; [now left|]. intros y [<- | []]. auto.
    Qed.

    Lemma least_perm v l l' : Permutation l l' -> least v l -> least v l'.
    Proof.
      intros Q [I F]. split; [eapply Permutation_in; eauto|]. intros x J. apply F. eapply Permutation_in; [|exact J]. now symmetry.
    Qed.
    Lemma least_repeat v init k xs : 1 <= k -> least v (repeat init k ++ xs) -> least v (init :: xs).
    Proof.
      intros K [I F]. split.
      - apply in_app_or in I as [I|I]; [apply repeat_spec in I; subst; now left|now right].
      - intros x [<- |J]; apply F, in_or_app; [left|now right]. destruct k; [lia|]. now left.
    Qed.

    Lemma covers_least n (g : nat -> T) init out : P init -> Forall P (map g (seq 0 n)) ->
      covers op n g step (repeat (Leaf init) L) 0 out -> exists v, out = Ok v /\ least v (init :: map g (seq 0 n)).
    Proof.
      intros PI F (t & m & I & Q & ->). eexists. split; [reflexivity|].
      rewrite Nat.sub_0_r, lv_repeat in Q. pose proof (HLpos L HL) as PL.
      assert (SP : map g (seq 0 n) = map g (seq 0 m) ++ map g (seq m (n - m))).
      { rewrite <- map_app. f_equal. pose proof (seq_split 0 m n) as SS. rewrite !Nat.sub_0_r in SS. apply SS; lia. }
      rewrite SP in F |- *. apply Forall_app in F as [F1 F2].
      assert (FL : Forall P (leaves t)).
      { eapply Permutation_Forall; [symmetry; exact Q|]. apply Forall_app. split; [|exact F1].
        apply Forall_forall. intros x J. apply repeat_spec in J. now subst. }
      apply (least_repeat _ init L); [lia|]. eapply least_perm; [|apply (fold_least _ _ (leaves t)); auto using tree_least].
      rewrite Q, <- app_assoc. reflexivity.
    Qed.

    Lemma minmax_least (g : T -> T -> res T) (h : heap T) a xs init :
      (forall v acc, g v acc = Ok (step acc v)) -> P init -> Forall P xs ->
      valid h a -> no_bcast (a_shape a) (a_stride a) \/ has_uniform_stride (a_shape a) (a_stride a) = None ->
      length (a_shape a) <= MAX_DIMS -> elems h a = Ok xs ->
      exists v, sk_reduce (red_contig L op (hor_pairs op) step init) (red_uniform L op (hor_pairs op) step init) g init
        h (a_ptr a) (a_shape a) (a_stride a) = Ok v /\ least v (init :: xs).
    Proof.
      intros G PI F V D MD E.
      destruct (sk_reduce_cases (red_contig L op (hor_pairs op) step init) (red_uniform L op (hor_pairs op) step init) g init h a xs V D MD E)
        as [(s & R & [(-> & ->) | ->]) | ->].
      - unfold red_contig. rewrite <- (teval_repeat op init L). 
        pose proof (fun out => covers_least (length xs) (fun i => nth i xs init) init out PI) as CL.
        rewrite map_nth_seq in CL. apply CL; [exact F|].
        pose proof (red_contig_covers L HL op h (a_ptr a) (length xs) (fun i => nth i xs init)
          (fun i I => eq_trans (f_equal (fun k => ld h (padd (a_ptr a) k)) (eq_sym (Nat.mul_1_r i))) (R i I))
          (hor_pairs op) (hor_pairs_tree L HL op) step (S (length xs)) 0 (repeat (Leaf init) L)) as H.
        rewrite padd_0, Nat.sub_0_r in H. apply H; [lia|lia|apply repeat_length].
      - unfold red_uniform. rewrite <- (teval_repeat op init L). 
        pose proof (fun out => covers_least (length xs) (fun i => nth i xs init) init out PI) as CL.
        rewrite map_nth_seq in CL. apply CL; [exact F|].
        pose proof (red_uniform_covers L HL op h (a_ptr a) s (length xs) (fun i => nth i xs init) R
          (hor_pairs op) (hor_pairs_tree L HL op) step (S (length xs)) 0 (repeat (Leaf init) L)) as H.
        rewrite Nat.mul_0_l, padd_0, Nat.sub_0_r in H. apply H; [lia|lia|apply repeat_length].
      - exists (fold_left step xs init). split.
        + clear -G. revert init. induction xs as [|x xs IH]; intros init; cbn [foldM fold_left]; [reflexivity|]. rewrite G. cbn [bind]. apply IH.
        + apply (fold_least xs init [init]); auto. split; [now left|]. intros y [<- | []]. auto.
    Qed.
  End MinMax.
End Whole.
