(** PropsEmpty.v: arrays without elements.  The constructors that take a shape refuse an
    extent of zero, but arange, the random constructors and broadcast_to do not, so such
    arrays are reachable.  This file says what every operation does with them. *)
From Coq Require Import List Arith Lia Bool ZArith Permutation.
From Verif Require Import Base Layout Views Kernels Access Reduce Einsum Spec SpecFacts LayoutFacts.
From Verif Require Import ViewsFacts ViewsFacts3 KernelFacts ReduceFacts EinsumFacts5 EinsumFacts7 Chain EinsumParse HeapFacts EinsumFacts8 ViewsFacts2 PropsOps PropsReduce.
Import ListNotations.
Open Scope res_scope.

(** an array without elements: some axis has length zero *)
Definition hollow (a : arr) : Prop :=
  In 0 (a_shape a) /\ length (a_stride a) = length (a_shape a) /\ length (a_shape a) <= MAX_DIMS /\ a_len a = 0.

(** a new array without elements, alone in a new allocation of no cells *)
Definition new_hollow {T} (h : heap T) (sh : list nat) (x : res (heap T * arr)) : Prop :=
  exists r, x = Ok (h ++ [Some []], r) /\ a_shape r = sh /\ a_blk r = length h /\ f_owned (a_fl r) = true /\ hollow r.

(** ** Auxiliary facts *)
Lemma in0_prod sh : In 0 sh <-> prod sh = 0.
Proof.
  induction sh as [|n sh IH]; [cbn; split; [tauto|discriminate]|]. rewrite prod_cons. cbn [In]. rewrite IH.
  destruct n; destruct (prod sh); split; intros; nia.
Qed.

Lemma hollow_prod a : hollow a -> prod (a_shape a) = 0.
Proof. intros (H & _). now apply in0_prod. Qed.

Lemma offsets_none sh st : prod sh = 0 -> offsets sh st = [].
Proof. intros P. apply length_zero_iff_nil. now rewrite offsets_length. Qed.

Lemma fig_none sh st : length st = length sh -> length sh <= MAX_DIMS -> prod sh = 0 -> fig_list sh st = Ok [].
Proof. intros L M P. rewrite fig_list_ok' by auto. now rewrite offsets_none. Qed.

Lemma fresh_hollow {T} (h : heap T) sh : In 0 sh -> length sh <= MAX_DIMS ->
  new_hollow h sh (Ok (h ++ [Some []], fresh_arr (length h) 0 sh)).
Proof.
  intros I M. exists (fresh_arr (length h) 0 sh). repeat split; auto. cbn. rewrite stride_from_shape_rm. now rewrite rm_stride_length.
Qed.

Lemma from_buffer_hollow {T} (h : heap T) sh : In 0 sh -> length sh <= MAX_DIMS ->
  new_hollow h sh (Ok (from_buffer h sh [])).
Proof. intros I M. unfold from_buffer, alloc. cbn [length]. now apply fresh_hollow. Qed.

Lemma broadcast_to_hollow_shape sh to : broadcastable sh to -> In 0 sh -> In 0 to.
Proof.
  intros [LE F] I. rewrite <- (firstn_skipn (length to - length sh) to). apply in_or_app. right.
  clear LE. revert F. generalize (skipn (length to - length sh) to) as t. induction sh as [|n sh IH]; intros t F; [destruct I|].
  inversion F as [|? m ? t' A F']; subst. destruct I as [->|I]; [left; lia|right; auto].
Qed.

(** ** Reaching them, and views of them *)
(** C69: the constructors that are given data or a sampler make an array without elements
    from an empty list; those that are given a shape and a value refuse. *)
Theorem C69_constructors : forall T (h : heap T) (x : T) sh, In 0 sh -> length sh <= MAX_DIMS ->
  new_hollow h sh (Ok (from_buffer h sh [])) /\ nd_full h x sh = Panic.
Proof.
  intros T h x sh I M. split; [now apply from_buffer_hollow|]. unfold nd_full. apply in0_prod in I. rewrite I. reflexivity.
Qed.

Theorem C69_broadcast_to : forall a sh, length (a_stride a) = length (a_shape a) -> In 0 sh -> length sh <= MAX_DIMS ->
  (broadcastable (a_shape a) sh -> exists r, nd_broadcast_to a sh = Ok r /\ a_shape r = sh /\ a_blk r = a_blk a /\ hollow r /\
     f_write (a_fl r) = false /\ f_owned (a_fl r) = false) /\
  (~ broadcastable (a_shape a) sh -> nd_broadcast_to a sh = Panic).
Proof.
  intros a sh L I M. split; [|apply nd_broadcast_to_panic]. intros B. unfold nd_broadcast_to. rewrite broadcast_shape_ok by exact B. cbn [bind].
  destruct (broadcast_stride_ok (a_shape a) (a_stride a) sh L B) as (st & E & LS & _). rewrite E. cbn [bind].
  eexists. split; [reflexivity|]. cbn. repeat split; auto. now apply in0_prod.
Qed.

Lemma reshaped_hollow m a sh st : hollow a -> In 0 sh -> length st = length sh -> length sh <= MAX_DIMS -> hollow (reshaped_view m a sh st).
Proof.
  intros (_ & _ & _ & Z) I L M. destruct m; repeat split; cbn; auto. now apply in0_prod.
Qed.

(** C69: borrowing, reshaping, transposing, squeezing and unsqueezing one of them gives another
    one (or panics) *)
Theorem C69_views : forall m a, hollow a ->
  hollow (nd_view m a) /\ hollow (nd_squeeze m a) /\
  (forall sh r, nd_reshape m a sh = Ok r -> length sh <= MAX_DIMS -> hollow r /\ a_shape r = sh) /\
  (forall i j r, nd_transpose m a i j = Ok r -> hollow r) /\
  (forall i r, nd_unsqueeze m a i = Ok r -> length (a_shape a) < MAX_DIMS -> hollow r).
Proof.
  intros m a H. pose proof H as (I & L & M & Z). repeat match goal with |- _ /\ _ => split end.
  - now apply reshaped_hollow.
  - apply reshaped_hollow; auto.
    + rewrite squeeze_shape_spec by exact L. apply filter_In. split; auto.
    + now rewrite !map_length.
    + rewrite squeeze_shape_spec by exact L. pose proof (filter_length_le (fun n => negb (n =? 1)) (a_shape a)). lia.
  - intros sh r E MS. unfold nd_reshape in E. unfold list_eqb in E. destruct (list_eq_dec Nat.eq_dec sh (a_shape a)) as [->|N].
    { injection E as <-. split; [now apply reshaped_hollow|destruct m; reflexivity]. }
    apply guard_inv in E as [_ E]. apply guard_inv in E as [P E]. apply Nat.eqb_eq in P. apply bind_Ok_inv in E as (d & _ & E). apply bind_Ok_inv in E as (acc & _ & E).
    injection E as <-. split; [|destruct m; reflexivity]. apply reshaped_hollow; auto.
    + apply in0_prod. rewrite <- P. now apply in0_prod.
    + clear. induction sh as [|n sh IH]; [reflexivity|]. cbn [reshape_strides]. destruct (reshape_strides acc sh) as [st p]. cbn [fst length] in *. now rewrite IH.
  - intros i j r E. unfold nd_transpose in E. apply bind_Ok_inv in E as (x & EX & E). apply bind_Ok_inv in E as (y & EY & E).
    apply bind_Ok_inv in E as (sh & E1 & E). apply bind_Ok_inv in E as (st & E2 & E). injection E as <-.
    apply as_absolute_inv in EX as (HX & _). apply as_absolute_inv in EY as (HY & _).
    rewrite vswap_ok in E1 by tauto. rewrite vswap_ok in E2 by (rewrite L; tauto). injection E1 as <-. injection E2 as <-.
    apply reshaped_hollow; auto; rewrite ?swap_at_length; auto.
    apply (In_nth _ _ 0) in I as (k & K & N). rewrite <- (swap_pos_invol x y k) in N.
    rewrite <- (swap_at_nth x y) in N by (try apply swap_pos_lt; tauto). rewrite <- N. apply nth_In. rewrite swap_at_length. apply swap_pos_lt; tauto.
  - intros i r E MS. unfold nd_unsqueeze in E. apply bind_Ok_inv in E as (ax & EA & E). apply as_absolute_inv in EA as (A & _).
    destruct (Nat.eqb_spec ax (length (a_shape a))) as [->|N].
    + injection E as <-. apply reshaped_hollow; auto; rewrite ?app_length; cbn [length]; try lia. apply in_or_app. now left.
    + rewrite vinsert_ok in E by lia. cbn [bind] in E. apply bind_Ok_inv in E as (s & _ & E). apply bind_Ok_inv in E as (n & _ & E).
      rewrite vinsert_ok in E by lia. cbn [bind] in E. injection E as <-. apply reshaped_hollow; auto.
      * rewrite <- (firstn_skipn ax (a_shape a)) in I. apply in_app_or in I. apply in_or_app. cbn [In]. tauto.
      * rewrite !app_length. cbn [length]. rewrite !firstn_length, !skipn_length. lia.
      * rewrite !app_length. cbn [length]. rewrite !firstn_length, !skipn_length. lia.
Qed.

(** C69: the diagonal of one of them is another one *)
Theorem C69_diagonal : forall a o i j r, hollow a -> nd_offset_diagonal_along a o i j = Ok r -> hollow r.
Proof.
  intros a o i j r (I & L & M & Z) E. unfold nd_offset_diagonal_along in E. apply guard_inv in E as [LE E]. apply Nat.leb_le in LE.
  apply bind_Ok_inv in E as (x & EX & E). apply bind_Ok_inv in E as (y & EY & E). apply as_absolute_inv in EX as (X & _). apply as_absolute_inv in EY as (Y & _).
  apply guard_inv in E as [N E]. apply negb_true_iff, Nat.eqb_neq in N.
  rewrite !(@vget_nth _ _ _ 0) in E by lia. cbn [bind] in E.
  assert (DL : forall l k, length (drop_two k x y l) = length (filter (fun t => negb ((t =? x) || (t =? y))) (seq k (length l)))).
  { induction l as [|v l IH]; intros k; [reflexivity|]. cbn [drop_two length seq filter]. destruct ((k =? x) || (k =? y)); cbn [negb length]; now rewrite IH. }
  assert (DI : forall l k t, t < length l -> t + k <> x -> t + k <> y -> In (nth t l 0) (drop_two k x y l)).
  { induction l as [|v l IH]; intros k [|t] T NX NY; cbn [length] in T; try lia; cbn [drop_two nth].
    - destruct (Nat.eqb_spec k x); [lia|]. destruct (Nat.eqb_spec k y); [lia|]. now left.
    - specialize (IH (S k) t ltac:(lia) ltac:(lia) ltac:(lia)). destruct ((k =? x) || (k =? y)); [exact IH|now right]. }
  assert (FL : S (length (filter (fun t => negb ((t =? x) || (t =? y))) (seq 0 (length (a_shape a))))) <= length (a_shape a)).
  { rewrite <- (seq_length (length (a_shape a)) 0) at 2. assert (IX : In x (seq 0 (length (a_shape a)))) by (apply in_seq; lia).
    revert IX. generalize (seq 0 (length (a_shape a))) as l. clear. induction l as [|v l IH]; intros IX; [destruct IX|]; destruct IX as [->|IX]; cbn [filter length].
    - rewrite Nat.eqb_refl. cbn [orb negb]. pose proof (filter_length_le (fun t => negb ((t =? x) || (t =? y))) l). lia.
    - specialize (IH IX). destruct (negb _); cbn [length]; lia. }
  apply bind_Ok_inv in E as ([[po d1] d2] & E1 & E). injection E as <-.
  assert (Q : In 0 (drop_two 0 x y (a_shape a) ++ [Nat.min d1 d2])).
  { apply in_or_app. apply (In_nth _ _ 0) in I as (k & K & NK).
    destruct (Nat.eq_dec k x) as [->|NX]; [right|destruct (Nat.eq_dec k y) as [->|NY]; [right|left; rewrite <- NK; apply DI; lia]];
    rewrite NK in E1; left; destruct (0 <=? o)%Z;
      repeat match type of E1 with context [if ?b then _ else _] => destruct b eqn:?; [discriminate|] end; injection E1 as _ <- <-; try lia;
      match goal with H : (0 <=? _) = false |- _ => apply Nat.leb_gt in H; lia end. }
  repeat split; cbn; auto.
  - rewrite !app_length, !DL, L. reflexivity.
  - rewrite app_length, DL. cbn [length]. lia.
  - now apply in0_prod.
Qed.

(** C69: a slice of any array either panics or has elements; so a slice of one without
    elements, when it does not panic, selects cells the array does not have. *)
Lemma strided_len_pos sh : forall st l, length st = length sh -> strided_len sh st = Ok l -> ~ In 0 sh.
Proof.
  intros st l L E. unfold strided_len in E. apply bind_Ok_inv in E as (d & E & _). revert st d L E.
  induction sh as [|n sh IH]; intros [|s st] d L E; cbn [length] in L; try discriminate; [intros []|].
  cbn [strided_len_sum] in E. apply bind_Ok_inv in E as (x & E1 & E). apply bind_Ok_inv in E as (y & E2 & _).
  unfold csub in E1. destruct (Nat.ltb_spec n 1); [discriminate|]. intros [->|I]; [lia|]. exact (IH st y ltac:(lia) E2 I).
Qed.

Lemma slice_go_length ixs : forall sh st o sh1 st1, length st = length sh -> slice_go ixs sh st = Ok (o, sh1, st1) -> length st1 = length sh1.
Proof.
  induction ixs as [|ix ixs IH]; intros sh st o sh1 st1 L E; cbn [slice_go] in E; [now injection E as <- <- <-|].
  destruct sh as [|n sh], st as [|s st]; cbn [length] in L; try discriminate.
  apply bind_Ok_inv in E as (l & _ & E). apply bind_Ok_inv in E as ([[o1 sh2] st2] & E1 & E). apply IH in E1; [|lia].
  destruct (index_collapses ix); injection E as <- <- <-; cbn [length]; congruence.
Qed.

Theorem C69_slices : forall T (h : heap T) a, hollow a -> live h (a_blk a) 0 -> forall r,
  (exists ixs, nd_slice a ixs = Ok r) \/ (exists i ix, nd_slice_along a i ix = Ok r) ->
  0 < prod (a_shape r) /\ nd_flatiter h r = (if MAX_DIMS <? length (fst (collapse (a_shape r) (a_stride r))) then Panic else Oob).
Proof.
  intros T h a (I & L & M & Z) LV r H.
  assert (G : length (a_stride r) = length (a_shape r) /\ a_blk r = a_blk a /\ ~ In 0 (a_shape r)).
  { destruct H as [(ixs & E)|(i & ix & E)].
    - unfold nd_slice in E. apply bind_Ok_inv in E as ([[o sh] st] & E1 & E). apply bind_Ok_inv in E as (l & E2 & E). injection E as <-. cbn.
      pose proof (slice_go_length _ _ _ _ _ _ L E1) as LL. repeat split; auto. eapply strided_len_pos; eauto.
    - unfold nd_slice_along in E. apply bind_Ok_inv in E as (ax & EA & E). apply as_absolute_inv in EA as (A & _).
      apply bind_Ok_inv in E as (n & _ & E). apply bind_Ok_inv in E as (s & _ & E). apply bind_Ok_inv in E as ([sh st] & E1 & E).
      apply bind_Ok_inv in E as (l & E2 & E). injection E as <-. cbn.
      assert (LL : length st = length sh); [|repeat split; auto; eapply strided_len_pos; eauto].
      destruct (index_collapses ix).
      + apply bind_Ok_inv in E1 as (sh' & V1 & E1). apply bind_Ok_inv in E1 as (st' & V2 & E1). injection E1 as <- <-.
        rewrite vremove_ok in V1 by lia. rewrite vremove_ok in V2 by lia. assert (W1 : sh' = firstn ax (a_shape a) ++ skipn (S ax) (a_shape a)) by congruence. assert (W2 : st' = firstn ax (a_stride a) ++ skipn (S ax) (a_stride a)) by congruence.
        rewrite W1, W2, !app_length, !firstn_length, !skipn_length. lia.
      + apply bind_Ok_inv in E1 as (l' & _ & E1). apply bind_Ok_inv in E1 as (sh' & V1 & E1). injection E1 as <- <-.
        unfold vset in V1. destruct (upd (a_shape a) ax l') eqn:U; [|discriminate]. injection V1 as <-. now rewrite (upd_length _ _ _ _ U). }
  destruct G as (LR & BR & NZ).
  assert (P : 0 < prod (a_shape r)). { destruct (prod (a_shape r)) eqn:E; [|lia]. exfalso. apply NZ. now apply in0_prod. }
  split; [exact P|]. unfold nd_flatiter. destruct (Nat.ltb_spec MAX_DIMS (length (fst (collapse (a_shape r) (a_stride r))))) as [X|X].
  - now rewrite fig_list_panic.
  - rewrite fig_list_ok by auto. cbn [bind]. rewrite <- (offsets_length _ (a_stride r)) in P.
    destruct (offsets (a_shape r) (a_stride r)) as [|o os]; [cbn in P; lia|]. cbn [mapM]. unfold ld. cbn [padd a_ptr fst snd].
    rewrite BR. destruct LV as (l & E & LL). apply length_zero_iff_nil in LL. subst l. unfold load. rewrite E. now destruct (a_off r + o).
Qed.

(** ** Elementwise operations: the operator is never called and nothing is read or written *)
Theorem C69_binary : forall T (f : T -> T -> res T) dflt (h : heap T) a b sh,
  length (a_stride a) = length (a_shape a) -> length (a_stride b) = length (a_shape b) ->
  join_shape (a_shape a) (a_shape b) sh -> In 0 sh -> length sh <= MAX_DIMS ->
  new_hollow h sh (nd_binary f dflt h a b).
Proof.
  intros T f dflt h a b sh La Lb J I M. unfold nd_binary. rewrite (proj2 (broadcast_shapes_ok_iff _ _ _) J). cbn [bind].
  destruct (broadcast_stride_ok _ _ _ La (join_shape_broadcastable_l _ _ _ J)) as (ls & -> & L1 & _). cbn [bind].
  destruct (broadcast_stride_ok _ _ _ Lb (join_shape_broadcastable_r _ _ _ J)) as (rs & -> & L2 & _). cbn [bind].
  rewrite (proj1 (in0_prod sh) I). cbn [repeat alloc]. rewrite k_binary_loop by auto.
  rewrite offsets_none by now apply in0_prod. cbn [combine map loop bind]. now apply fresh_hollow.
Qed.

Theorem C69_elementwise : forall T (f : T -> T -> res T) (g : T -> res T) (c dflt : T) (h : heap T) a, hollow a ->
  new_hollow h (a_shape a) (nd_scalar_op f dflt h a c) /\
  new_hollow h (a_shape a) (nd_unary g dflt h a).
Proof.
  intros T f g c dflt h a H. pose proof H as (I & L & M & Z). unfold nd_scalar_op, nd_unary. rewrite (hollow_prod a H). cbn [repeat alloc].
  rewrite k_scalar_loop, k_unary_loop by auto. rewrite offsets_none by now apply hollow_prod. cbn [map loop bind].
  split; now apply fresh_hollow.
Qed.

(** C69: compound assignment leaves memory alone when the target is writeable and the other
    operand broadcasts to it, and panics otherwise *)
Theorem C69_assign : forall T (f : T -> T -> res T) (h : heap T) a b, hollow a -> length (a_stride b) = length (a_shape b) ->
  (f_write (a_fl a) = true -> broadcastable (a_shape b) (a_shape a) -> nd_assign f h a b = Ok h) /\
  (f_write (a_fl a) = false \/ ~ broadcastable (a_shape b) (a_shape a) -> nd_assign f h a b = Panic) /\
  (forall c, nd_assign_scalar f h a c = if f_write (a_fl a) then Ok h else Panic).
Proof.
  intros T f h a b H Lb. pose proof H as (I & L & M & Z). pose proof (hollow_prod a H) as P.
  assert (K : forall p q st, length st = length (a_shape a) -> k_binary f h p (a_stride a) q st p (a_shape a) = Ok h).
  { intros p q st LS. rewrite k_binary_loop by auto. now rewrite offsets_none. }
  unfold nd_assign, nd_assign_scalar. repeat split.
  - intros -> B. cbn [guard bind]. unfold list_eqb. destruct (list_eq_dec Nat.eq_dec (a_shape b) (a_shape a)) as [E|N].
    + apply K. congruence.
    + unfold nd_broadcast_to. rewrite broadcast_shape_ok by exact B. cbn [bind]. destruct (broadcast_stride_ok _ _ _ Lb B) as (st & -> & LS & _). cbn [bind].
      apply K. exact LS.
  - intros [->|N]; [reflexivity|]. destruct (f_write (a_fl a)); [|reflexivity]. cbn [guard bind]. unfold list_eqb.
    destruct (list_eq_dec Nat.eq_dec (a_shape b) (a_shape a)) as [E|_]; [|now rewrite nd_broadcast_to_panic].
    exfalso. apply N. rewrite E. split; [lia|]. rewrite Nat.sub_diag. cbn [skipn]. clear. induction (a_shape a); constructor; auto.
  - intros c. destruct (f_write (a_fl a)); [|reflexivity]. cbn [guard bind]. rewrite k_scalar_loop by auto. now rewrite offsets_none.
Qed.

(** ** Access, copies, comparison, fill *)
Lemma mapM_none {A B} (f : A -> res B) : mapM f [] = Ok [].
Proof. reflexivity. Qed.

Lemma clone_strided_hollow {T} (h : heap T) a : hollow a -> clone_strided h a = Ok [].
Proof.
  intros H. pose proof H as (I & L & M & Z). pose proof (hollow_prod a H) as P. unfold clone_strided.
  destruct (collapse (a_shape a) (a_stride a)) as [sh str] eqn:C. pose proof (collapse_prod _ _ _ _ (eq_sym L) C) as PC. rewrite P in PC.
  pose proof (collapse_offsets _ _ _ _ (eq_sym L) C) as (_ & LC & ML).
  destruct str as [|s str]; [destruct sh; [discriminate|cbn in LC; lia]|].
  destruct (@exists_last _ (s :: str)) as (str' & z & ES); [discriminate|]. rewrite ES in *. clear ES.
  destruct (@exists_last _ sh) as (sh' & n & EN). { intros ->. rewrite app_length in LC. cbn in LC. lia. }
  subst sh. rewrite !removelast_last, !last_last. rewrite !app_length in LC. cbn [length] in LC. rewrite app_length in ML. cbn [length] in ML.
  assert (G : (if z =? 1 then is <- fig_list sh' str' ;; copy_runs h (a_ptr a) is n
               else is <- fig_list (sh' ++ [n]) (str' ++ [z]) ;; copy_runs h (a_ptr a) is 1) = Ok []).
  { destruct (z =? 1).
    - rewrite fig_list_ok' by lia. cbn [bind]. rewrite prod_app in PC. cbn [prod fold_right] in PC.
      destruct n as [|n].
      + generalize (offsets sh' str') as is. induction is as [|i is IH]; [reflexivity|]. cbn [copy_runs read_run seq mapM bind]. now rewrite IH.
      + rewrite offsets_none by nia. reflexivity.
    - rewrite fig_none; [reflexivity|rewrite !app_length; cbn; lia|rewrite app_length; cbn; lia|exact PC]. }
  destruct str' as [|? ?]; cbn [app] in *; rewrite G; cbn [bind length]; now rewrite P.
Qed.

Lemma clone_data_hollow {T} (h : heap T) a : hollow a -> clone_data h a = Ok [].
Proof.
  intros H. unfold clone_data. destruct (f_contig (a_fl a)); [|now apply clone_strided_hollow]. destruct H as (_ & _ & _ & ->). reflexivity.
Qed.

Theorem C69_copies : forall T (h : heap T) a, hollow a ->
  nd_flatiter h a = Ok [] /\ new_hollow h (a_shape a) (nd_clone h a) /\ new_hollow h [0] (nd_flatten h a) /\
  (forall F (conv : T -> res F) (hF : heap F), new_hollow hF (a_shape a) (nd_astype conv h hF a)) /\
  nd_data_slice h a = (if f_contig (a_fl a) then Ok [] else Panic) /\ nd_value h a = Panic.
Proof.
  intros T h a H. pose proof H as (I & L & M & Z). pose proof (hollow_prod a H) as P.
  assert (FI : nd_flatiter h a = Ok []) by (unfold nd_flatiter; now rewrite fig_none).
  split; [exact FI|]. unfold nd_clone, nd_flatten. rewrite clone_data_hollow by exact H. cbn [bind]. rewrite P.
  split; [now apply from_buffer_hollow|]. split; [apply from_buffer_hollow; cbn; auto; unfold MAX_DIMS; lia|]. split.
  - intros F conv hF. unfold nd_astype. rewrite FI. cbn [bind mapM]. now apply from_buffer_hollow.
  - unfold nd_data_slice, nd_value. rewrite P, Z. now destruct (f_contig (a_fl a)).
Qed.

Theorem C69_index : forall T (h : heap T) a idx v, hollow a -> nd_index h a idx = Panic /\ nd_index_set h a idx v = Panic.
Proof.
  intros T h a idx v (_ & _ & _ & Z). unfold nd_index, nd_index_set. rewrite Z. cbn [Nat.ltb Nat.leb].
  destruct (length idx =? length (a_shape a)), (length idx <=? length (a_shape a)); split; reflexivity.
Qed.

Theorem C69_equals : forall T (eqb : T -> T -> bool) (h : heap T) a b, hollow a -> hollow b ->
  (nd_eq eqb h a b = Ok true <-> a_shape a = a_shape b) /\ (nd_eq eqb h a b = Ok false <-> a_shape a <> a_shape b).
Proof.
  intros T eqb h a b Ha Hb. pose proof Ha as (I & L & M & Z). pose proof Hb as (I' & L' & M' & Z'). unfold nd_eq, list_eqb.
  destruct (list_eq_dec Nat.eq_dec (a_shape a) (a_shape b)) as [E|N]; [|split; split; auto; congruence].
  rewrite !fig_none by (auto; now apply hollow_prod). cbn [bind zip_all]. split; split; auto; congruence.
Qed.

Lemma uniform_hollow sh : forall n s st u, length st = length sh -> has_uniform_go s sh st = Some u -> n * prod sh = 0 -> n * s = 0.
Proof.
  induction sh as [|n' sh IH]; intros n s [|s' st] u L E P; cbn [length] in L; try discriminate; cbn in P; [rewrite Nat.mul_1_r in P; nia|].
  cbn [has_uniform_go] in E. destruct (negb (s =? 0) && negb (s =? n' * s')) eqn:B; [discriminate|].
  destruct (Nat.eq_dec n 0) as [->|N]; [reflexivity|].
  assert (Q : n' * s' = 0) by (apply (IH n' s' st u); auto; fold (prod sh) in P; nia).
  apply andb_false_iff in B as [B|B]; apply negb_false_iff, Nat.eqb_eq in B; subst s; nia.
Qed.

Lemma k_fill_hollow {T} (v : T) sh : forall (h : heap T) p st len, length st = length sh -> prod sh = 0 -> len = 0 \/
    (match sh, st with n :: _, s :: _ => len = n * s | _, _ => False end) -> k_fill h p sh st len v = Ok h.
Proof.
  induction sh as [|n sh IH]; intros h p st len L P LE; [discriminate|]. destruct st as [|s st]; [discriminate|]. cbn [length] in L.
  cbn [k_fill]. destruct (has_uniform_stride (n :: sh) (s :: st)) as [u|] eqn:E.
  - rewrite P. assert (len = 0) as ->.
    { destruct LE as [LE|LE]; [exact LE|]. rewrite LE. cbn [has_uniform_stride] in E. apply (uniform_hollow sh n s st u); [lia|exact E|now rewrite prod_cons in P]. }
    destruct (u =? 1); reflexivity.
  - rewrite prod_cons in P. destruct n as [|n]; [reflexivity|]. assert (PS : prod sh = 0) by nia.
    destruct sh as [|n1 sh]; [discriminate|]. destruct st as [|s1 st]; [discriminate|].
    assert (B : forall h p, (n1' <- vget (n1 :: sh) 0 ;; s1' <- vget (s1 :: st) 0 ;; k_fill h p (n1 :: sh) (s1 :: st) (n1' * s1') v) = Ok h).
    { intros h0 p0. cbn [vget nth_error bind]. apply IH; auto. }
    generalize (S n) as c. intros c. revert h p. induction c as [|c IHc]; intros h p; [reflexivity|]. cbn [loop_ptr]. rewrite B. cbn [bind]. apply IHc.
Qed.

(** C69: fill and zero leave memory alone (they ignore the write flag) *)
Theorem C69_fill : forall T (h : heap T) a v, hollow a -> nd_fill h a v = Ok h.
Proof.
  intros T h a v H. pose proof H as (I & L & M & Z). unfold nd_fill. rewrite Z. apply k_fill_hollow; auto. now apply hollow_prod.
Qed.

(** ** Reductions *)
(** C69: a reduction never calls its operator and returns its start value: 0 for a sum, 1 for
    a product, but the largest value of the type for min and the smallest for max *)
Theorem C69_reduce : forall T (g : T -> T -> res T) dflt (h : heap T) a, hollow a ->
  nd_reduce g dflt h a = Ok (h ++ [Some [dflt]], fresh_arr (length h) 1 []).
Proof.
  intros T g dflt h a H. pose proof H as (I & L & M & Z). unfold nd_reduce, k_reduce. rewrite (hollow_prod a H).
  destruct (has_uniform_stride (a_shape a) (a_stride a)) as [u|].
  - destruct (u =? 1); reflexivity.
  - rewrite fig_none by (auto; now apply hollow_prod). reflexivity.
Qed.

Theorem C69_reduce_along : forall T (g : T -> T -> res T) dflt (h : heap T) a axes, hollow a ->
  axes_in (length (a_shape a)) axes -> NoDup (axes_of (length (a_shape a)) axes) ->
  let sh := drop_axes (axes_of (length (a_shape a)) axes) (a_shape a) in
  nd_reduce_along g dflt h a axes = Ok (h ++ [Some (repeat dflt (prod sh))], fresh_arr (length h) (prod sh) sh).
Proof.
  intros T g dflt h a axes H AI ND sh. pose proof H as (I & L & M & Z). unfold nd_reduce_along.
  destruct (reduced_ok axes _ (a_shape a) (axes_abs _ _ AI) ND) as (nst & -> & LN & _). cbn [bind]. fold sh.
  destruct (collapse (a_shape a) nst) as [msh mst] eqn:C. pose proof (collapse_offsets _ _ _ _ (eq_sym LN) C) as (_ & LL & LE).
  pose proof (collapse_prod _ _ _ _ (eq_sym LN) C) as PC. rewrite (hollow_prod a H) in PC.
  rewrite (fig_none msh mst) by (auto; lia). cbn [bind]. rewrite fig_none by (auto; now apply hollow_prod). cbn [bind along_go].
  unfold from_buffer, alloc. now rewrite repeat_length.
Qed.

(** C69: the mean is the quotient of the zero of the type by the count 0 (NaN for floats) *)
Theorem C69_mean : forall T (add div : T -> T -> res T) of_nat zero (h : heap T) a c, hollow a -> of_nat 0 = Ok c ->
  nd_mean add div of_nat zero h a =
    (q <- div zero c ;; Ok (h ++ [Some [zero]] ++ [Some [q]], fresh_arr (S (length h)) 1 [])).
Proof.
  intros T add div of_nat zero h a c H E. unfold nd_mean. rewrite (hollow_prod a H), E. cbn [bind]. rewrite C69_reduce by exact H. cbn [bind].
  unfold nd_scalar_op. cbn [fresh_arr a_shape prod fold_right repeat alloc stride_from_shape stride_from_shape_go fst a_stride k_scalar a_ptr a_blk a_off].
  unfold ld, st. unfold a_ptr, fresh_arr at 1 2; cbn [fst snd a_blk a_off]. rewrite load_app_old by (rewrite app_length; cbn; lia). rewrite load_app_new. change (a_off (fresh_arr (length h) 1 [])) with 0. cbn [nth_error bind].
  destruct (div zero c) as [q| |]; [|reflexivity|reflexivity]. cbn [bind]. unfold store.
  rewrite app_length. cbn [length]. rewrite Nat.add_1_r.
  assert (N : nth_error ((h ++ [Some [zero]]) ++ [Some [zero]]) (S (length h)) = Some (Some [zero])).
  { rewrite nth_error_app2 by (rewrite app_length; cbn; lia). rewrite app_length. cbn [length]. now rewrite Nat.add_1_r, Nat.sub_diag. }
  rewrite N. cbn [upd].
  assert (U : upd ((h ++ [Some [zero]]) ++ [Some [zero]]) (S (length h)) (Some [q]) = Some ((h ++ [Some [zero]]) ++ [Some [q]])).
  { replace (S (length h)) with (length (h ++ [Some [zero]])) by (rewrite app_length; cbn; lia).
    generalize (h ++ [Some [zero]]) as l. induction l as [|x l IH]; [reflexivity|]. cbn [app length upd]. now rewrite IH. }
  rewrite U. cbn [bind]. now rewrite <- app_assoc.
Qed.

(** ** Products *)
Lemma store_new {T} (h : heap T) l k v l' : upd l k v = Some l' -> store (h ++ [Some l]) (length h) k v = Ok (h ++ [Some l']).
Proof.
  intros U. unfold store. rewrite nth_error_app2 by lia. rewrite Nat.sub_diag. cbn [nth_error]. rewrite U.
  assert (Q : upd (h ++ [Some l]) (length h) (Some l') = Some (h ++ [Some l'])).
  { clear. induction h as [|x h IH]; [reflexivity|]. cbn [app length upd]. now rewrite IH. }
  now rewrite Q.
Qed.

(** C69: the dot product of two empty vectors is zero, and so is every entry of the product of
    an n by 0 matrix with an empty vector *)
Theorem C69_dot : forall T (zero w : T) add mul (h : heap T) a b, a_shape a = [0] -> a_shape b = [0] ->
  length (a_stride a) = 1 -> length (a_stride b) = 1 -> add zero zero = Ok w ->
  nd_dot zero add mul h a b = Ok (h ++ [Some [w]], fresh_arr (length h) 1 []).
Proof.
  intros T zero w add mul h a b Sa Sb La Lb E. unfold nd_dot. rewrite Sa, Sb.
  destruct (a_stride a) as [|s [|? ?]]; try discriminate. destruct (a_stride b) as [|t [|? ?]]; try discriminate.
  cbn [Nat.eqb guard bind nd_scalar nd_full prod fold_right repeat length negb from_buffer alloc].
  unfold strided_dot. cbn [dot_go bind]. unfold add_to, ld, st. unfold a_ptr. cbn [fresh_arr a_blk a_off fst snd].
  rewrite load_app_new. cbn [nth_error bind]. rewrite E. cbn [bind]. rewrite (store_new h [zero] 0 w [w]) by reflexivity. reflexivity.
Qed.

Theorem C69_matvec : forall T (zero one w : T) add mul fma (h : heap T) a b n, a_shape a = [n; 0] -> a_shape b = [0] ->
  length (a_stride a) = 2 -> length (a_stride b) = 1 -> add zero zero = Ok w ->
  nd_matmul zero one add mul fma h a b = Ok (h ++ [Some (repeat w n)], fresh_arr (length h) n [n]).
Proof.
  intros T zero one w add mul fma h a b n Sa Sb La Lb E. unfold nd_matmul. rewrite Sa, Sb. cbn [Nat.eqb guard bind].
  destruct (a_stride a) as [|rs [|s [|? ?]]]; try discriminate. destruct (a_stride b) as [|t [|? ?]]; try discriminate. cbn [alloc].
  assert (G : forall n k p, matvec_go zero add mul (h ++ [Some (repeat w k ++ repeat zero n)]) p rs s (a_ptr b) t (length h, k) 0 n
     = Ok (h ++ [Some (repeat w k ++ repeat w n)])).
  { clear n Sa. induction n as [|n IH]; intros k p; [reflexivity|]. cbn [matvec_go]. unfold strided_dot. cbn [dot_go bind].
    unfold add_to, ld, st. cbn [fst snd]. rewrite load_app_new. rewrite nth_error_app2 by (rewrite repeat_length; lia).
    rewrite repeat_length, Nat.sub_diag. cbn [repeat nth_error bind]. rewrite E. cbn [bind].
    rewrite (store_new h _ k w (repeat w (S k) ++ repeat zero n)).
    - cbn [bind]. replace (padd (length h, k) 1) with (length h, S k) by (unfold padd; cbn; f_equal; lia). rewrite IH.
      f_equal. f_equal. f_equal. f_equal. clear. induction k as [|k IH]; [reflexivity|]. cbn [repeat app] in *. f_equal. exact IH.
    - clear. induction k as [|k IH]; [reflexivity|]. cbn [repeat app upd] in *. rewrite IH. reflexivity. }
  specialize (G n 0 (a_ptr a)). cbn [repeat app] in G. rewrite G. reflexivity.
Qed.

Theorem C69_matvec_no_rows : forall T (zero one : T) add mul fma (h : heap T) a b k, a_shape a = [0; k] -> a_shape b = [k] ->
  length (a_stride a) = 2 -> length (a_stride b) = 1 -> new_hollow h [0] (nd_matmul zero one add mul fma h a b).
Proof.
  intros T zero one add mul fma h a b k Sa Sb La Lb. unfold nd_matmul. rewrite Sa, Sb, Nat.eqb_refl. cbn [guard bind].
  destruct (a_stride a) as [|rs [|s [|? ?]]]; try discriminate. destruct (a_stride b) as [|t [|? ?]]; try discriminate.
  cbn [alloc repeat matvec_go bind]. apply fresh_hollow; [now left|cbn; unfold MAX_DIMS; lia].
Qed.

(** ** einsum *)
(** the operands fit their subscripts: letters, and the extent of axis k is the extent of its label *)
Definition fitting (dm : Z -> nat) (sub : list Z) (a : arr) : Prop :=
  Forall letter sub /\ a_shape a = map dm sub /\ length (a_stride a) = length sub /\ length sub <= MAX_DIMS.

(** a well-formed request: the output letters are distinct and occur in the operands; [ls] are all the labels *)
Definition request (dm : Z -> nat) (subs : list (list Z)) (ops : list arr) (out ls : list Z) : Prop :=
  Forall2 (fitting dm) subs ops /\ Forall letter out /\ NoDup out /\ incl out ls /\ NoDup ls /\
  (forall l, In l ls <-> exists s, In s subs /\ In l s) /\ length ops < MAX_ARGS /\ length ls <= MAX_DIMS.

Lemma is_alpha_letter c : letter c -> is_alpha c = true.
Proof.
  intros H. unfold is_alpha. apply orb_true_iff. unfold letter in H.
  destruct H as [H|H]; [left|right]; apply andb_true_iff; split; apply Z.leb_le; lia.
Qed.

Lemma NoDup_app_disj {A} (l m : list A) : NoDup l -> NoDup m -> (forall x, In x l -> ~ In x m) -> NoDup (l ++ m).
Proof.
  induction 1 as [|x l N ND IH]; intros M D; [exact M|]. cbn [app]. constructor.
  - rewrite in_app_iff. intros [I|I]; [auto|]. apply (D x); [now left|exact I].
  - apply IH; auto. intros y I. apply D. now right.
Qed.

Lemma fitting_fits dm sub a : fitting dm sub a -> fits dm sub a.
Proof.
  intros (A & B & C & D). repeat split; auto. unfold letters. eapply Forall_impl; [|exact A]. intros c H. now apply is_alpha_letter.
Qed.

Lemma request_loops dm subs ops out ls : request dm subs ops out ls ->
  exists L Q, Permutation ls L /\ prepare_einsum ops subs out = Ok (map Q L, map dm L, map dm out).
Proof.
  intros (F & AO & ND & IO & NL & CV & LA & LM).
  assert (F' : Forall2 (fits dm) subs ops). { clear - F. induction F; constructor; auto using fitting_fits. }
  assert (AS : Forall letters subs). { clear - F'. induction F' as [|s a subs ops (A & _) F IH]; constructor; auto. }
  assert (AO' : letters out). { unfold letters. eapply Forall_impl; [|exact AO]. intros c H. now apply is_alpha_letter. }
  assert (P : Permutation ls (out ++ summed subs out)).
  { apply NoDup_Permutation; auto.
    - apply NoDup_app_disj; auto using NoDup_summed. intros l I J. apply summed_spec in J as [_ J]; auto.
    - intros l. rewrite CV, in_app_iff, summed_spec by auto. split.
      + intros H. destruct (in_dec Z.eq_dec l out); auto.
      + intros [I|[H _]]; auto. apply CV. auto. }
  destruct (prepare_ok dm subs ops out F' AO' ND) as (L & PL & E).
  - intros l I. apply CV. auto.
  - exact LA.
  - rewrite <- app_length, <- (Permutation_length P). exact LM.
  - exists L. eexists. split; [now apply Permutation_trans with (out ++ summed subs out)|exact E].
Qed.

Lemma sop_slice_zero {T} (zero one : T) add mul h ps ss dst ds : sop_slice zero one add mul h ps ss dst ds 0 = Oob.
Proof. unfold sop_slice, sop_out0, sop_generic. destruct (ds =? 0); reflexivity. Qed.

Lemma unspec_zero {T} (zero one : T) add mul (h : heap T) bases inner strides n0 sh dst :
  length strides = length sh -> length sh <= MAX_DIMS -> S (length bases) <= MAX_ARGS -> n0 * prod sh = 0 ->
  unspecialized zero one add mul h bases (inner :: strides) (n0 :: sh) dst = if prod sh =? 0 then Ok h else Oob.
Proof.
  intros L M A P. unfold unspecialized, mfig_from. rewrite L, Nat.eqb_refl. rewrite (proj2 (Nat.leb_le _ _) A), (proj2 (Nat.leb_le _ _) M). cbn [guard bind].
  destruct (prod sh) as [|p] eqn:E; [reflexivity|]. cbn [Nat.eqb unspec_go]. assert (n0 = 0) as -> by nia.
  unfold call_sop. rewrite sop_slice_zero. reflexivity.
Qed.

Lemma run_zero {T} (zero one : T) add mul fma (h : heap T) bases strides sh dst :
  length strides = length sh -> length sh <= MAX_DIMS -> S (length bases) <= MAX_ARGS -> In 0 sh ->
  run_einsum zero one add mul fma h bases strides sh dst =
    if ((length bases =? 1) || (length bases =? 2)) && ((length sh =? 2) || (length sh =? 3)) then Oob
    else if prod (tl sh) =? 0 then Ok h else Oob.
Proof.
  intros L M A I. apply in0_prod in I. unfold run_einsum.
  assert (U : unspecialized zero one add mul h bases strides sh dst = if prod (tl sh) =? 0 then Ok h else Oob).
  { destruct strides as [|inner strides], sh as [|n0 sh]; try discriminate. cbn [length tl] in *. apply unspec_zero; auto; lia. }
  destruct ((length bases =? 1) || (length bases =? 2)); cbn [andb]; [|exact U].
  destruct sh as [|n0 [|n1 [|n2 [|n3 sh]]]]; cbn [length Nat.eqb orb]; destruct strides as [|d0 [|d1 [|d2 [|d3 strides]]]]; try discriminate; try exact U.
  - unfold einsum_2labels. cbn [prod fold_right] in I. destruct n0; [reflexivity|]. destruct n1; [reflexivity|nia].
  - unfold einsum_3labels. cbn [prod fold_right] in I. destruct n0; [reflexivity|]. destruct n1; [reflexivity|]. destruct n2; [reflexivity|nia].
Qed.

(** C69: with one or two operands and up to three labels, an extent of zero reaches
    assert_unchecked(n > 0): undefined behaviour, whatever the layout. *)
Theorem C69_einsum_ub : forall T (zero one : T) add mul fma (h : heap T) dm subs ops out ls,
  request dm subs ops out ls -> (exists l, In l ls /\ dm l = 0) ->
  length ls = 1 \/ (length ops = 1 \/ length ops = 2) /\ length ls <= 3 ->
  nd_einsum zero one add mul fma h ops subs out = Oob.
Proof.
  intros T zero one add mul fma h dm subs ops out ls R (l & I & Z) LE. destruct (request_loops _ _ _ _ _ R) as (L & Q & P & E).
  unfold nd_einsum. rewrite E. cbn [bind alloc]. destruct R as (F & _ & _ & _ & _ & _ & LA & LM).
  pose proof (Permutation_length P) as PL.
  assert (I0 : In 0 (map dm L)). { rewrite <- Z. apply in_map. now apply (Permutation_in _ P). }
  rewrite run_zero; rewrite ?map_length; auto; [|lia].
  destruct LE as [LE|[LO LE]].
  - assert (EL : exists x, L = [x]). { destruct L as [|x [|? ?]]; cbn [length] in PL; try lia. eauto. }
    destruct EL as (x & ->). cbn [map tl length Nat.eqb orb andb]. rewrite andb_false_r. reflexivity.
  - assert (B : (length ops =? 1) || (length ops =? 2) = true). { destruct LO as [-> | ->]; reflexivity. }
    rewrite B. cbn [andb]. destruct L as [|x [|y [|z [|? ?]]]]; cbn [length Nat.eqb orb map tl] in *; try lia; try destruct I0; reflexivity.
Qed.

(** C69: otherwise the loops either do nothing, leaving all zeros, or reach the same assertion;
    with two labels of extent zero they do nothing. *)
Theorem C69_einsum_general : forall T (zero one : T) add mul fma (h : heap T) dm subs ops out ls,
  request dm subs ops out ls -> (exists l, In l ls /\ dm l = 0) ->
  (3 <= length ops /\ 2 <= length ls) \/ 4 <= length ls ->
  let zeros := Ok (h ++ [Some (repeat zero (prod (map dm out)))], fresh_arr (length h) (prod (map dm out)) (map dm out)) in
  (nd_einsum zero one add mul fma h ops subs out = zeros \/ nd_einsum zero one add mul fma h ops subs out = Oob) /\
  ((exists l m, l <> m /\ In l ls /\ In m ls /\ dm l = 0 /\ dm m = 0) -> nd_einsum zero one add mul fma h ops subs out = zeros).
Proof.
  intros T zero one add mul fma h dm subs ops out ls R (l & I & Z) LE zeros. destruct (request_loops _ _ _ _ _ R) as (L & Q & P & E).
  unfold nd_einsum. rewrite E. cbn [bind alloc]. destruct R as (F & _ & _ & _ & NL & _ & LA & LM).
  pose proof (Permutation_length P) as PL.
  assert (I0 : In 0 (map dm L)). { rewrite <- Z. apply in_map. now apply (Permutation_in _ P). }
  rewrite run_zero; rewrite ?map_length; auto; [|lia].
  assert (B : ((length ops =? 1) || (length ops =? 2)) && ((length L =? 2) || (length L =? 3)) = false).
  { rewrite <- PL. destruct LE as [[LE _]|LE]; [apply andb_false_intro1|apply andb_false_intro2]; apply orb_false_iff; split; apply Nat.eqb_neq; lia. }
  rewrite B. split.
  - destruct (prod (tl (map dm L)) =? 0); [left|right]; reflexivity.
  - intros (x & y & N & IX & IY & DX & DY). assert (I1 : In 0 (tl (map dm L))).
    { apply (Permutation_in _ P) in IX, IY. destruct L as [|z L]; [destruct IX|]. cbn [map tl].
      destruct IX as [->|IX]; [|rewrite <- DX; now apply in_map]. destruct IY as [->|IY]; [congruence|]. rewrite <- DY. now apply in_map. }
    apply in0_prod in I1. rewrite I1. reflexivity.
Qed.

(** C69: the product of an n by 0 matrix with a 0 by m matrix: undefined behaviour; a product with
    no rows or no columns panics, and so does every batched product with an extent of zero *)
Theorem C69_matmul : forall T (zero one : T) add mul fma (h : heap T) a b n k m,
  a_shape a = [n; k] -> a_shape b = [k; m] -> length (a_stride a) = 2 -> length (a_stride b) = 2 ->
  (0 < n -> 0 < m -> k = 0 -> nd_matmul zero one add mul fma h a b = Oob) /\
  (n = 0 \/ m = 0 -> nd_matmul zero one add mul fma h a b = Panic).
Proof.
  intros T zero one add mul fma h a b n k m Sa Sb La Lb. unfold nd_matmul. rewrite Sa, Sb, Nat.eqb_refl. cbn [guard bind].
  assert (PP : prod [n; m] = n * m) by (cbn; lia). unfold nd_full. rewrite repeat_length, PP. split.
  - intros N M ->. rewrite (proj2 (Nat.eqb_neq _ _)) by nia. cbn [negb guard bind from_buffer alloc]. rewrite repeat_length.
    unfold matrix_matrix, einsum_into_ptr.
    set (dm := fun c : Z => if (c =? 105)%Z then n else if (c =? 107)%Z then m else 0).
    assert (R : request dm matmul_subs [a; b] matmul_out [105; 106; 107]%Z).
    { unfold request, matmul_subs, matmul_out. repeat split.
      - repeat constructor; auto; unfold letter, MAX_DIMS; cbn; lia.
      - repeat constructor; unfold letter; lia.
      - repeat constructor; cbn; intuition discriminate.
      - intros x [<-|[<-|[]]]; cbn; auto.
      - repeat constructor; cbn; intuition discriminate.
      - intros [<-|[<-|[<-|[]]]]; [exists [105; 106]%Z|exists [105; 106]%Z|exists [106; 107]%Z]; cbn; auto.
      - intros (s & [<-|[<-|[]]] & [<-|[<-|[]]]); cbn; auto.
      - cbn. unfold MAX_ARGS. lia.
      - cbn. unfold MAX_DIMS. lia. }
    destruct (request_loops _ _ _ _ _ R) as (L & Q & P & E). rewrite E. cbn [bind].
    assert (EM : map dm matmul_out = [n; m]) by reflexivity. rewrite EM.
    set (r := fresh_arr (length h) (n * m) [n; m]). assert (ER : a_stride r = [m; 1]). { unfold r. cbn. now rewrite Nat.add_0_r. }
    rewrite ER. cbn [has_uniform_stride has_uniform_go]. rewrite Nat.mul_1_r, Nat.eqb_refl. cbn [negb]. rewrite andb_false_r. cbn [Nat.eqb guard bind].
    assert (FU : forall c (h0 : heap T) p l, nth_error h0 (fst p) = Some (Some l) -> snd p + c <= length l ->
              exists h1, fill_uniform h0 p c 1 zero = Ok h1).
    { induction c as [|c IH]; intros h0 p l NH LC; [cbn; eauto|]. cbn [fill_uniform]. unfold st, store. rewrite NH.
      destruct (@upd_some _ l (snd p) zero ltac:(lia)) as (l' & U). rewrite U.
      destruct (@upd_some _ h0 (fst p) (Some l')) as (h1 & U1). { apply nth_error_Some. congruence. }
      rewrite U1. cbn [bind]. apply (IH h1 (padd p 1) l').
      - unfold padd. cbn [fst]. rewrite (upd_nth_error _ _ _ _ _ U1). now rewrite Nat.eqb_refl.
      - unfold padd. cbn [snd]. rewrite (upd_length _ _ _ _ U). lia. }
    assert (KF : exists h1, k_fill (h ++ [Some (repeat zero (n * m))]) (a_ptr r) [n; m] [m; 1] (prod [n; m]) zero = Ok h1).
    { cbn [k_fill has_uniform_stride has_uniform_go]. rewrite Nat.mul_1_r, Nat.eqb_refl. cbn [negb]. rewrite andb_false_r. cbn [Nat.eqb].
      apply (FU _ _ _ (repeat zero (n * m))).
      - cbn. rewrite nth_error_app2 by lia. now rewrite Nat.sub_diag.
      - rewrite repeat_length, PP. cbn. lia. }
    destruct KF as (h1 & KF). rewrite KF. cbn [bind]. rewrite run_zero.
    + rewrite !map_length. rewrite <- (Permutation_length P). reflexivity.
    + now rewrite !map_length.
    + rewrite map_length, <- (Permutation_length P). cbn. unfold MAX_DIMS. lia.
    + cbn. unfold MAX_ARGS. lia.
    + apply in_map_iff. exists 106%Z. split; [reflexivity|]. apply (Permutation_in _ P). cbn. auto.
  - intros H. assert (n * m = 0) as -> by nia. reflexivity.
Qed.

Theorem C69_bmm : forall T (zero one : T) add mul fma (h : heap T) a b,
  length (a_stride a) = length (a_shape a) -> length (a_stride b) = length (a_shape b) ->
  In 0 (a_shape a) \/ In 0 (a_shape b) -> nd_bmm zero one add mul fma h a b = Panic.
Proof.
  intros T zero one add mul fma h a b La Lb I. unfold nd_bmm.
  destruct (a_shape a) as [|q [|n [|k [|? ?]]]] eqn:Sa; auto. destruct (a_shape b) as [|q' [|k' [|m [|? ?]]]] eqn:Sb; auto.
  destruct (Nat.eqb_spec q q') as [<-|]; [|reflexivity]. cbn [guard bind]. unfold nd_full. rewrite repeat_length.
  destruct (Nat.eqb_spec (prod [q; n; m]) 0) as [|NZ]; [reflexivity|]. cbn [negb guard bind from_buffer alloc].
  assert (SL : forall (c : arr) x y z, a_shape c = [x; y; z] -> length (a_stride c) = 3 ->
     (y = 0 \/ z = 0 -> nd_slice_along c 0 (IUsize 0) = Panic) /\ (nd_slice_along c 0 (IUsize 0) = Panic \/ exists r, nd_slice_along c 0 (IUsize 0) = Ok r)).
  { clear. intros c x y z S L. destruct (a_stride c) as [|s0 [|s1 [|s2 [|? ?]]]] eqn:Ec; try discriminate. unfold nd_slice_along. rewrite S, Ec.
    cbn [length]. change (as_absolute 0 3) with (@Ok nat 0). cbn [bind vget nth_error index_collapses vremove]. unfold strided_len. cbn [strided_len_sum]. unfold csub.
    destruct (Nat.ltb_spec y 1), (Nat.ltb_spec z 1); cbn [bind]; split; intros; try (now left); try reflexivity; try lia. right. eauto. }
  cbn [length] in La, Lb. destruct (SL a q n k Sa La) as [A1 A2], (SL b q k' m Sb Lb) as [B1 B2].
  cbn [prod fold_right] in NZ. cbn [In] in I.
  destruct (Nat.eq_dec k 0) as [->|K]; [now rewrite A1 by auto|]. destruct (Nat.eq_dec k' 0) as [->|K']; [|exfalso; nia].
  destruct A2 as [->|(r & ->)]; [reflexivity|]. cbn [bind]. now rewrite B1 by auto.
Qed.

(** ** Concrete cases *)
(** arange(3, 3) and a random 2 by 0 array; a 0 by 3 array obtained from a unit row *)
Definition h3 : heap Z := [Some [1; 2; 3]%Z].
Definition v0 : arr := fresh_arr 1 0 [0].
Definition m20 : arr := fresh_arr 1 0 [2; 0].
Definition m03 : arr := fresh_arr 2 0 [0; 3].
Definition hz : heap Z := [Some [1; 2; 3]%Z; Some []; Some []].
Example C69_ex_reached :
  nd_full h3 0%Z [0] = Panic /\ hollow v0 /\ hollow m20 /\ hollow m03 /\
  (exists r, nd_broadcast_to (fresh_arr 0 3 [1; 3]) [0; 3] = Ok r /\ hollow r).
Proof.
  split; [reflexivity|]. split; [|split; [|split]]; try (unfold hollow, MAX_DIMS; cbn; repeat split; try lia; auto).
  eexists. split; [reflexivity|]. unfold hollow, MAX_DIMS; cbn; repeat split; try lia; auto.
Qed.
Example C69_ex_slice : exists r, nd_slice v0 [IRange 0 2] = Ok r /\ nd_flatiter hz r = Oob.
Proof. eexists. split; vm_compute; reflexivity. Qed.
Example C69_ex_ops :
  (exists r, nd_binary (fun _ _ => Panic) 0%Z hz m20 (fresh_arr 0 3 [1]) = Ok (hz ++ [Some []], r) /\ a_shape r = [2; 0]) /\
  nd_reduce (fun x y => Ok (Z.min x y)) 127%Z hz m20 = Ok (hz ++ [Some [127%Z]], fresh_arr 3 1 []) /\
  nd_matmul 0%Z 1%Z (fun x y => Ok (x + y)%Z) (fun x y => Ok (x * y)%Z) (fun x y z => Ok (x * y + z)%Z) hz m20 m03 = Oob /\
  nd_matmul 0%Z 1%Z (fun x y => Ok (x + y)%Z) (fun x y => Ok (x * y)%Z) (fun x y z => Ok (x * y + z)%Z) hz m20 v0
    = Ok (hz ++ [Some [0; 0]%Z], fresh_arr 3 2 [2]).
Proof. split; [eexists; split; vm_compute; reflexivity|]. repeat split; vm_compute; reflexivity. Qed.
Example C69_ex_request : request (fun c => if (c =? 105)%Z then 2 else 0) [[105; 106]%Z] [m20] [105]%Z [105; 106]%Z.
Proof.
  unfold request. repeat split; try (repeat constructor; unfold letter; cbn; auto; try lia; intuition discriminate).
  - intros x [<-|[]]. now left.
  - intros H. exists [105; 106]%Z. split; [now left|exact H].
  - intros (s & [<-|[]] & H). exact H.
Qed.

Print Assumptions C69_constructors.
Print Assumptions C69_broadcast_to.
Print Assumptions C69_views.
Print Assumptions C69_diagonal.
Print Assumptions C69_slices.
Print Assumptions C69_binary.
Print Assumptions C69_elementwise.
Print Assumptions C69_assign.
Print Assumptions C69_copies.
Print Assumptions C69_index.
Print Assumptions C69_equals.
Print Assumptions C69_fill.
Print Assumptions C69_reduce.
Print Assumptions C69_reduce_along.
Print Assumptions C69_mean.
Print Assumptions C69_dot.
Print Assumptions C69_matvec.
Print Assumptions C69_matvec_no_rows.
Print Assumptions C69_einsum_ub.
Print Assumptions C69_einsum_general.
Print Assumptions C69_matmul.
Print Assumptions C69_bmm.
