(** PropsAssign.v: what compound assignment does to any reachable array (C60), including the
    strided ones for which C14 fails. *)
From Coq Require Import List Arith Lia Bool ZArith.
From Verif Require Import Base Spec Layout SpecFacts LayoutFacts Views ViewsFacts ViewsFacts2 ViewsFacts3 Kernels Access HeapFacts KernelFacts OpFacts
  AccessFacts Chain ChainFacts PropsViews PropsOps PropsWord.
Import ListNotations.
Open Scope res_scope.

(** the cells that can be read are the same before and after *)
Definition same_cells {T} (h h' : heap T) : Prop :=
  length h = length h' /\ forall b o, (exists v, load h b o = Ok v) <-> exists v, load h' b o = Ok v.

(** the cells of the [count] consecutive places starting with the first element of [a] *)
Definition run_of (a : arr) (count : nat) (b o : nat) : Prop := b = a_blk a /\ a_off a <= o < a_off a + count.

Section Loop.
  Context {T : Type}.

  Lemma same_cells_refl (h : heap T) : same_cells h h.
  Proof. split; [reflexivity|]. tauto. Qed.
  Lemma same_cells_trans (h1 h2 h3 : heap T) : same_cells h1 h2 -> same_cells h2 h3 -> same_cells h1 h3.
  Proof. intros [L1 C1] [L2 C2]. split; [congruence|]. intros b o. now rewrite C1, C2. Qed.
  Lemma same_cells_store (h h' : heap T) b o v : store h b o v = Ok h' -> same_cells h h'.
  Proof.
    intros E. split; [symmetry; eapply store_length; eauto|]. intros b' o'. rewrite (load_store _ _ _ _ _ E).
    destruct (Nat.eqb_spec b' b) as [->|], (Nat.eqb_spec o' o) as [->|]; cbn [andb]; try tauto. pose proof (store_load_ok _ _ _ _ _ E). split; eauto.
  Qed.

  Lemma same_cells_live (h h' : heap T) b n : 0 < n -> same_cells h h' -> live h b n -> live h' b n.
  Proof.
    intros P [_ S] (l & E & L). assert (G : forall o, (exists v, load h' b o = Ok v) <-> o < n).
    { intros o. rewrite <- S. unfold load. rewrite E. rewrite <- L, <- nth_error_Some. destruct (nth_error l o); split; intros H; try congruence; [eauto|destruct H; discriminate]. }
    destruct (proj2 (G 0) P) as (v & V). unfold load in V. destruct (nth_error h' b) as [[l'|]|] eqn:E'; try discriminate. exists l'. split; [exact E'|].
    assert (G' : forall o, o < length l' <-> o < n).
    { intros o. rewrite <- G. unfold load. rewrite E'. rewrite <- nth_error_Some. destruct (nth_error l' o); split; intros H; try congruence; [eauto|destruct H; discriminate]. }
    pose proof (G' n). pose proof (G' (length l')). lia.
  Qed.

  (** a loop whose steps can read whatever they could read at the start, and whose targets exist *)
  Lemma loop_safe (ops : list (heap T -> res T)) : forall (h : heap T) b o,
    (forall op, In op ops -> forall h', same_cells h h' -> op h' <> Oob) ->
    (forall k, k < length ops -> exists v, load h b (o + k) = Ok v) ->
    loop h ops (b, o) <> Oob /\
    ((forall op, In op ops -> forall h', same_cells h h' -> op h' <> Panic) -> exists h', loop h ops (b, o) = Ok h') /\
    (forall h', loop h ops (b, o) = Ok h' -> same_cells h h' /\ same_elsewhere h h' (fun b' o' => b' = b /\ o <= o' < o + length ops)).
  Proof.
    induction ops as [|op ops IH]; intros h b o S V; cbn [loop length].
    - split; [discriminate|]. split; [eauto|]. intros h' E. injection E as <-. split; [apply same_cells_refl|apply same_elsewhere_refl].
    - pose proof (S op (or_introl eq_refl) h (same_cells_refl h)) as NO.
      destruct (op h) as [v| |] eqn:E; cbn [bind]; [|split; [discriminate|split; [intros NP; destruct (NP op (or_introl eq_refl) h (same_cells_refl h) E)|discriminate]]|now destruct NO].
      destruct (V 0 ltac:(cbn [length]; lia)) as (x & EX). rewrite Nat.add_0_r in EX.
      destruct (store_ok h b o v x EX) as (h1 & ES). unfold st. cbn [fst snd]. rewrite ES. cbn [bind padd fst snd].
      pose proof (same_cells_store _ _ _ _ _ ES) as SC.
      destruct (IH h1 b (o + 1)) as (H1 & H2 & H3).
      + intros op' I h' S'. apply (S op'); [now right|]. eapply same_cells_trans; eauto.
      + intros k K. apply SC. replace (o + 1 + k) with (o + Datatypes.S k) by lia. apply V. cbn [length]. lia.
      + split; [exact H1|]. split.
        * intros NP. apply H2. intros op' I h' S'. apply NP; [now right|]. eapply same_cells_trans; eauto.
        * intros h' EL. destruct (H3 h' EL) as [C [L2 E2]]. split; [eapply same_cells_trans; eauto|]. split; [rewrite <- L2; symmetry; eapply store_length; eauto|].
          intros b' o' N. rewrite E2 by (intros [-> Q]; apply N; split; [reflexivity|lia]).
          apply (load_store_other _ _ _ _ _ _ _ ES). intros Q. injection Q as -> ->. apply N. split; [reflexivity|lia].
  Qed.

  Lemma get_same_cells (h h' : heap T) a idx : valid h a -> same_cells h h' -> in_range idx (a_shape a) -> exists v, get h' a idx = Ok v.
  Proof. intros [_ V] [_ S] R. apply S. now apply V. Qed.
End Loop.

Section Assign.
  Context {T : Type} (f : T -> T -> res T).

  Lemma nd_assign_kernel (h : heap T) a b : valid h b -> f_write (a_fl a) = true -> broadcastable (a_shape b) (a_shape a) ->
    exists rs, length rs = length (a_shape a) /\
      (forall idx, in_range idx (a_shape a) -> in_range (bidx (a_shape b) idx) (a_shape b) /\ dot idx rs = dot (bidx (a_shape b) idx) (a_stride b)) /\
      nd_assign f h a b = k_binary f h (a_ptr a) (a_stride a) (a_ptr b) rs (a_ptr a) (a_shape a).
  Proof.
    intros VB WR BR. unfold nd_assign. rewrite WR. cbn [guard bind]. destruct (list_eqb (a_shape b) (a_shape a)) eqn:E.
    - apply list_eqb_spec in E. exists (a_stride b). rewrite <- E. split; [apply VB|]. split; [|reflexivity].
      intros idx R. rewrite bidx_same by exact R. auto.
    - destruct (broadcast_stride_ok _ _ _ (proj1 VB) BR) as (rs & ER & LR & HR). exists rs. split; [exact LR|]. split; [exact HR|].
      unfold nd_broadcast_to. rewrite (broadcast_shape_ok _ _ BR). cbn [bind]. rewrite ER. reflexivity.
  Qed.

  Definition step2 (a b : arr) (idx : list nat) (h : heap T) : res T := x <- get h a idx ;; y <- get h b (bidx (a_shape b) idx) ;; f x y.

  Lemma nd_assign_loop (h : heap T) a b : valid h a -> valid h b -> f_write (a_fl a) = true -> broadcastable (a_shape b) (a_shape a) ->
    length (a_shape a) <= MAX_DIMS -> nd_assign f h a b = loop h (map (step2 a b) (indices (a_shape a))) (a_ptr a).
  Proof.
    intros VA VB WR BR MD. destruct (nd_assign_kernel h a b VB WR BR) as (rs & LR & HR & ->).
    rewrite k_binary_loop by (try assumption; apply VA). unfold offsets. rewrite combine_map_same, map_map. apply loop_ext.
    assert (G : forall l, (forall idx, In idx l -> in_range idx (a_shape a)) ->
      Forall2 (fun o1 o2 : heap T -> res T => forall h, o1 h = o2 h)
        (map (fun x => cell2 f (Mem (a_ptr a)) (Mem (a_ptr b)) (dot x (a_stride a), dot x rs)) l) (map (step2 a b) l)).
    { induction l as [|idx l IH]; intros H; cbn [map]; constructor; [|apply IH; intros; apply H; now right].
      intros h'. unfold cell2, step2. cbn [fst snd src_add src_ld]. destruct (HR idx (H idx (or_introl eq_refl))) as [_ ->]. now rewrite !ld_get. }
    apply G. intros idx I. now apply in_indices.
  Qed.

  Lemma nd_assign_scalar_loop (h : heap T) a c : valid h a -> f_write (a_fl a) = true -> length (a_shape a) <= MAX_DIMS ->
    nd_assign_scalar f h a c = loop h (map (fun idx h => x <- get h a idx ;; f x c) (indices (a_shape a))) (a_ptr a).
  Proof.
    intros VA WR MD. unfold nd_assign_scalar. rewrite WR. cbn [guard bind]. rewrite k_scalar_loop by (try assumption; apply VA).
    unfold offsets. rewrite map_map. apply loop_ext.
    generalize (indices (a_shape a)). induction l as [|idx l IH]; cbn [map]; constructor; [|exact IH]. intros h'. now rewrite ld_get.
  Qed.
End Assign.

(** the consecutive places are inside the allocation: the array has that many different cells,
    none of them before its first *)
Lemma chain_run b n a : chain b n false a -> a_off a + prod (a_shape a) <= n.
Proof.
  intros C. pose proof (chain_inv _ _ _ _ C) as I. destruct (i_nb _ _ _ _ I eq_refl) as (P & _ & D & _). apply pos_prod in P.
  assert (O : a_off a < n). { destruct (unrank_in_range 0 (a_shape a) P) as [R _]. pose proof (i_in _ _ _ _ I _ R). lia. }
  assert (LE : prod (a_shape a) <= n - a_off a); [|lia].
  rewrite <- (indices_length (a_shape a)), <- (map_length (fun idx => dot idx (a_stride a))), <- (seq_length (n - a_off a) 0). apply NoDup_incl_length.
  - assert (IM : forall l, (forall i, In i l -> in_range i (a_shape a)) -> NoDup l -> NoDup (map (fun idx => dot idx (a_stride a)) l)).
    { induction l as [|i l IH]; intros H ND; [constructor|]. inversion ND; subst. cbn [map]. constructor.
      - intros J. apply in_map_iff in J as (j & E & J). assert (j = i); [|congruence]. apply D; [apply H; now right|apply H; now left|lia].
      - apply IH; [|assumption]. intros j J. apply H. now right. }
    apply IM; [|apply NoDup_indices]. intros i J. now apply in_indices.
  - intros o J. apply in_map_iff in J as (idx & <- & J). apply in_indices in J. apply (i_in _ _ _ _ I) in J. apply in_seq. lia.
Qed.

Lemma live_load {T} (h : heap T) b n o : live h b n -> o < n -> exists v, load h b o = Ok v.
Proof. intros (l & E & L) O. unfold load. rewrite E. destruct (nth_error l o) eqn:N; [eauto|]. apply nth_error_None in N. lia. Qed.

(** ** C60.  Compound assignment to any reachable array that is not a broadcast view, of any
    layout, with any overlap between the operands: no access outside the allocations; it returns
    when the operation on elements does; nothing changes outside the run of consecutive cells. *)
Theorem C60_assign_safe : forall T (f : T -> T -> res T) (h : heap T) blk n a b,
  live h blk n -> chain blk n false a -> valid h b -> broadcastable (a_shape b) (a_shape a) -> length (a_shape a) <= MAX_DIMS ->
  (forall x y, f x y <> Oob) ->
  nd_assign f h a b <> Oob /\
  ((forall x y, f x y <> Panic) -> exists h', nd_assign f h a b = Ok h') /\
  (forall h', nd_assign f h a b = Ok h' -> live h' blk n /\ valid h' a /\ valid h' b /\ same_elsewhere h h' (run_of a (prod (a_shape a)))).
Proof.
  intros T f h blk n a b LV C VB BR MD NO. pose proof (chain_inv _ _ _ _ C) as I. pose proof (C25_view_chains_live_partial _ h blk n false a LV C) as VA.
  rewrite nd_assign_loop; auto; [|now rewrite (i_wr _ _ _ _ I)]. unfold a_ptr.
  assert (G : forall op, In op (map (step2 f a b) (indices (a_shape a))) -> forall h', same_cells h h' -> exists x y, op h' = f x y).
  { intros op J h' S. apply in_map_iff in J as (idx & <- & J). apply in_indices in J. destruct (get_same_cells h h' a idx VA S J) as (x & X).
    assert (RB : in_range (bidx (a_shape b) idx) (a_shape b)) by (destruct (nd_assign_kernel f h a b VB) as (rs & _ & HR & _); [now rewrite (i_wr _ _ _ _ I)|exact BR|now apply HR]).
    destruct (get_same_cells h h' b _ VB S RB) as (y & Y). unfold step2. rewrite X, Y. cbn [bind]. eauto. }
  destruct (loop_safe (map (step2 f a b) (indices (a_shape a))) h (a_blk a) (a_off a)) as (H1 & H2 & H3).
  - intros op J h' S. destruct (G op J h' S) as (x & y & ->). apply NO.
  - intros k K. rewrite map_length, indices_length in K. rewrite (i_blk _ _ _ _ I). pose proof (chain_run _ _ _ C). eapply live_load; [exact LV|lia].
  - split; [exact H1|]. split.
    + intros NP. apply H2. intros op J h' S. destruct (G op J h' S) as (x & y & ->). apply NP.
    + intros h' E. destruct (H3 h' E) as [S SE]. rewrite map_length, indices_length in SE. split; [|split; [|split; [|exact SE]]].
      * eapply same_cells_live; eauto. pose proof (chain_run _ _ _ C). pose proof (chain_size _ _ _ C). lia.
      * split; [apply VA|]. intros idx R. eapply get_same_cells; eauto.
      * split; [apply VB|]. intros idx R. eapply get_same_cells; eauto.
Qed.
Print Assumptions C60_assign_safe.

Theorem C60_assign_scalar_safe : forall T (f : T -> T -> res T) (h : heap T) blk n a c,
  live h blk n -> chain blk n false a -> length (a_shape a) <= MAX_DIMS -> (forall x y, f x y <> Oob) ->
  nd_assign_scalar f h a c <> Oob /\
  ((forall x y, f x y <> Panic) -> exists h', nd_assign_scalar f h a c = Ok h') /\
  (forall h', nd_assign_scalar f h a c = Ok h' -> live h' blk n /\ valid h' a /\ same_elsewhere h h' (run_of a (prod (a_shape a)))).
Proof.
  intros T f h blk n a c LV C MD NO. pose proof (chain_inv _ _ _ _ C) as I. pose proof (C25_view_chains_live_partial _ h blk n false a LV C) as VA.
  rewrite nd_assign_scalar_loop; auto; [|now rewrite (i_wr _ _ _ _ I)]. unfold a_ptr. set (step := fun (idx : list nat) (h : heap T) => x <- get h a idx ;; f x c).
  assert (G : forall op, In op (map step (indices (a_shape a))) -> forall h', same_cells h h' -> exists x, op h' = f x c).
  { intros op J h' S. apply in_map_iff in J as (idx & <- & J). apply in_indices in J. destruct (get_same_cells h h' a idx VA S J) as (x & X).
    unfold step. rewrite X. cbn [bind]. eauto. }
  destruct (loop_safe (map step (indices (a_shape a))) h (a_blk a) (a_off a)) as (H1 & H2 & H3).
  - intros op J h' S. destruct (G op J h' S) as (x & ->). apply NO.
  - intros k K. rewrite map_length, indices_length in K. rewrite (i_blk _ _ _ _ I). pose proof (chain_run _ _ _ C). eapply live_load; [exact LV|lia].
  - split; [exact H1|]. split.
    + intros NP. apply H2. intros op J h' S. destruct (G op J h' S) as (x & ->). apply NP.
    + intros h' E. destruct (H3 h' E) as [S SE]. rewrite map_length, indices_length in SE. split; [|split; [|exact SE]].
      * eapply same_cells_live; eauto. pose proof (chain_run _ _ _ C). pose proof (chain_size _ _ _ C). lia.
      * split; [apply VA|]. intros idx R. eapply get_same_cells; eauto.
Qed.
Print Assumptions C60_assign_scalar_safe.

(** ** Which value goes where.  [in_order a]: no element lies before the place its row-major rank
    would give it; true of every slice of a new array.  [not_overwritten a b]: the operand's cell
    for an element is not among the places written before it is read. *)
Definition in_order (a : arr) : Prop := forall idx, in_range idx (a_shape a) -> rank idx (a_shape a) <= dot idx (a_stride a).
Definition not_overwritten (a b : arr) : Prop := forall idx, in_range idx (a_shape a) ->
  ~ run_of a (rank idx (a_shape a)) (a_blk b) (a_off b + dot (bidx (a_shape b) idx) (a_stride b)).

Lemma in_order_strides a : length (a_stride a) = length (a_shape a) ->
  (forall k, k < length (a_shape a) -> prod (skipn (S k) (a_shape a)) <= nth k (a_stride a) 0) -> in_order a.
Proof.
  intros L H idx R. revert L H. generalize (a_stride a). induction R as [|i d idx sh I R IH]; intros [|s st] L H; cbn [length] in *; try discriminate; cbn [rank dot]; [lia|].
  pose proof (H 0 ltac:(lia)) as H0. cbn [skipn nth] in H0.
  assert (rank idx sh <= dot idx st); [|nia]. apply IH; [lia|]. intros k K. exact (H (S k) ltac:(lia)).
Qed.

Lemma vs_nth {A B} (g : A -> res B) l vs k x : mapM g l = Ok vs -> nth_error l k = Some x -> exists v, nth_error vs k = Some v /\ g x = Ok v.
Proof. intros E N. eapply mapM_nth; eauto. Qed.

Theorem C60_assign_exact : forall T (f : T -> T -> res T) (h : heap T) blk n a b,
  live h blk n -> chain blk n false a -> valid h b -> broadcastable (a_shape b) (a_shape a) -> length (a_shape a) <= MAX_DIMS ->
  in_order a -> not_overwritten a b ->
  let val idx := x <- get h a idx ;; y <- get h b (bidx (a_shape b) idx) ;; f x y in
  (forall idx, in_range idx (a_shape a) -> exists v, val idx = Ok v) ->
  exists h', nd_assign f h a b = Ok h' /\ same_elsewhere h h' (run_of a (prod (a_shape a))) /\
    forall idx, in_range idx (a_shape a) -> load h' (a_blk a) (a_off a + rank idx (a_shape a)) = val idx.
Proof.
  intros T f h blk n a b LV C VB BR MD IO NW val HV. pose proof (chain_inv _ _ _ _ C) as I. pose proof (C25_view_chains_live_partial _ h blk n false a LV C) as VA.
  rewrite nd_assign_loop; auto; [|now rewrite (i_wr _ _ _ _ I)]. unfold a_ptr.
  pose proof (loop_inplace (map (step2 f a b) (indices (a_shape a))) h (a_blk a) (a_off a)) as LI.
  assert (EM : mapM (fun op => op h) (map (step2 f a b) (indices (a_shape a))) = mapM val (indices (a_shape a))) by (rewrite mapM_map; reflexivity).
  rewrite EM in LI. destruct (mapM_Ok val (indices (a_shape a))) as (vs & EV); [intros idx J; apply HV; now apply in_indices|]. rewrite EV in LI.
  destruct LI as (h' & EL & W & SE).
  - intros k op N h' [_ SE]. rewrite nth_error_map in N. destruct (nth_error (indices (a_shape a)) k) as [idx|] eqn:NI; [|discriminate]. cbn in N. injection N as <-.
    apply nth_indices_inv in NI as [R <-]. unfold step2, get. rewrite SE, SE; [reflexivity| |].
    + intros Q. now apply (NW idx R).
    + intros [_ Q]. specialize (IO idx R). lia.
  - intros k K. rewrite map_length, indices_length in K. rewrite (i_blk _ _ _ _ I). pose proof (chain_run _ _ _ C). eapply live_load; [exact LV|lia].
  - exists h'. split; [exact EL|]. rewrite map_length, indices_length in SE. split; [exact SE|]. intros idx R.
    destruct (vs_nth val _ vs _ idx EV (nth_indices_rank _ _ R)) as (v & N & ->). now apply W.
Qed.
Print Assumptions C60_assign_exact.

Theorem C60_assign_scalar_exact : forall T (f : T -> T -> res T) (h : heap T) blk n a c,
  live h blk n -> chain blk n false a -> length (a_shape a) <= MAX_DIMS -> in_order a ->
  let val idx := x <- get h a idx ;; f x c in
  (forall idx, in_range idx (a_shape a) -> exists v, val idx = Ok v) ->
  exists h', nd_assign_scalar f h a c = Ok h' /\ same_elsewhere h h' (run_of a (prod (a_shape a))) /\
    forall idx, in_range idx (a_shape a) -> load h' (a_blk a) (a_off a + rank idx (a_shape a)) = val idx.
Proof.
  intros T f h blk n a c LV C MD IO val HV. pose proof (chain_inv _ _ _ _ C) as I. pose proof (C25_view_chains_live_partial _ h blk n false a LV C) as VA.
  rewrite nd_assign_scalar_loop; auto; [|now rewrite (i_wr _ _ _ _ I)]. unfold a_ptr. set (step := fun (idx : list nat) (h : heap T) => x <- get h a idx ;; f x c).
  pose proof (loop_inplace (map step (indices (a_shape a))) h (a_blk a) (a_off a)) as LI.
  assert (EM : mapM (fun op => op h) (map step (indices (a_shape a))) = mapM val (indices (a_shape a))) by (rewrite mapM_map; reflexivity).
  rewrite EM in LI. destruct (mapM_Ok val (indices (a_shape a))) as (vs & EV); [intros idx J; apply HV; now apply in_indices|]. rewrite EV in LI.
  destruct LI as (h' & EL & W & SE).
  - intros k op N h' [_ SE]. rewrite nth_error_map in N. destruct (nth_error (indices (a_shape a)) k) as [idx|] eqn:NI; [|discriminate]. cbn in N. injection N as <-.
    apply nth_indices_inv in NI as [R <-]. unfold step, get. rewrite SE; [reflexivity|]. intros [_ Q]. specialize (IO idx R). lia.
  - intros k K. rewrite map_length, indices_length in K. rewrite (i_blk _ _ _ _ I). pose proof (chain_run _ _ _ C). eapply live_load; [exact LV|lia].
  - exists h'. split; [exact EL|]. rewrite map_length, indices_length in SE. split; [exact SE|]. intros idx R.
    destruct (vs_nth val _ vs _ idx EV (nth_indices_rank _ _ R)) as (v & N & ->). now apply W.
Qed.
Print Assumptions C60_assign_scalar_exact.

(** the last column of a 2 x 3 array, doubled: the results land in cells 2 and 3 instead of 2 and 5 *)
Example C60_ex : exists a h', chain 0 6 false a /\ live exh 0 6 /\ in_order a /\ elems exh a = Ok [12; 15] /\
  nd_assign (fun x y => Ok (x + y)) exh a a = Ok h' /\ h' = [Some [10; 11; 24; 30; 14; 15]] /\ not_overwritten a a.
Proof.
  destruct (nd_slice_along ex23 1 (IUsize 2)) as [r| |] eqn:E; try discriminate. exists r. eexists.
  split; [eapply (Ch_slice_along 0 6 false ex23 1 1 (IUsize 2)); [apply ex23_chain|reflexivity|cbn; lia|exact E]|].
  vm_compute in E. injection E as <-. split; [apply exh_live|].
  split; [apply in_order_strides; [reflexivity|]; intros [|k] K; cbn in *; lia|].
  split; [reflexivity|]. split; [vm_compute; reflexivity|]. split; [reflexivity|].
  intros idx R [_ Q]. cbn [a_shape a_off a_stride] in *. rewrite bidx_same in Q by exact R.
  inversion R as [|i d rest sh0 I RR]; subst. inversion RR; subst. cbn [rank dot prod fold_right] in Q. lia.
Qed.
