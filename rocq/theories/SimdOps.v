(** SimdOps.v: the operators compiled with vector kernels agree with the portable ones. *)
From Coq Require Import List Arith Lia Bool.
From Verif Require Import Base Spec Layout SpecFacts LayoutFacts Views ViewsFacts ViewsFacts2 ViewsFacts3 Kernels HeapFacts KernelFacts OpFacts Simd SimdFacts.
Import ListNotations.
Open Scope res_scope.

Lemma index_exists sh : 0 < prod sh -> exists idx, in_range idx sh.
Proof. intros P. destruct (unrank_in_range 0 sh P) as [R _]. eauto. Qed.

Lemma valid_blk {T} (h : heap T) a : valid h a -> 0 < prod (a_shape a) -> a_blk a < length h.
Proof.
  intros [_ V] P. destruct (index_exists _ P) as (idx & R). destruct (V idx R) as (v & E). eapply load_lt. exact E.
Qed.

Lemma kfree_other_block p offs dst : fst p <> fst dst -> kfree p offs dst.
Proof. intros N i j x _ _ E. apply N. unfold padd in E. congruence. Qed.

Section Ops.
  Context {T : Type}.
  Variable L : nat.
  Hypothesis HL : L = 1 \/ L = 2 \/ L = 4.
  Variable f : T -> T -> T.
  Variable dflt : T.
  Notation pf := (fun x y => Ok (f x y)).

  Lemma snd_binary_eq (h : heap T) a b sh :
    valid h a -> valid h b -> join_shape (a_shape a) (a_shape b) sh -> 0 < prod sh ->
    snd_binary L f dflt h a b = nd_binary pf dflt h a b.
  Proof.
    intros [LA VA] [LB VB] J P. unfold snd_binary, nd_binary.
    pose proof (proj2 (broadcast_shapes_ok_iff _ _ _) J) as ->. cbn [bind].
    destruct (broadcast_stride_ok _ _ _ LA (join_shape_broadcastable_l _ _ _ J)) as (ls & -> & LL & H1). cbn [bind].
    destruct (broadcast_stride_ok _ _ _ LB (join_shape_broadcastable_r _ _ _ J)) as (rs & -> & LR & H2). cbn [bind].
    unfold alloc. destruct (index_exists _ P) as (idx & R).
    destruct (H1 _ R) as [R1 _]. destruct (H2 _ R) as [R2 _].
    destruct (VA _ R1) as (x & E1). destruct (VB _ R2) as (y & E2). unfold get in E1, E2. apply load_lt in E1, E2.
    rewrite sk_binary_eq; auto; apply kfree_other_block; cbn [fst a_ptr]; lia.
  Qed.

  Lemma snd_binary_panic (h : heap T) a b :
    (exists k, ~ dim_compat (dim_r (a_shape a) k) (dim_r (a_shape b) k)) -> snd_binary L f dflt h a b = Panic.
  Proof. intros H. unfold snd_binary. now rewrite (proj2 (broadcast_shapes_panic_iff _ _) H). Qed.

  Lemma snd_scalar_op_eq (h : heap T) a c : valid h a -> 0 < prod (a_shape a) ->
    snd_scalar_op L f dflt h a c = nd_scalar_op pf dflt h a c.
  Proof.
    intros V P. unfold snd_scalar_op, nd_scalar_op, alloc. pose proof (valid_blk _ _ V P).
    rewrite sk_scalar_eq; auto; [apply V|]. apply kfree_other_block. cbn [fst a_ptr]. lia.
  Qed.

  Lemma snd_unary_eq (g : T -> T) (h : heap T) a : valid h a -> 0 < prod (a_shape a) ->
    snd_unary L g dflt h a = nd_unary (fun x => Ok (g x)) dflt h a.
  Proof.
    intros V P. unfold snd_unary, nd_unary, alloc. pose proof (valid_blk _ _ V P).
    rewrite sk_unary_eq; auto; [apply V|]. apply kfree_other_block. cbn [fst a_ptr]. lia.
  Qed.

  (** in-place forms: the destination is the first operand, walked as if contiguous *)
  Lemma nth_offsets sh st j x : nth_error (offsets sh st) j = Some x ->
    j < prod sh /\ x = dot (unrank j sh) st.
  Proof.
    intros E. assert (J : j < prod sh).
    { rewrite <- (offsets_length sh st). apply nth_error_Some. congruence. }
    split; [exact J|]. destruct (unrank_in_range j sh J) as [R K]. unfold offsets in E. rewrite nth_error_map in E.
    rewrite <- K in E at 1. rewrite (nth_indices_rank _ _ R) in E. cbn [option_map] in E. congruence.
  Qed.

  Lemma kfree_self a : wf a -> flags_ok a -> no_bcast (a_shape a) (a_stride a) -> f_contig (a_fl a) = true ->
    kfree (a_ptr a) (offsets (a_shape a) (a_stride a)) (a_ptr a).
  Proof.
    intros W F NB C i j x LT E Q. apply nth_offsets in E as (J & ->). destruct (unrank_in_range j (a_shape a) J) as [R K].
    rewrite (contig_dot a _ W F NB C R), K in Q. apply padd_inj in Q. lia.
  Qed.

  Lemma snd_assign_eq (h : heap T) a b :
    valid h a -> valid h b -> flags_ok a -> no_bcast (a_shape a) (a_stride a) ->
    f_contig (a_fl a) = true -> 0 < prod (a_shape a) ->
    broadcastable (a_shape b) (a_shape a) -> no_feedback a b ->
    snd_assign L f h a b = nd_assign pf h a b.
  Proof.
    intros VA VB F NB C P BR NF. unfold snd_assign, nd_assign. destruct (f_write (a_fl a)); [|reflexivity]. cbn [guard bind].
    assert (G : forall rs, length rs = length (a_shape a) ->
      (forall idx, in_range idx (a_shape a) -> in_range (bidx (a_shape b) idx) (a_shape b) /\ dot idx rs = dot (bidx (a_shape b) idx) (a_stride b)) ->
      sk_binary L f h (a_ptr a) (a_stride a) (a_ptr b) rs (a_ptr a) (a_shape a) =
      k_binary pf h (a_ptr a) (a_stride a) (a_ptr b) rs (a_ptr a) (a_shape a)).
    { intros rs LR HR. apply sk_binary_eq; auto; [apply VA|apply kfree_self; auto; apply VA|].
      intros i j x LT E Q. apply nth_offsets in E as (J & ->). destruct (unrank_in_range j (a_shape a) J) as [R K].
      destruct (HR _ R) as [_ D]. rewrite D in Q. unfold padd, a_ptr in Q. cbn [fst snd] in Q.
      destruct (unrank_in_range i (a_shape a) ltac:(lia)) as [R2 K2].
      assert (rank (unrank j (a_shape a)) (a_shape a) <= rank (unrank i (a_shape a)) (a_shape a)).
      { apply NF; auto; [congruence|]. rewrite (contig_dot a _ (proj1 VA) F NB C R2), K2. congruence. }
      lia. }
    destruct (list_eqb (a_shape b) (a_shape a)) eqn:E.
    - apply G; apply list_eqb_spec in E.
      + rewrite <- E. apply VB.
      + intros idx R. rewrite <- E in *. rewrite bidx_same by exact R. auto.
    - destruct (broadcast_stride_ok _ _ _ (proj1 VB) BR) as (rs & ER & LR & HR).
      unfold nd_broadcast_to. rewrite (broadcast_shape_ok _ _ BR). cbn [bind]. rewrite ER. cbn [bind].
      cbn [a_ptr a_blk a_off a_stride]. now apply G.
  Qed.

  Lemma snd_assign_scalar_eq (h : heap T) a c :
    valid h a -> flags_ok a -> no_bcast (a_shape a) (a_stride a) -> f_contig (a_fl a) = true -> 0 < prod (a_shape a) ->
    snd_assign_scalar L f h a c = nd_assign_scalar pf h a c.
  Proof.
    intros V F NB C P. unfold snd_assign_scalar, nd_assign_scalar. destruct (f_write (a_fl a)); [|reflexivity]. cbn [guard bind].
    apply sk_scalar_eq; auto; [apply V|]. apply kfree_self; auto; apply V.
  Qed.
End Ops.
