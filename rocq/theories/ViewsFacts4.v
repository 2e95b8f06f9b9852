(** ViewsFacts4.v: views that keep the row-major sequence; aliasing; flag method. *)
From Coq Require Import List Arith Lia Bool ZArith.
From Verif Require Import Base Spec Layout SpecFacts LayoutFacts Views ViewsFacts ViewsFacts2 ViewsFacts3
  Kernels Access HeapFacts KernelFacts OpFacts AccessFacts Chain ChainFacts.
Import ListNotations.
Open Scope res_scope.

Lemma views_elems {T} (h : heap T) r a f : views r a f -> prod (a_shape r) = prod (a_shape a) ->
  (forall idx, in_range idx (a_shape r) -> rank (f idx) (a_shape a) = rank idx (a_shape r)) ->
  elems h r = elems h a.
Proof.
  intros V P K. unfold elems. transitivity (mapM (get h a) (map f (indices (a_shape r)))).
  - rewrite mapM_map. apply mapM_ext. intros idx I. apply in_indices in I. now apply views_get.
  - f_equal. apply nth_error_ext_len. intros k. rewrite nth_error_map.
    destruct (nth_error (indices (a_shape r)) k) as [idx|] eqn:E; cbn [option_map].
    + apply nth_indices_inv in E as [R <-]. rewrite <- (K _ R). symmetry. apply nth_indices_rank. apply V. exact R.
    + symmetry. apply nth_error_None in E. apply nth_error_None. rewrite indices_length in *. lia.
Qed.

Lemma rank_expand sh : forall idx, in_range idx (filter (fun n => negb (n =? 1)) sh) ->
  rank (expand_unit sh idx) sh = rank idx (filter (fun n => negb (n =? 1)) sh).
Proof.
  induction sh as [|n sh IH]; intros idx R; cbn [filter] in *.
  - inversion R. reflexivity.
  - cbn [expand_unit]. destruct (Nat.eqb_spec n 1); cbn [negb] in *.
    + cbn [rank]. rewrite IH by exact R. lia.
    + inversion R; subst. cbn [rank]. rewrite IH by assumption. now rewrite prod_filter.
Qed.

Lemma rm_stride_insert k sh : k <= length sh ->
  rm_stride (insert_at k 1 sh) = insert_at k (prod (skipn k sh)) (rm_stride sh).
Proof.
  revert sh; induction k as [|k IH]; intros sh L.
  - unfold insert_at. cbn [firstn skipn app]. cbn [rm_stride]. reflexivity.
  - destruct sh as [|n sh]; cbn [length] in L; [lia|]. specialize (IH sh ltac:(lia)).
    unfold insert_at in *. cbn [firstn skipn app rm_stride] in *. rewrite IH. f_equal.
    rewrite prod_app, prod_cons, Nat.mul_1_l, <- prod_app, firstn_skipn. reflexivity.
Qed.

Lemma rank_delete k sh idx : k <= length sh -> in_range idx (insert_at k 1 sh) ->
  rank (delete_at k idx) sh = rank idx (insert_at k 1 sh).
Proof.
  intros L R. destruct (in_range_insert k idx sh L R) as (_ & Z & LI).
  rewrite !rank_dot, rm_stride_insert by exact L. symmetry. apply dot_insert; auto; rewrite rm_stride_length; auto.
Qed.

Section Mem.
  Context {T : Type}.

  (** write through [r], read through [a] *)
  Lemma alias_write (h h' : heap T) r a f idx v :
    views r a f -> in_range idx (a_shape r) -> store h (a_blk r) (a_off r + dot idx (a_stride r)) v = Ok h' ->
    get h' a (f idx) = Ok v.
  Proof.
    intros (B & _ & V) R E. destruct (V _ R) as [_ D]. unfold get. rewrite <- D, <- B. eapply load_store_same; eauto.
  Qed.

  Lemma store_other_block (h h' : heap T) a b o v idx : store h b o v = Ok h' -> a_blk a <> b -> get h' a idx = get h a idx.
  Proof. intros E N. unfold get. eapply load_store_other; eauto. congruence. Qed.
End Mem.

Lemma collapse_go_uniform sh : forall n s st u, length sh = length st -> s <> 0 -> nz st ->
  has_uniform_go s sh st = Some u -> collapse_go n s sh st = ([n * prod sh], [u]).
Proof.
  induction sh as [|n' sh IH]; intros n s [|s' st] u L S N E; cbn [length] in L; try discriminate.
  - cbn in E. injection E as ->. cbn. now rewrite Nat.mul_1_r.
  - cbn [has_uniform_go] in E. inversion N; subst. destruct (_ && _) eqn:C; [discriminate|].
    destruct (Nat.eqb_spec s 0); [contradiction|]. cbn in C. destruct (Nat.eqb_spec s (n' * s')) as [->|]; [|discriminate].
    cbn [collapse_go]. rewrite Nat.eqb_refl. cbn [orb]. rewrite (IH (n * n') s' st u) by (auto; lia).
    rewrite prod_cons. do 2 f_equal. lia.
Qed.

Lemma nd_has_uniform_stride_ok b n a : chain b n false a ->
  nd_has_uniform_stride a = Ok (if f_unif (a_fl a) then has_uniform_stride (a_shape a) (a_stride a) else None).
Proof.
  intros C. apply chain_inv in C. destruct (i_nb _ _ _ _ C eq_refl) as (P & N & D & L).
  destruct (i_fl _ _ _ _ C) as [FU _]. pose proof (i_wf _ _ _ _ C) as W. unfold wf in W.
  unfold nd_has_uniform_stride. destruct (f_unif (a_fl a)); [|reflexivity].
  destruct (a_shape a) as [|m sh], (a_stride a) as [|s st]; try discriminate; [reflexivity|].
  destruct (has_uniform_stride (m :: sh) (s :: st)) as [u|] eqn:U; [|discriminate].
  cbn [has_uniform_stride] in U. inversion N; subst. cbn [length] in W. unfold collapse.
  rewrite (collapse_go_uniform sh m s st u) by (auto; lia). reflexivity.
Qed.
