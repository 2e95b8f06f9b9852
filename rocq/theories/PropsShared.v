(** PropsShared.v: C47.  reshape, squeeze and unsqueeze of a tensor by value when its data is shared:
    what the copy shows, and on which layouts this does not depend on the sharing. *)
From Coq Require Import List Arith Lia Bool ZArith.
From Verif Require Import Base Spec Layout SpecFacts LayoutFacts Views ViewsFacts ViewsFacts2 Kernels Access HeapFacts KernelFacts OpFacts AccessFacts
  Chain ChainFacts PropsViews PropsOps SpecGrad Autograd GradFacts GradFacts2 GradFacts4 PropsGrad PropsGrad2.
Import ListNotations.
Open Scope res_scope.
Close Scope Z_scope. Open Scope nat_scope.

Lemma strided_view op b n a r : strided_op op -> chain b n false a -> op ByValue a = Ok r ->
  chain b n false r /\ forall T (h : heap T), elems h r = elems h a.
Proof.
  intros O C E. destruct O as [sh| |axis].
  - split; [eapply Ch_reshape; eauto|]. now apply (C05_reshape_partial b n a ByValue sh C).
  - apply Ok_inj in E. subst r. split; [now apply Ch_squeeze|]. apply (C07_squeeze b n false a ByValue C).
  - split; [eapply Ch_unsqueeze; eauto|]. destruct (C07_unsqueeze b n false a ByValue axis C) as [K P]. cbv zeta in K, P.
    set (nd := Z.of_nat (length (a_shape a) + 1)) in *.
    destruct (Z_le_dec (- nd) axis), (Z_lt_dec axis nd); try (rewrite P in E by lia; discriminate).
    destruct K as (r' & E' & _ & _ & K); [lia|]. rewrite E in E'. injection E' as <-. exact K.
Qed.

Lemma elems_at {T} (h : heap T) a vs idx : elems h a = Ok vs -> in_range idx (a_shape a) -> exists x, get h a idx = Ok x /\ nth_error vs (rank idx (a_shape a)) = Some x.
Proof. intros E R. destruct (mapM_nth _ _ _ _ _ E (nth_indices_rank idx _ R)) as (x & G & N). exists x. auto. Qed.

(** ** A shared tensor: index idx of the result reads element dot(idx, strides) of the row-major
    sequence, with the strides the result would have without sharing. *)
Theorem C47_shared : forall T (h : heap T) blk n a op, strided_op op -> chain blk n false a -> live h blk n -> length (a_shape a) <= MAX_DIMS ->
  (op ByValue a = Panic /\ via_strides TMove op h a = Panic /\ via_strides TClone op h a = Panic) \/
  exists vs r h2 c, elems h a = Ok vs /\ via_strides TMove op h a = Ok (h, r) /\ elems h r = Ok vs /\
    via_strides TClone op h a = Ok (h2, c) /\ a_shape c = a_shape r /\
    forall idx, get h2 c idx = match nth_error vs (dot idx (a_stride r)) with Some x => Ok x | None => Oob end.
Proof.
  intros T h blk n a op O C L MD. pose proof (chain_inv _ _ _ _ C) as I. destruct (i_nb _ _ _ _ I eq_refl) as (P & Z & _ & LN).
  destruct (nd_clone_ok h a (chain_valid h _ _ _ _ L C) (i_fl _ _ _ _ I) ltac:(apply contig_tight; auto; apply I) (fun _ => nonzero_no_bcast _ _ (eq_sym (proj1 (chain_valid h _ _ _ _ L C))) Z) MD) as (vs & E & LV & EC & _).
  cbn [via_strides]. destruct (op ByValue a) as [r| |] eqn:EO; cbn [bind]; [right|left; auto|].
  - exists vs, r. rewrite EC. cbn [bind]. eexists _, _. split; [exact E|]. split; [reflexivity|]. split; [rewrite <- E; now apply (strided_view op blk n a r)|].
    split; [reflexivity|]. split; [reflexivity|]. intros idx. unfold get, reshaped_view. cbn [a_blk a_off a_stride fresh_arr]. apply load_app_new.
  - exfalso. destruct O as [sh| |axis]; [|discriminate|].
    + eapply nd_reshape_not_oob; eauto.
    + destruct (C07_unsqueeze blk n false a ByValue axis C) as [K P']. cbv zeta in K, P'. set (nd := Z.of_nat (length (a_shape a) + 1)) in *.
      destruct (Z_le_dec (- nd) axis), (Z_lt_dec axis nd); try (rewrite P' in EO by lia; discriminate).
      destruct K as (r' & E' & _); [lia|congruence].
Qed.
Print Assumptions C47_shared.

(** ** The result does not depend on the sharing, whatever the data, exactly when without sharing it
    lies row by row in memory. *)
Theorem C47_shared_iff : forall T (x y : T) blk n a op r, x <> y -> strided_op op -> chain blk n false a -> length (a_shape a) <= MAX_DIMS -> op ByValue a = Ok r ->
  ((forall h : heap T, live h blk n -> same_array (via_strides TMove op h a) (via_strides TClone op h a)) <->
   (forall idx, in_range idx (a_shape r) -> dot idx (a_stride r) = rank idx (a_shape r))).
Proof.
  intros T x y blk n a op r NE O C MD EO. destruct (strided_view op blk n a r O C EO) as (CR & ER). split.
  - intros H idx R. destruct (Nat.eq_dec (dot idx (a_stride r)) (rank idx (a_shape r))) as [|D]; [auto|exfalso].
    set (c := a_off r + dot idx (a_stride r)). set (h := repeat None blk ++ [Some (map (fun o => if o =? c then y else x) (seq 0 n))] : heap T).
    assert (LH : live h blk n).
    { eexists. unfold h. rewrite nth_error_app2; rewrite repeat_length; [|lia]. rewrite Nat.sub_diag. split; [reflexivity|]. now rewrite map_length, seq_length. }
    assert (LD : forall o v, load h blk o = Ok v -> v = if o =? c then y else x).
    { intros o v. unfold load, h. rewrite nth_error_app2; rewrite repeat_length; [|lia]. rewrite Nat.sub_diag. cbn [nth_error]. rewrite nth_error_map.
      destruct (nth_error (seq 0 n) o) as [k|] eqn:N; cbn [option_map]; [|discriminate]. intros [= <-].
      assert (o < n) by (rewrite <- (seq_length n 0); apply nth_error_Some; congruence). apply nth_error_nth with (d := 0) in N. rewrite seq_nth in N by lia. now subst. }
    specialize (H h LH). destruct (C47_shared T h blk n a op O C LH MD) as [(E & _)|(vs & r' & h2 & cl & _ & E1 & EV & E2 & SH & G)]; [congruence|].
    assert (r' = r) as -> by (cbn [via_strides] in E1; rewrite EO in E1; cbn [bind] in E1; congruence).
    rewrite E1, E2 in H. destruct H as [_ H]. destruct (H idx R) as (v & G1 & G2). rewrite G in G2.
    assert (BR : a_blk r = blk) by apply (chain_inv _ _ _ _ CR).
    assert (VY : v = y) by (unfold get in G1; rewrite BR in G1; apply LD in G1; fold c in G1; now rewrite Nat.eqb_refl in G1).
    destruct (nth_error vs (dot idx (a_stride r))) as [w|] eqn:N; [|discriminate]. injection G2 as ->.
    assert (PB : dot idx (a_stride r) < prod (a_shape r)).
    { rewrite <- indices_length, <- (mapM_length _ _ _ EV). apply nth_error_Some. congruence. }
    destruct (unrank_in_range _ _ PB) as (R' & K'). set (idx' := unrank _ _) in *.
    destruct (elems_at _ _ _ _ EV R') as (w & G3 & N3). rewrite K', N in N3. injection N3 as <-.
    unfold get in G3. rewrite BR in G3. apply LD in G3. destruct (Nat.eqb_spec (a_off r + dot idx' (a_stride r)) c) as [EQ|]; [|congruence].
    apply D. rewrite <- K'. f_equal. symmetry. 
    pose proof (C25_distinct_cells _ _ _ CR idx' idx R' R) as DI. unfold c in EQ. rewrite DI by lia. reflexivity.
  - intros H h LH. destruct (C47_shared T h blk n a op O C LH MD) as [(E & _)|(vs & r' & h2 & cl & _ & E1 & EV & E2 & SH & G)]; [congruence|].
    assert (r' = r) as -> by (cbn [via_strides] in E1; rewrite EO in E1; cbn [bind] in E1; congruence).
    rewrite E1, E2. cbn [same_array]. split; [auto|]. intros idx R. destruct (elems_at _ _ _ _ EV R) as (w & G3 & N3). exists w. split; [exact G3|]. rewrite G, H by exact R. now rewrite N3.
Qed.
Print Assumptions C47_shared_iff.

(** the matrix 1 2 3 / 4 5 6 transposed: row-major sequence 1 4 2 5 3 6, strides 1 3 of the result;
    and a one-column matrix, whose transpose does lie row by row *)
Example C47_shared_case : let a := match nd_transpose ByRef (fresh_arr 0 6 [2; 3]) 0 1 with Ok r => r | _ => fresh_arr 0 0 [] end in
  let op := fun m a => nd_unsqueeze m a 0 in let h := [Some [1; 2; 3; 4; 5; 6]] in
  chain 0 6 false a /\ live h 0 6 /\ elems h a = Ok [1; 4; 2; 5; 3; 6] /\
  (exists r, op ByValue a = Ok r /\ a_shape r = [1; 3; 2] /\ dot [0; 1; 0] (a_stride r) = 1 /\ rank [0; 1; 0] (a_shape r) = 2) /\
  (exists h2 c, via_strides TClone op h a = Ok (h2, c) /\ get h2 c [0; 1; 0] = Ok 4 /\ get h2 c [0; 0; 1] = Ok 5).
Proof.
  cbv zeta. split; [eapply (Ch_transpose 0 6 false (fresh_arr 0 6 [2; 3]) ByRef 0 1); [apply Ch_new; cbn; lia|reflexivity]|]. split; [eexists; split; reflexivity|]. split; [reflexivity|].
  split; [eexists; repeat split; vm_compute; reflexivity|]. eexists _, _. split; [vm_compute; reflexivity|]. split; reflexivity.
Qed.
Example C47_column_case : let a := match nd_transpose ByRef (fresh_arr 0 3 [3; 1]) 0 1 with Ok r => r | _ => fresh_arr 0 0 [] end in
  exists r, nd_unsqueeze ByValue a 0 = Ok r /\ a_shape r = [1; 1; 3] /\ forallb (fun i => dot i (a_stride r) =? rank i (a_shape r)) (indices (a_shape r)) = true.
Proof. cbv zeta. eexists. split; [vm_compute; reflexivity|]. split; reflexivity. Qed.
