(** OpFacts.v: element-level description of the elementwise operators. *)
From Coq Require Import List Arith Lia Bool.
From Verif Require Import Base Spec Layout SpecFacts LayoutFacts Views ViewsFacts ViewsFacts2 ViewsFacts3
  Kernels HeapFacts KernelFacts.
Import ListNotations.
Open Scope res_scope.

Lemma combine_map_same {A B C} (f : A -> B) (g : A -> C) l :
  combine (map f l) (map g l) = map (fun x => (f x, g x)) l.
Proof. induction l as [|x l IH]; [reflexivity|]. cbn [map combine]. now rewrite IH. Qed.

Lemma clamp_same sh : forall idx, in_range idx sh -> clamp idx sh = idx.
Proof.
  induction sh as [|n sh IH]; intros idx R; inversion R as [|i n' idx' sh' Hi Hr]; subst; [reflexivity|].
  cbn [clamp]. rewrite IH by exact Hr. destruct (Nat.eqb_spec n 1); [f_equal; lia|reflexivity].
Qed.

Lemma bidx_same sh idx : in_range idx sh -> bidx sh idx = idx.
Proof.
  intros R. unfold bidx. rewrite (in_range_length _ _ R), Nat.sub_diag. cbn [skipn]. now apply clamp_same.
Qed.

Lemma broadcastable_refl sh : broadcastable sh sh.
Proof.
  split; [lia|]. rewrite Nat.sub_diag. cbn [skipn]. induction sh; constructor; auto.
Qed.

(** ** reading *)
Lemma ld_get {T} (h : heap T) a idx : ld h (padd (a_ptr a) (dot idx (a_stride a))) = get h a idx.
Proof. reflexivity. Qed.

Section Ops.
  Context {T : Type}.
  Variable f : T -> T -> res T.
  Variable dflt : T.

  Lemma nd_binary_eq (h : heap T) a b sh :
    valid h a -> valid h b -> join_shape (a_shape a) (a_shape b) sh -> length sh <= MAX_DIMS ->
    nd_binary f dflt h a b =
    (vs <- mapM (fun idx => x <- get h a (bidx (a_shape a) idx) ;; y <- get h b (bidx (a_shape b) idx) ;; f x y)
                (indices sh) ;;
     Ok (h ++ [Some vs], fresh_arr (length h) (prod sh) sh)).
  Proof.
    intros [LA VA] [LB VB] J MD. unfold nd_binary.
    pose proof (proj2 (broadcast_shapes_ok_iff _ _ _) J) as ->. cbn [bind].
    destruct (broadcast_stride_ok _ _ _ LA (join_shape_broadcastable_l _ _ _ J)) as (ls & -> & LL & HL). cbn [bind].
    destruct (broadcast_stride_ok _ _ _ LB (join_shape_broadcastable_r _ _ _ J)) as (rs & -> & LR & HR). cbn [bind].
    unfold alloc. rewrite k_binary_loop by assumption.
    unfold offsets. rewrite combine_map_same, map_map.
    pose proof (loop_fresh (map (fun idx => cell2 f (Mem (a_ptr a)) (Mem (a_ptr b)) (dot idx ls, dot idx rs)) (indices sh))
      h [] (repeat dflt (prod sh))) as LF. cbn [app length] in LF. rewrite LF.
    - rewrite mapM_map, !bind_assoc.
      rewrite (mapM_ext _ (fun idx => x <- get h a (bidx (a_shape a) idx) ;; y <- get h b (bidx (a_shape b) idx) ;; f x y)).
      + reflexivity.
      + intros idx I. apply in_indices in I. destruct (HL _ I) as [_ D1], (HR _ I) as [_ D2].
        unfold cell2. cbn [fst snd src_add src_ld]. now rewrite D1, D2.
    - now rewrite repeat_length, map_length, indices_length.
    - intros o Ho l. apply in_map_iff in Ho as (idx & <- & I). apply in_indices in I.
      destruct (HL _ I) as [R1 D1], (HR _ I) as [R2 D2]. unfold cell2. cbn [fst snd src_add src_ld]. rewrite D1, D2, !ld_get.
      now rewrite (get_app h [Some l] a _ (conj LA VA) R1), (get_app h [Some l] b _ (conj LB VB) R2).
  Qed.

  Lemma nd_binary_panic (h : heap T) a b :
    (exists k, ~ dim_compat (dim_r (a_shape a) k) (dim_r (a_shape b) k)) -> nd_binary f dflt h a b = Panic.
  Proof. intros H. unfold nd_binary. now rewrite (proj2 (broadcast_shapes_panic_iff _ _) H). Qed.

  Lemma nd_scalar_op_eq (h : heap T) a c :
    valid h a -> length (a_shape a) <= MAX_DIMS ->
    nd_scalar_op f dflt h a c =
    (vs <- mapM (fun idx => x <- get h a idx ;; f x c) (indices (a_shape a)) ;;
     Ok (h ++ [Some vs], fresh_arr (length h) (prod (a_shape a)) (a_shape a))).
  Proof.
    intros V MD. destruct V as [LA VA]. unfold nd_scalar_op, alloc.
    rewrite k_scalar_loop by assumption. unfold offsets. rewrite map_map.
    pose proof (loop_fresh (map (fun idx h0 => x <- ld h0 (padd (a_ptr a) (dot idx (a_stride a))) ;; f x c) (indices (a_shape a)))
      h [] (repeat dflt (prod (a_shape a)))) as LF. cbn [app length] in LF. rewrite LF.
    - rewrite mapM_map, !bind_assoc. reflexivity.
    - now rewrite repeat_length, map_length, indices_length.
    - intros o Ho l. apply in_map_iff in Ho as (idx & <- & I). apply in_indices in I.
      rewrite !ld_get. now rewrite (get_app h [Some l] a _ (conj LA VA) I).
  Qed.

  Lemma nd_unary_eq (g : T -> res T) (h : heap T) a :
    valid h a -> length (a_shape a) <= MAX_DIMS ->
    nd_unary g dflt h a =
    (vs <- mapM (fun idx => x <- get h a idx ;; g x) (indices (a_shape a)) ;;
     Ok (h ++ [Some vs], fresh_arr (length h) (prod (a_shape a)) (a_shape a))).
  Proof.
    intros V MD. destruct V as [LA VA]. unfold nd_unary, alloc.
    rewrite k_unary_loop by assumption. unfold offsets. rewrite map_map.
    pose proof (loop_fresh (map (fun idx h0 => x <- ld h0 (padd (a_ptr a) (dot idx (a_stride a))) ;; g x) (indices (a_shape a)))
      h [] (repeat dflt (prod (a_shape a)))) as LF. cbn [app length] in LF. rewrite LF.
    - rewrite mapM_map, !bind_assoc. reflexivity.
    - now rewrite repeat_length, map_length, indices_length.
    - intros o Ho l. apply in_map_iff in Ho as (idx & <- & I). apply in_indices in I.
      rewrite !ld_get. now rewrite (get_app h [Some l] a _ (conj LA VA) I).
  Qed.

  (** ** fresh arrays *)
  Lemma stride_from_shape_length sh : length (stride_from_shape sh) = length sh.
  Proof. rewrite stride_from_shape_rm. apply rm_stride_length. Qed.

  Lemma fresh_get (h : heap T) sh vs n idx : length vs = prod sh -> in_range idx sh ->
    exists v, nth_error vs (rank idx sh) = Some v /\ get (h ++ [Some vs]) (fresh_arr (length h) n sh) idx = Ok v.
  Proof.
    intros L R. unfold get, fresh_arr. cbn [a_blk a_off a_stride]. rewrite load_app_new, stride_from_shape_rm, <- rank_dot.
    cbn [plus]. destruct (nth_error vs (rank idx sh)) as [v|] eqn:E; [eauto|].
    apply nth_error_None in E. apply rank_lt in R. lia.
  Qed.

  Lemma fresh_valid (h : heap T) sh vs n : length vs = prod sh -> valid (h ++ [Some vs]) (fresh_arr (length h) n sh).
  Proof.
    intros L. split; [cbn; apply stride_from_shape_length|]. intros idx R.
    destruct (fresh_get h sh vs n idx L R) as (v & _ & E). eauto.
  Qed.

  Lemma mapM_nth_seq (vs : list T) : mapM (fun k => match nth_error vs k with Some v => Ok v | None => @Oob T end) (seq 0 (length vs)) = Ok vs.
  Proof.
    assert (G : forall l1 l2, mapM (fun k => match nth_error (l1 ++ l2) k with Some v => Ok v | None => @Oob T end) (seq (length l1) (length l2)) = Ok l2).
    { intros l1 l2; revert l1; induction l2 as [|x l2 IH]; intros l1; [reflexivity|].
      cbn [length seq mapM]. rewrite nth_error_app2 by lia. rewrite Nat.sub_diag. cbn [nth_error bind].
      specialize (IH (l1 ++ [x])). rewrite app_length in IH. cbn [length] in IH. rewrite Nat.add_1_r in IH.
      rewrite <- app_assoc in IH. cbn [app] in IH. rewrite IH. reflexivity. }
    apply (G []).
  Qed.

  Lemma fresh_elems (h : heap T) sh vs n : length vs = prod sh ->
    elems (h ++ [Some vs]) (fresh_arr (length h) n sh) = Ok vs.
  Proof.
    intros L. unfold elems. cbn [a_shape fresh_arr].
    transitivity (mapM (fun k => match nth_error vs k with Some v => Ok v | None => @Oob T end)
                       (map (fun idx => rank idx sh) (indices sh))).
    - rewrite mapM_map. apply mapM_ext. intros idx I. apply in_indices in I.
      unfold get, fresh_arr. cbn [a_blk a_off a_stride]. rewrite load_app_new, stride_from_shape_rm, <- rank_dot. reflexivity.
    - assert (E : map (fun idx => rank idx sh) (indices sh) = seq 0 (length vs)).
      { rewrite L, <- offsets_rm. apply map_ext. intros idx. apply rank_dot. }
      rewrite E. apply mapM_nth_seq.
  Qed.

  (** ** in-place loop *)
  Lemma same_elsewhere_refl (h : heap T) P : same_elsewhere h h P.
  Proof. split; auto. Qed.

  Lemma loop_inplace (ops : list (heap T -> res T)) : forall (h : heap T) b o,
    (forall k op, nth_error ops k = Some op -> forall h',
        same_elsewhere h h' (fun b' o' => b' = b /\ o <= o' < o + k) -> op h' = op h) ->
    (forall k, k < length ops -> exists v, load h b (o + k) = Ok v) ->
    match mapM (fun op => op h) ops with
    | Ok vs => exists h', loop h ops (b, o) = Ok h' /\
        (forall k v, nth_error vs k = Some v -> load h' b (o + k) = Ok v) /\
        same_elsewhere h h' (fun b' o' => b' = b /\ o <= o' < o + length ops)
    | Panic => loop h ops (b, o) = Panic
    | Oob => loop h ops (b, o) = Oob
    end.
  Proof.
    induction ops as [|op ops IH]; intros h b o I V.
    - cbn [mapM loop length]. exists h. split; [reflexivity|]. split; [intros [|k] v; discriminate|apply same_elsewhere_refl].
    - cbn [mapM loop]. destruct (op h) as [v| |] eqn:E; cbn [bind]; try reflexivity.
      destruct (V 0 ltac:(cbn; lia)) as (x & EX). rewrite Nat.add_0_r in EX.
      destruct (store_ok h b o v x EX) as (h1 & ES). unfold st. cbn [fst snd]. rewrite ES. cbn [bind padd fst snd].
      assert (SE : same_elsewhere h h1 (fun b' o' => b' = b /\ o <= o' < o + 1)).
      { split; [symmetry; eapply store_length; eauto|]. intros b' o' N. eapply load_store_other; [exact ES|].
        intros Q; injection Q as -> ->. apply N. split; [reflexivity|lia]. }
      assert (EQ : mapM (fun op => op h1) ops = mapM (fun op => op h) ops).
      { apply mapM_ext. intros op' Ho. apply In_nth_error in Ho as (k & N). apply (I (S k)); [exact N|].
        split; [apply SE|]. intros b' o' NN. apply SE. intros [-> Q]. apply NN. split; [reflexivity|lia]. }
      specialize (IH h1 b (o + 1)). rewrite EQ in IH.
      assert (IH' : match mapM (fun op => op h) ops with
        | Ok vs => exists h', loop h1 ops (b, o + 1) = Ok h' /\
            (forall k v, nth_error vs k = Some v -> load h' b (o + 1 + k) = Ok v) /\
            same_elsewhere h1 h' (fun b' o' => b' = b /\ o + 1 <= o' < o + 1 + length ops)
        | Panic => loop h1 ops (b, o + 1) = Panic
        | Oob => loop h1 ops (b, o + 1) = Oob
        end).
      { apply IH.
        - intros k op' N h' S'.
          transitivity (op' h).
          + apply (I (S k)); [exact N|]. destruct S' as [S1 S2], SE as [S3 S4]. split; [congruence|].
            intros b' o' NN. rewrite S2, S4; auto; intros [-> Q]; apply NN; split; auto; lia.
          + symmetry. apply (I (S k)); [exact N|]. split; [apply SE|]. intros b' o' NN. apply SE. intros [-> Q]. apply NN. split; [reflexivity|lia].
        - intros k K. rewrite (load_store _ _ _ _ _ ES). destruct (_ && _); [eauto|].
          replace (o + 1 + k) with (o + S k) by lia. apply V. cbn; lia. }
      clear IH. destruct (mapM (fun op => op h) ops) as [vs| |]; cbn [bind]; [|exact IH'|exact IH'].
      destruct IH' as (h' & EL & HV & S'). exists h'. split; [exact EL|]. split.
      + intros [|k] w N; cbn [nth_error] in N.
        * injection N as <-. rewrite Nat.add_0_r. destruct S' as [_ S']. rewrite S' by lia. eapply load_store_same; eauto.
        * replace (o + S k) with (o + 1 + k) by lia. now apply HV.
      + destruct S' as [S1 S2], SE as [S3 S4]. split; [congruence|]. cbn [length]. intros b' o' NN.
        rewrite S2, S4; auto; intros [-> Q]; apply NN; split; auto; lia.
  Qed.

  (** ** contiguity *)
  Lemma uniform_zero sh : forall s st, length sh = length st -> no_bcast sh st ->
    has_uniform_go s sh st = Some 0 -> s = 0 /\ Forall (fun n => n <= 1) sh.
  Proof.
    induction sh as [|n sh IH]; intros s [|s' st] L NB E; cbn [length] in L; try discriminate.
    - cbn in E. injection E as ->. auto.
    - cbn [has_uniform_go] in E. inversion NB as [|? ? ? ? N1 NB']; subst.
      destruct (_ && _) eqn:C; [discriminate|]. apply IH in E as [-> F]; [|lia|exact NB'].
      split.
      + rewrite Nat.mul_0_r in C. destruct (Nat.eqb_spec s 0); [assumption|discriminate].
      + constructor; [destruct N1; [assumption|congruence]|exact F].
  Qed.

  Lemma prod_le1 sh : Forall (fun n => n <= 1) sh -> prod sh <= 1.
  Proof. induction 1 as [|n l H F IH]; [cbn; lia|]. rewrite prod_cons. nia. Qed.

  (** a truthful contiguous flag on a layout without broadcast axes *)
  Lemma contig_offsets a : wf a -> flags_ok a -> no_bcast (a_shape a) (a_stride a) -> f_contig (a_fl a) = true ->
    offsets (a_shape a) (a_stride a) = seq 0 (prod (a_shape a)).
  Proof.
    intros W [FU FC] NB C. rewrite C in FC.
    destruct (has_uniform_stride (a_shape a) (a_stride a)) as [u|] eqn:U; [|discriminate].
    pose proof (has_uniform_spec _ _ _ (eq_sym W) NB U) as O. rewrite O.
    symmetry in FC. apply Nat.leb_le in FC. assert (u = 0 \/ u = 1) as [->| ->] by lia.
    - assert (P : prod (a_shape a) <= 1).
      { destruct (a_shape a) as [|n sh], (a_stride a) as [|s st]; try (cbn; lia); [inversion NB|].
        cbn [has_uniform_stride] in U. inversion NB as [|? ? ? ? N1 NB2]; subst.
        destruct (uniform_zero sh s st (Forall2_length _ _ _ NB2) NB2 U) as [-> F].
        apply prod_le1. constructor; [destruct N1; [assumption|congruence]|exact F]. }
      destruct (prod (a_shape a)) as [|[|k]]; [reflexivity|reflexivity|lia].
    - rewrite <- (map_id (seq 0 _)) at 2. apply map_ext. intros; lia.
  Qed.

  Lemma contig_dot a idx : wf a -> flags_ok a -> no_bcast (a_shape a) (a_stride a) -> f_contig (a_fl a) = true ->
    in_range idx (a_shape a) -> dot idx (a_stride a) = rank idx (a_shape a).
  Proof.
    intros W F NB C R. pose proof (offsets_nth _ (a_stride a) _ R) as N. rewrite (contig_offsets a W F NB C) in N.
    rewrite nth_error_seq in N by now apply rank_lt. cbn in N. congruence.
  Qed.

  Lemma contig_cell a b o : wf a -> flags_ok a -> no_bcast (a_shape a) (a_stride a) -> f_contig (a_fl a) = true ->
    b = a_blk a /\ a_off a <= o < a_off a + prod (a_shape a) -> cell_of a b o.
  Proof.
    intros W F NB C [-> O]. destruct (unrank_in_range (o - a_off a) (a_shape a)) as [R K]; [lia|].
    exists (unrank (o - a_off a) (a_shape a)). split; [exact R|]. split; [reflexivity|].
    rewrite contig_dot by assumption. rewrite K. lia.
  Qed.

  (** ** compound assignment on a contiguous destination *)
  Definition assign_values (h : heap T) (a b : arr) : res (list T) :=
    mapM (fun idx => x <- get h a idx ;; y <- get h b (bidx (a_shape b) idx) ;; f x y) (indices (a_shape a)).

  (** the right operand never reads a cell of the destination that an earlier step wrote *)
  Definition no_feedback (a b : arr) : Prop :=
    forall i j, in_range i (a_shape a) -> in_range j (a_shape a) ->
      a_blk b = a_blk a ->
      a_off b + dot (bidx (a_shape b) j) (a_stride b) = a_off a + dot i (a_stride a) ->
      rank j (a_shape a) <= rank i (a_shape a).

  Lemma same_elsewhere_weaken (h h' : heap T) (P Q : nat -> nat -> Prop) :
    (forall b o, P b o -> Q b o) -> same_elsewhere h h' P -> same_elsewhere h h' Q.
  Proof. intros H [L S]. split; [exact L|]. intros b o N. apply S. auto. Qed.

  Lemma loop_assign (h : heap T) a (op : list nat -> heap T -> res T) :
    valid h a -> flags_ok a -> no_bcast (a_shape a) (a_stride a) -> f_contig (a_fl a) = true ->
    (forall idx, in_range idx (a_shape a) -> forall h',
       same_elsewhere h h' (fun b' o' => b' = a_blk a /\ a_off a <= o' < a_off a + rank idx (a_shape a)) -> op idx h' = op idx h) ->
    match mapM (fun idx => op idx h) (indices (a_shape a)) with
    | Ok vs => exists h', loop h (map op (indices (a_shape a))) (a_ptr a) = Ok h' /\
         elems h' a = Ok vs /\ same_elsewhere h h' (cell_of a)
    | Panic => loop h (map op (indices (a_shape a))) (a_ptr a) = Panic
    | Oob => loop h (map op (indices (a_shape a))) (a_ptr a) = Oob
    end.
  Proof.
    intros [W V] F NB C H.
    pose proof (loop_inplace (map op (indices (a_shape a))) h (a_blk a) (a_off a)) as LI.
    rewrite mapM_map in LI. rewrite map_length, indices_length in LI. unfold a_ptr.
    lapply LI; clear LI; [intros LI; lapply LI; clear LI|].
    - intros LI. destruct (mapM (fun idx => op idx h) (indices (a_shape a))) as [vs| |] eqn:M; [|exact LI|exact LI].
      destruct LI as (h' & E & HV & SE). exists h'. split; [exact E|]. split.
      + pose proof (mapM_length _ _ _ M) as LV. rewrite indices_length in LV.
        unfold elems. transitivity (mapM (fun k => match nth_error vs k with Some v => Ok v | None => @Oob T end)
                       (map (fun idx => rank idx (a_shape a)) (indices (a_shape a)))).
        * rewrite mapM_map. apply mapM_ext. intros idx I. apply in_indices in I. unfold get.
          rewrite contig_dot by assumption. pose proof (rank_lt _ _ I) as RL.
          destruct (nth_error vs (rank idx (a_shape a))) as [v|] eqn:N; [now apply HV|].
          apply nth_error_None in N. lia.
        * assert (E' : map (fun idx => rank idx (a_shape a)) (indices (a_shape a)) = seq 0 (length vs)).
          { rewrite LV, <- offsets_rm. apply map_ext. intros idx. apply rank_dot. }
          rewrite E'. apply mapM_nth_seq.
      + eapply same_elsewhere_weaken; [|exact SE]. intros b o. now apply contig_cell.
    - intros k K. destruct (unrank_in_range k (a_shape a) K) as [R RK].
      destruct (V _ R) as (v & E). unfold get in E. rewrite contig_dot, RK in E by assumption. eauto.
    - intros k o N h' SE. rewrite nth_error_map in N. destruct (nth_error (indices (a_shape a)) k) as [idx|] eqn:NI; [|discriminate].
      injection N as <-. apply nth_indices_inv in NI as [R <-]. now apply H.
  Qed.

  Lemma nd_assign_ok (h : heap T) a b :
    valid h a -> valid h b -> flags_ok a -> no_bcast (a_shape a) (a_stride a) ->
    f_contig (a_fl a) = true -> f_write (a_fl a) = true ->
    broadcastable (a_shape b) (a_shape a) -> length (a_shape a) <= MAX_DIMS ->
    no_feedback a b ->
    match assign_values h a b with
    | Ok vs => exists h', nd_assign f h a b = Ok h' /\ elems h' a = Ok vs /\ same_elsewhere h h' (cell_of a)
    | Panic => nd_assign f h a b = Panic
    | Oob => nd_assign f h a b = Oob
    end.
  Proof.
    intros VA VB F NB C WR BR MD NF.
    assert (G : exists rs, length rs = length (a_shape a) /\
      (forall idx, in_range idx (a_shape a) -> in_range (bidx (a_shape b) idx) (a_shape b) /\ dot idx rs = dot (bidx (a_shape b) idx) (a_stride b)) /\
      nd_assign f h a b = k_binary f h (a_ptr a) (a_stride a) (a_ptr b) rs (a_ptr a) (a_shape a)).
    { unfold nd_assign. rewrite WR. cbn [guard bind]. destruct (list_eqb (a_shape b) (a_shape a)) eqn:E.
      - apply list_eqb_spec in E. exists (a_stride b). rewrite <- E. split; [apply VB|]. split; [|reflexivity].
        intros idx R. rewrite bidx_same by exact R. auto.
      - destruct (broadcast_stride_ok _ _ _ (proj1 VB) BR) as (rs & ER & LR & HR). exists rs. split; [exact LR|]. split; [exact HR|].
        unfold nd_broadcast_to. rewrite (broadcast_shape_ok _ _ BR). cbn [bind]. rewrite ER. reflexivity. }
    destruct G as (rs & LR & HR & ->). rewrite k_binary_loop by (try assumption; apply VA).
    unfold offsets. rewrite combine_map_same, map_map.
    pose proof (loop_assign h a (fun idx => cell2 f (Mem (a_ptr a)) (Mem (a_ptr b)) (dot idx (a_stride a), dot idx rs)) VA F NB C) as LA.
    assert (EM : mapM (fun idx => cell2 f (Mem (a_ptr a)) (Mem (a_ptr b)) (dot idx (a_stride a), dot idx rs) h) (indices (a_shape a)) = assign_values h a b).
    { apply mapM_ext. intros idx I. apply in_indices in I. destruct (HR _ I) as [_ D]. unfold cell2. cbn [fst snd src_add src_ld]. now rewrite D. }
    cbn beta in LA. rewrite EM in LA. apply LA. intros idx R h' [_ SE]. destruct (HR _ R) as [R1 D].
    unfold cell2. cbn [fst snd src_add src_ld]. rewrite D, !ld_get. unfold get.
    rewrite SE, SE; [reflexivity| |].
    - intros [EB EO]. destruct (unrank_in_range (a_off b + dot (bidx (a_shape b) idx) (a_stride b) - a_off a) (a_shape a)) as [R2 K2].
      { pose proof (rank_lt _ _ R). lia. }
      pose proof (NF _ _ R2 R EB) as Q. rewrite (contig_dot a _ (proj1 VA) F NB C R2) in Q. rewrite K2 in Q. lia.
    - intros [_ EO]. rewrite (contig_dot a _ (proj1 VA) F NB C R) in EO. lia.
  Qed.

  Lemma nd_assign_panic_ro (h : heap T) a b : f_write (a_fl a) = false -> nd_assign f h a b = Panic.
  Proof. intros W. unfold nd_assign. now rewrite W. Qed.

  Lemma nd_assign_panic_shape (h : heap T) a b : ~ broadcastable (a_shape b) (a_shape a) -> nd_assign f h a b = Panic.
  Proof.
    intros N. unfold nd_assign. destruct (f_write (a_fl a)); [|reflexivity]. cbn [guard bind].
    destruct (list_eqb (a_shape b) (a_shape a)) eqn:E.
    - apply list_eqb_spec in E. exfalso. apply N. rewrite E. apply broadcastable_refl.
    - now rewrite (nd_broadcast_to_panic _ _ N).
  Qed.

  Lemma nd_assign_scalar_ok (h : heap T) a c :
    valid h a -> flags_ok a -> no_bcast (a_shape a) (a_stride a) ->
    f_contig (a_fl a) = true -> f_write (a_fl a) = true -> length (a_shape a) <= MAX_DIMS ->
    match mapM (fun idx => x <- get h a idx ;; f x c) (indices (a_shape a)) with
    | Ok vs => exists h', nd_assign_scalar f h a c = Ok h' /\ elems h' a = Ok vs /\ same_elsewhere h h' (cell_of a)
    | Panic => nd_assign_scalar f h a c = Panic
    | Oob => nd_assign_scalar f h a c = Oob
    end.
  Proof.
    intros VA F NB C WR MD. unfold nd_assign_scalar. rewrite WR. cbn [guard bind].
    rewrite k_scalar_loop by (try assumption; apply VA). unfold offsets. rewrite map_map.
    pose proof (loop_assign h a (fun idx h0 => x <- ld h0 (padd (a_ptr a) (dot idx (a_stride a))) ;; f x c) VA F NB C) as LA.
    apply LA. intros idx R h' [_ SE]. rewrite !ld_get. unfold get. rewrite SE; [reflexivity|].
    intros [_ EO]. rewrite (contig_dot a _ (proj1 VA) F NB C R) in EO. lia.
  Qed.
End Ops.
