(** VdspFacts.v: the vDSP kernels compared with the portable ones. *)
From Coq Require Import List Arith Lia Bool.
From Verif Require Import Base Spec Layout SpecFacts LayoutFacts Views ViewsFacts ViewsFacts2 ViewsFacts3 Kernels HeapFacts KernelFacts OpFacts
  AccessFacts Reduce ReduceFacts Simd SimdFacts SimdOps SimdRed Vdsp.
Import ListNotations.
Open Scope res_scope.

Section Bin.
  Context {T : Type}.
  Variable f : T -> T -> T.
  Notation qf := (fun x y => Ok (f x y)).

  Lemma vdsp_bin_eq h a ia b ib c n : sfree a ia c n -> sfree b ib c n ->
    vdsp_bin f h a ia b ib c n = k_nn qf h a ia b ib c n.
  Proof.
    intros Fa Fb. rewrite k_nn_loop. pose proof (ocell_cell2 f h (OStride a ia) (OStride b ib) c n) as Q. cbn [obase ostep] in Q. rewrite <- Q. clear Q.
    rewrite <- block_loop.
    - rewrite mapM_map. unfold vdsp_bin, vdsp_read, ocell, oat. cbn [obase ostep].
      rewrite (mapM_pair (fun i => src_ld h (src_add a (i * ia))) (fun i => src_ld h (src_add b (i * ib)))) by (intros; apply src_ld_not_Panic).
      rewrite !bind_assoc. apply bind_ext. intros xs _. rewrite !bind_assoc. apply bind_ext. intros ys _. reflexivity.
    - intros o I. apply in_map_iff in I as (i & <- & _). apply ocell_not_Panic.
    - intros j o E i v h1 h2 LT ST.
      assert (J : j < n).
      { assert (NN : nth_error (map (ocell f (OStride a ia) (OStride b ib)) (seq 0 n)) j <> None) by congruence.
        apply nth_error_Some in NN. now rewrite map_length, seq_length in NN. }
      rewrite nth_error_map, nth_error_seq in E by exact J. injection E as <-. unfold ocell, oat. cbn [Nat.add obase ostep].
      now rewrite (src_ld_st_other _ _ _ _ _ ST (Fa i j (conj LT J))), (src_ld_st_other _ _ _ _ _ ST (Fb i j (conj LT J))).
  Qed.

  Lemma src_add_0 (s : src T) : src_add s 0 = s.
  Proof. destruct s; cbn [src_add]; [now rewrite padd_0|reflexivity]. Qed.
  Lemma read_const h (b : src T) n y : src_ld h b = Ok y -> vdsp_read h b 0 n = Ok (repeat y n).
  Proof.
    intros E. unfold vdsp_read. rewrite (mapM_ext _ (fun _ => Ok y)).
    - now rewrite mapM_const, seq_length.
    - intros i _. now rewrite Nat.mul_0_r, src_add_0.
  Qed.
  Lemma map2_repeat_r xs : forall (y : T) n, length xs = n -> map2 f xs (repeat y n) = map (fun x => f x y) xs.
  Proof. induction xs as [|x xs IH]; intros y [|n] L; try discriminate L; cbn [repeat map2 map]; [reflexivity|]. f_equal. apply IH. now injection L. Qed.
  Lemma vdsp_read_length h (a : src T) ia n xs : vdsp_read h a ia n = Ok xs -> length xs = n.
  Proof. intros E. apply mapM_length in E. now rewrite seq_length in E. Qed.

  Lemma vdsp_scal_bin h (a : src T) ia b c n : 0 < n -> vdsp_scal f h a ia b c n = vdsp_bin f h a ia b 0 c n.
  Proof.
    intros N. unfold vdsp_scal, vdsp_bin. destruct (src_ld h b) as [y| |] eqn:E; cbn [bind].
    - rewrite (read_const h b n y E). apply bind_ext. intros xs X. cbn [bind]. f_equal. symmetry. apply map2_repeat_r. eapply vdsp_read_length; eauto.
    - destruct (src_ld_not_Panic _ _ E).
    - pose proof (mapM_not_Panic (fun i => src_ld h (src_add a (i * ia))) (seq 0 n) (fun i _ => src_ld_not_Panic _ _)) as NP. unfold vdsp_read.
      destruct (mapM _ (seq 0 n)) as [xs| |]; cbn [bind]; [|congruence|reflexivity].
      destruct n; [lia|]. cbn [seq mapM]. now rewrite Nat.mul_0_l, src_add_0, E.
  Qed.
  Lemma map2_comm (C : forall x y, f x y = f y x) xs : forall ys, map2 f xs ys = map2 f ys xs.
  Proof. induction xs as [|x xs IH]; intros [|y ys]; cbn [map2]; auto. now rewrite C, IH. Qed.
  Lemma vdsp_bin_comm (C : forall x y, f x y = f y x) h a ia b ib c n : vdsp_bin f h a ia b ib c n = vdsp_bin f h b ib a ia c n.
  Proof.
    unfold vdsp_bin. rewrite bind_swap by (apply mapM_not_Panic; intros; apply src_ld_not_Panic).
    apply bind_ext. intros ys _. apply bind_ext. intros xs _. now rewrite map2_comm.
  Qed.

  Variable k : vop.
  Hypothesis COMM : k = VAddMul -> forall x y, f x y = f y x.
  Lemma v_n_n_eq h a ia b ib c n : sfree a ia c n -> sfree b ib c n -> v_n_n f k h a ia b ib c n = k_nn qf h a ia b ib c n.
  Proof. intros. destruct k; unfold v_n_n, vdsp_rev; now apply vdsp_bin_eq. Qed.
  Lemma v_n_0_eq h a ia b c n : 0 < n -> sfree a ia c n -> sfree b 0 c n -> v_n_0 f k h a ia b c n = k_nn qf h a ia b 0 c n.
  Proof. intros N. destruct k; unfold v_n_0; intros; rewrite ?vdsp_scal_bin by assumption; unfold v_n_n, vdsp_rev; now apply vdsp_bin_eq. Qed.
  Lemma v_0_n_eq h a b ib c n : 0 < n -> sfree a 0 c n -> sfree b ib c n -> v_0_n f k h a b ib c n = k_nn qf h a 0 b ib c n.
  Proof.
    intros N Fa Fb. destruct k eqn:K; unfold v_0_n.
    - rewrite vdsp_scal_bin, vdsp_bin_comm by auto. now apply vdsp_bin_eq.
    - unfold v_n_n, vdsp_rev. now apply vdsp_bin_eq.
    - unfold v_n_n, vdsp_rev. now apply vdsp_bin_eq.
  Qed.

  Variable pf : T -> T -> res T.

  (** either a vDSP routine is called, with the effect of the portable kernel for the wrapping
      operator, or the portable kernel itself *)
  Lemma vk_binary_cases h lhs ls rhs rs dst shape :
    length ls = length shape -> length rs = length shape -> 0 < prod shape ->
    kfree lhs (offsets shape ls) dst -> kfree rhs (offsets shape rs) dst ->
    vk_binary f k pf h lhs ls rhs rs dst shape = k_binary qf h lhs ls rhs rs dst shape \/
    vk_binary f k pf h lhs ls rhs rs dst shape = k_binary pf h lhs ls rhs rs dst shape.
  Proof.
    intros L1 L2 P Fl Fr. unfold vk_binary, k_binary.
    destruct ((length ls =? 0) && (length rs =? 0)); [auto|].
    destruct (collapse shape ls) as [lsh lst] eqn:CL. destruct (collapse shape rs) as [rsh rst] eqn:CR.
    destruct (last_of lst) as [li| |] eqn:ELI; cbn [bind]; [|auto..].
    destruct (last_of rst) as [ri| |] eqn:ERI; cbn [bind]; [|auto..].
    destruct (vget lsh 0) as [ln| |] eqn:ELN; cbn [bind]; [|auto..].
    destruct (vget rsh 0) as [rn| |] eqn:ERN; cbn [bind]; [|auto..].
    destruct (length lsh =? 1) eqn:D1; cbn [andb]; [|now right].
    destruct (length rsh =? 1) eqn:D2; cbn [andb]; [|now right].
    left. apply len1 in D1 as (n & ->). apply len1 in D2 as (m & ->).
    pose proof (collapse_offsets _ _ _ _ (eq_sym L1) CL) as (_ & LL & _).
    pose proof (collapse_offsets _ _ _ _ (eq_sym L2) CR) as (_ & LR & _).
    destruct lst as [|s [|]]; try discriminate LL. destruct rst as [|t [|]]; try discriminate LR.
    cbv in ELI, ERI, ELN, ERN. injection ELI as <-. injection ERI as <-. injection ELN as <-. injection ERN as <-.
    destruct (collapse_last _ _ _ _ (eq_sym L1) CL) as (O1 & ->). destruct (collapse_last _ _ _ _ (eq_sym L2) CR) as (O2 & ->).
    rewrite O1 in Fl. rewrite O2 in Fr. apply (@kfree_sfree T) in Fl, Fr.
    destruct (Nat.eqb_spec t 0) as [->|NT].
    - destruct (Nat.eqb_spec s 1) as [->|NS]; [apply v_n_n_eq|apply v_n_0_eq]; auto.
    - destruct (Nat.eqb_spec s 0) as [->|NS].
      + destruct (Nat.eqb_spec t 1) as [->|]; [apply v_n_n_eq|apply v_0_n_eq]; auto.
      + destruct (Nat.eqb_spec s 1) as [->|], (Nat.eqb_spec t 1) as [->|]; cbn [andb]; apply v_n_n_eq; auto.
  Qed.
  Lemma vk_scalar_cases h lhs lsh ls c dst :
    length ls = length lsh -> 0 < prod lsh -> kfree lhs (offsets lsh ls) dst ->
    vk_scalar f k pf h lhs lsh ls c dst = k_scalar qf h lhs lsh ls c dst \/
    vk_scalar f k pf h lhs lsh ls c dst = k_scalar pf h lhs lsh ls c dst.
  Proof.
    intros L1 P F. unfold vk_scalar, k_scalar. destruct ls as [|s0 ls0]; [auto|].
    destruct (collapse lsh (s0 :: ls0)) as [sh str] eqn:C.
    destruct (last_of str) as [i| |] eqn:EI; cbn [bind]; [|auto..].
    destruct (length sh =? 1) eqn:D; [|now right]. left. apply len1 in D as (n & ->).
    pose proof (collapse_offsets _ _ _ _ (eq_sym L1) C) as (_ & LL & _). destruct str as [|s [|]]; try discriminate LL.
    cbv in EI. injection EI as <-. cbn [vget nth_error bind].
    destruct (collapse_last _ _ _ _ (eq_sym L1) C) as (O & ->). rewrite O in F. apply (@kfree_sfree T) in F.
    destruct (Nat.eqb_spec s 1) as [->|]; [apply v_n_n_eq|apply v_n_0_eq]; auto; apply sfree_val.
  Qed.

  Variable dflt : T.
  Lemma vnd_binary_cases (h : heap T) a b sh :
    valid h a -> valid h b -> join_shape (a_shape a) (a_shape b) sh -> 0 < prod sh ->
    vnd_binary f k pf dflt h a b = nd_binary qf dflt h a b \/ vnd_binary f k pf dflt h a b = nd_binary pf dflt h a b.
  Proof.
    intros [LA VA] [LB VB] J P. unfold vnd_binary, nd_binary.
    pose proof (proj2 (broadcast_shapes_ok_iff _ _ _) J) as ->. cbn [bind].
    destruct (broadcast_stride_ok _ _ _ LA (join_shape_broadcastable_l _ _ _ J)) as (ls & -> & LL & H1). cbn [bind].
    destruct (broadcast_stride_ok _ _ _ LB (join_shape_broadcastable_r _ _ _ J)) as (rs & -> & LR & H2). cbn [bind].
    unfold alloc. destruct (index_exists _ P) as (idx & R).
    destruct (H1 _ R) as [R1 _]. destruct (H2 _ R) as [R2 _].
    destruct (VA _ R1) as (x & E1). destruct (VB _ R2) as (y & E2). unfold get in E1, E2. apply load_lt in E1, E2.
    destruct (vk_binary_cases (h ++ [Some (repeat dflt (prod sh))]) (a_ptr a) ls (a_ptr b) rs (length h, 0) sh) as [-> | ->]; auto;
      apply kfree_other_block; cbn [fst a_ptr]; lia.
  Qed.
  Lemma vnd_binary_panic (h : heap T) a b :
    (exists k, ~ dim_compat (dim_r (a_shape a) k) (dim_r (a_shape b) k)) -> vnd_binary f k pf dflt h a b = Panic.
  Proof. intros H. unfold vnd_binary. now rewrite (proj2 (broadcast_shapes_panic_iff _ _) H). Qed.
  Lemma vnd_scalar_op_cases (h : heap T) a c : valid h a -> 0 < prod (a_shape a) ->
    vnd_scalar_op f k pf dflt h a c = nd_scalar_op qf dflt h a c \/ vnd_scalar_op f k pf dflt h a c = nd_scalar_op pf dflt h a c.
  Proof.
    intros V P. unfold vnd_scalar_op, nd_scalar_op, alloc. pose proof (valid_blk _ _ V P).
    destruct (vk_scalar_cases (h ++ [Some (repeat dflt (prod (a_shape a)))]) (a_ptr a) (a_shape a) (a_stride a) c (length h, 0)) as [-> | ->]; auto; [apply V|].
    apply kfree_other_block. cbn [fst a_ptr]. lia.
  Qed.

  Lemma vnd_assign_cases (h : heap T) a b :
    valid h a -> valid h b -> flags_ok a -> no_bcast (a_shape a) (a_stride a) ->
    f_contig (a_fl a) = true -> 0 < prod (a_shape a) ->
    broadcastable (a_shape b) (a_shape a) -> no_feedback a b ->
    vnd_assign f k pf h a b = nd_assign qf h a b \/ vnd_assign f k pf h a b = nd_assign pf h a b.
  Proof.
    intros VA VB F NB C P BR NF. unfold vnd_assign, nd_assign. destruct (f_write (a_fl a)); [|auto]. cbn [guard bind].
    assert (G : forall rs, length rs = length (a_shape a) ->
      (forall idx, in_range idx (a_shape a) -> in_range (bidx (a_shape b) idx) (a_shape b) /\ dot idx rs = dot (bidx (a_shape b) idx) (a_stride b)) ->
      vk_binary f k pf h (a_ptr a) (a_stride a) (a_ptr b) rs (a_ptr a) (a_shape a) = k_binary qf h (a_ptr a) (a_stride a) (a_ptr b) rs (a_ptr a) (a_shape a) \/
      vk_binary f k pf h (a_ptr a) (a_stride a) (a_ptr b) rs (a_ptr a) (a_shape a) = k_binary pf h (a_ptr a) (a_stride a) (a_ptr b) rs (a_ptr a) (a_shape a)).
    { intros rs LR HR. apply vk_binary_cases; auto; [apply VA|apply (kfree_self 1 (or_introl eq_refl)); auto; apply VA|].
      intros i j x LT E Q. apply nth_offsets in E as (J & ->). destruct (unrank_in_range j (a_shape a) J) as [R K].
      destruct (HR _ R) as [_ D]. rewrite D in Q. unfold padd, a_ptr in Q. cbn [fst snd] in Q.
      destruct (unrank_in_range i (a_shape a) ltac:(lia)) as [R2 K2].
      assert (rank (unrank j (a_shape a)) (a_shape a) <= rank (unrank i (a_shape a)) (a_shape a)).
      { apply NF; auto; [congruence|]. rewrite (contig_dot a _ (proj1 VA) F NB C R2), K2. congruence. }
      lia. }
    destruct (list_eqb (a_shape b) (a_shape a)) eqn:E.
    - apply G; apply list_eqb_spec in E.
      + rewrite <- E. apply VB.
      + intros idx R. rewrite <- E in *. rewrite bidx_same by exact R. auto.
    - destruct (broadcast_stride_ok _ _ _ (proj1 VB) BR) as (rs & ER & LR & HR).
      unfold nd_broadcast_to. rewrite (broadcast_shape_ok _ _ BR). cbn [bind]. rewrite ER. cbn [bind].
      cbn [a_ptr a_blk a_off a_stride]. now apply G.
  Qed.
  Lemma vnd_assign_scalar_cases (h : heap T) a c :
    valid h a -> flags_ok a -> no_bcast (a_shape a) (a_stride a) -> f_contig (a_fl a) = true -> 0 < prod (a_shape a) ->
    vnd_assign_scalar f k pf h a c = nd_assign_scalar qf h a c \/ vnd_assign_scalar f k pf h a c = nd_assign_scalar pf h a c.
  Proof.
    intros V F NB C P. unfold vnd_assign_scalar, nd_assign_scalar. destruct (f_write (a_fl a)); [|auto]. cbn [guard bind].
    apply vk_scalar_cases; auto; [apply V|]. apply (kfree_self 1 (or_introl eq_refl)); auto; apply V.
  Qed.
End Bin.

(** ** reductions *)
Section Red.
  Context {T : Type}.
  Variable lib : list T -> T.
  Variable g : T -> T -> res T.
  Lemma map_nth_all (xs : list T) d : map (fun i => nth i xs d) (seq 0 (length xs)) = xs.
  Proof. induction xs as [|x xs IH]; cbn [length seq map nth]; [reflexivity|]. f_equal. rewrite <- seq_shift, map_map. exact IH. Qed.
  Lemma mapM_pure {A B} (q : A -> B) l : mapM (fun i => Ok (q i)) l = Ok (map q l).
  Proof. induction l as [|x l IH]; cbn [mapM map]; [reflexivity|]. now rewrite IH. Qed.
  Lemma vdsp_red_at (h : heap T) p s xs d :
    (forall i, i < length xs -> ld h (padd p (i * s)) = Ok (nth i xs d)) -> vdsp_red lib h p (length xs) s = Ok (lib xs).
  Proof.
    intros R. unfold vdsp_red, vdsp_read. rewrite (mapM_ext _ (fun i => Ok (nth i xs d))).
    - rewrite mapM_pure. cbn [bind]. now rewrite map_nth_all.
    - intros i I. apply in_seq in I. cbn [src_add src_ld]. apply R. lia.
  Qed.
  Lemma vnd_reduce_cases dflt (h : heap T) a xs :
    valid h a -> no_bcast (a_shape a) (a_stride a) \/ has_uniform_stride (a_shape a) (a_stride a) = None ->
    length (a_shape a) <= MAX_DIMS -> elems h a = Ok xs ->
    vnd_reduce lib g dflt h a =
      if has_uniform_stride (a_shape a) (a_stride a) then nd_scalar h (lib xs) else (v <- foldM g xs dflt ;; nd_scalar h v).
  Proof.
    intros V D MD E.
    assert (LN : length xs = prod (a_shape a)) by (unfold elems in E; apply mapM_length in E; now rewrite indices_length in E).
    rewrite elems_offsets in E. unfold vnd_reduce, sk_reduce.
    destruct (has_uniform_stride (a_shape a) (a_stride a)) as [s|] eqn:U.
    - destruct D as [NB|]; [|discriminate].
      rewrite (has_uniform_spec _ _ _ (eq_sym (proj1 V)) NB U), mapM_map in E.
      assert (R : forall i, i < length xs -> ld h (padd (a_ptr a) (i * s)) = Ok (nth i xs dflt)).
      { intros i I. assert (NE : nth_error (seq 0 (prod (a_shape a))) i = Some i) by (rewrite nth_error_seq; [reflexivity|lia]).
        destruct (mapM_nth _ _ _ _ _ E NE) as (y & NY & ->).
        apply (nth_error_nth _ _ dflt) in NY. now rewrite NY. }
      rewrite <- LN. destruct (Nat.eqb_spec s 1) as [-> |_]; now rewrite (vdsp_red_at _ _ _ _ _ R).
    - rewrite fig_list_ok' by (try apply V; exact MD). cbn [bind].
      assert (H : forall i, In i (offsets (a_shape a) (a_stride a)) -> exists v, ld h (padd (a_ptr a) i) = Ok v).
      { intros i I. apply in_map_iff in I as (idx & <- & I). apply in_indices in I. exact (proj2 V idx I). }
      rewrite fold_idx_eq by exact H. now rewrite E.
  Qed.
End Red.
