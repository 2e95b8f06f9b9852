(** PropsProg.v: element access by any index list (C61), and programs made of array
    operations in any order (C62). *)
From Coq Require Import List Arith Lia Bool ZArith Permutation.
From Verif Require Import Base Spec Layout SpecFacts LayoutFacts Views ViewsFacts ViewsFacts2 ViewsFacts3 Kernels Access HeapFacts KernelFacts OpFacts
  AccessFacts Reduce ReduceFacts Chain ChainFacts Einsum EinsumFacts8 GradFacts Nested PropsViews PropsOps PropsReduce PropsEinsum PropsEinsumView PropsNew PropsWord PropsAssign Prog.
Import ListNotations.
Open Scope res_scope.

(** ** C61: a[[..]] and a[[..]] = v with an arbitrary list of indices *)
Lemma chain_extent b n a : chain b n false a -> a_off a + a_len a <= n.
Proof.
  intros C. pose proof (chain_inv _ _ _ _ C) as I. destruct (i_nb _ _ _ _ I eq_refl) as (P & NZ & D & [L|(CV & idx & R & L)]).
  - rewrite L. now apply (chain_run b).
  - pose proof (i_in _ _ _ _ I idx R). lia.
Qed.

Theorem C61_index : forall T (h : heap T) blk n a idx, live h blk n -> chain blk n false a ->
  (length idx <> length (a_shape a) \/ a_len a <= dot idx (a_stride a) -> nd_index h a idx = Panic) /\
  (length idx = length (a_shape a) -> dot idx (a_stride a) < a_len a ->
     exists v, nd_index h a idx = Ok v /\ load h blk (a_off a + dot idx (a_stride a)) = Ok v) /\
  (length (a_shape a) < length idx \/ a_len a <= dot idx (a_stride a) -> forall v, nd_index_set h a idx v = Panic) /\
  (length idx <= length (a_shape a) -> dot idx (a_stride a) < a_len a -> forall v,
     exists h', nd_index_set h a idx v = Ok h' /\ live h' blk n /\ load h' blk (a_off a + dot idx (a_stride a)) = Ok v /\
       same_elsewhere h h' (fun b o => b = blk /\ o = a_off a + dot idx (a_stride a))).
Proof.
  intros T h blk n a idx LV C. pose proof (chain_inv _ _ _ _ C) as I. pose proof (chain_extent _ _ _ C) as EX. pose proof (chain_size _ _ _ C) as SZ.
  unfold nd_index, nd_index_set. change (@index_offset idx (a_stride a)) with (dot idx (a_stride a)). cbv zeta. split; [|split; [|split]].
  - intros [N|N].
    + now rewrite (proj2 (Nat.eqb_neq _ _) N).
    + destruct (length idx =? length (a_shape a)); [|reflexivity]. cbn [guard bind]. now rewrite (proj2 (Nat.ltb_ge _ _) N).
  - intros L D. rewrite (proj2 (Nat.eqb_eq _ _) L), (proj2 (Nat.ltb_lt _ _) D). cbn [guard bind].
    unfold ld. cbn [padd a_ptr fst snd]. rewrite (i_blk _ _ _ _ I). destruct (live_load h blk n (a_off a + dot idx (a_stride a)) LV) as (v & V); [lia|]. eauto.
  - intros [N|N] v.
    + now rewrite (proj2 (Nat.leb_gt _ _) N).
    + destruct (length idx <=? length (a_shape a)); [|reflexivity]. cbn [guard bind]. now rewrite (proj2 (Nat.ltb_ge _ _) N).
  - intros L D v. rewrite (proj2 (Nat.leb_le _ _) L), (proj2 (Nat.ltb_lt _ _) D). cbn [guard bind]. unfold st. cbn [padd a_ptr fst snd]. rewrite (i_blk _ _ _ _ I).
    destruct (live_load h blk n (a_off a + dot idx (a_stride a)) LV) as (x & X); [lia|]. destruct (store_ok h blk _ v x X) as (h' & E). exists h'. split; [exact E|].
    split; [|split].
    + eapply same_cells_live; [| |exact LV]; [lia|]. eapply same_cells_store; eauto.
    + rewrite (load_store _ _ _ _ _ E), !Nat.eqb_refl. reflexivity.
    + split; [symmetry; eapply store_length; eauto|]. intros b o N. rewrite (load_store _ _ _ _ _ E).
      destruct (Nat.eqb_spec b blk) as [->|], (Nat.eqb_spec o (a_off a + dot idx (a_stride a))) as [->|]; cbn [andb]; auto. now destruct N.
Qed.
Print Assumptions C61_index.

(** a valid index gives the element or panics; which one depends on the recorded length *)
Theorem C61_index_valid : forall T (h : heap T) blk n a idx, live h blk n -> chain blk n false a -> in_range idx (a_shape a) ->
  nd_index h a idx = (if dot idx (a_stride a) <? a_len a then get h a idx else Panic) /\ exists v, get h a idx = Ok v.
Proof.
  intros T h blk n a idx LV C R. pose proof (C25_view_chains_live_partial _ h blk n false a LV C) as VA. split; [|now apply VA].
  destruct (Nat.ltb_spec (dot idx (a_stride a)) (a_len a)).
  - now apply nd_index_eq.
  - now apply nd_index_valid_panic.
Qed.
Print Assumptions C61_index_valid.

(** the transposed last two columns of a 2 x 3 array: three elements can be read, the fourth panics; an invalid index reads a cell between them *)
Definition two_columns : arr := Eval vm_compute in match nd_slice ex23 [IFull; IRange 1 3] with Ok a => a | _ => ex23 end.
Definition two_columns_t : arr := Eval vm_compute in match nd_transpose ByRef two_columns 0 1 with Ok a => a | _ => ex23 end.
Lemma two_columns_chain : chain 0 6 false two_columns /\ chain 0 6 false two_columns_t.
Proof.
  assert (C : chain 0 6 false two_columns).
  { eapply (Ch_slice 0 6 false ex23 [IFull; IRange 1 3]); [apply ex23_chain| |reflexivity]. vm_compute. repeat constructor. }
  split; [exact C|]. eapply (Ch_transpose 0 6 false two_columns ByRef 0 1); [exact C|reflexivity].
Qed.
Example C61_ex : chain 0 6 false two_columns_t /\ live exh 0 6 /\ elems exh two_columns_t = Ok [11; 14; 12; 15] /\
  nd_index exh two_columns_t [0; 0] = Ok 11 /\ nd_index exh two_columns_t [0; 1] = Ok 14 /\ nd_index exh two_columns_t [1; 0] = Ok 12 /\
  nd_index exh two_columns_t [1; 1] = Panic /\ nd_index exh two_columns_t [2; 0] = Ok 13.
Proof. split; [apply two_columns_chain|]. split; [apply exh_live|]. vm_compute. repeat split. Qed.

(** ** C62: programs (Prog.v) *)

(** what a program must respect: slices in range (C09), no reshape of a broadcast (C05),
    letters as subscripts (C55) *)
Definition view_allowed (o : vop) (a : arr) (bc : bool) : Prop :=
  match o with
  | VReshape _ _ => bc = false
  | VSlice ixs => slice_ok ixs (a_shape a)
  | VSliceAlong i ix => forall k, as_absolute i (length (a_shape a)) = Ok k -> pick_ok (region ix (nth k (a_shape a) 0)) (nth k (a_shape a) 0)
  | VEinsum sub out => Forall letter sub /\ Forall letter out
  | _ => True
  end.

Section Prog.
  Context {T : Type}.
  Variable zero one : T.
  Variable add mul : T -> T -> T.
  Variable eqb : T -> T -> bool.
  Local Notation exec := (exec zero one add mul eqb).
  Local Notation exec_all := (exec_all zero one add mul eqb).
  Local Notation cmd := (@cmd T).
  Local Notation state := (@state T).

  (** at most 32 axes and at least one element *)
  Definition usable (a : arr) : Prop := length (a_shape a) <= MAX_DIMS /\ 0 < prod (a_shape a).
  Definition on (s : state) (k : nat) (P : arr -> bool -> Prop) : Prop := forall a bc, nth_error (s_env s) k = Some (a, bc) -> P a bc.

  (** what programs must respect: fill, indexing and data_slice are not applied to broadcast
      arrays (C15 C16 C24), clone, flatten and whole-array reductions only to those without a
      contiguous or uniform flag (C17 C19); the operations on elements do not themselves leave
      memory; nested data is rectangular (C04); einsum requests are well formed (C28) *)
  Definition allowed (c : cmd) (s : state) : Prop :=
    match c with
    | CNew ks d => vecs_outside ks /\ ks <> [] /\ exists sh, typed ks d /\ rect sh d /\ length sh = length ks /\ 0 < prod sh
    | CFull _ _ => True
    | CView o k => on s k (fun a bc => view_allowed o a bc)
    | CBinary f k1 k2 => on s k1 (fun a _ => usable a) /\ on s k2 (fun a _ => usable a) /\ forall x y, f x y <> Oob
    | CScalarOp f k _ => on s k (fun a _ => usable a) /\ forall x y, f x y <> Oob
    | CUnary g k => on s k (fun a _ => usable a) /\ forall x, g x <> Oob
    | CAssign f k1 k2 => on s k1 (fun a _ => usable a) /\ forall x y, f x y <> Oob
    | CAssignScalar f k _ => on s k (fun a _ => usable a) /\ forall x y, f x y <> Oob
    | CFill k _ | CIndex k _ | CIndexSet k _ _ | CDataSlice k => on s k (fun _ bc => bc = false)
    | CValue k => True
    | CFlatiter k => on s k (fun a _ => usable a)
    | CEqual k1 k2 => on s k1 (fun a _ => usable a)
    | CClone k | CFlatten k => on s k (fun a bc => usable a /\ (bc = false \/ f_contig (a_fl a) = false))
    | CReduce g _ k => on s k (fun a bc => usable a /\ (bc = false \/ has_uniform_stride (a_shape a) (a_stride a) = None)) /\ forall x y, g x y <> Oob
    | CReduceAlong g _ k _ => on s k (fun a _ => usable a) /\ forall x y, g x y <> Oob
    | CTrace g k _ _ _ => on s k (fun a _ => usable a) /\ forall x y, g x y <> Oob
    | CDot k1 k2 | CMatmul k1 k2 | CBmm k1 k2 => on s k1 (fun a _ => usable a) /\ on s k2 (fun a _ => usable a)
    | CEinsum ks subs out => (forall k, In k ks -> on s k (fun a _ => usable a)) /\ length ks <= 15 /\
        Forall (Forall letter) subs /\ Forall letter out /\
        exists sm dm, NoDup (out ++ sm) /\ (forall l, In l (out ++ sm) <-> exists s, In s subs /\ In l s) /\
          out ++ sm <> [] /\ length (out ++ sm) <= 32 /\ Forall2 (fun sub k => on s k (fun a _ => a_shape a = map dm sub)) subs ks
    end.

  (** the program respects this at every point it reaches *)
  Fixpoint all_allowed (cs : list cmd) (s : state) : Prop :=
    match cs with [] => True | c :: cs' => allowed c s /\ forall s', exec c s = Ok s' -> all_allowed cs' s' end.

  (** every array lies in a live block *)
  Definition sound (s : state) : Prop :=
    Forall (fun p => exists n, live (s_heap s) (a_blk (fst p)) n /\ chain (a_blk (fst p)) n (snd p) (fst p)) (s_env s).

  Lemma chain_blk b n bc a : chain b n bc a -> a_blk a = b.
  Proof. intros C. exact (i_blk _ _ _ _ (chain_inv _ _ _ _ C)). Qed.
  Lemma chain_n b n bc a : chain b n bc a -> 0 < n.
  Proof. induction 1; auto. Qed.

  Lemma live_loads (h h' : heap T) b n : 0 < n -> (forall o, (exists v, load h b o = Ok v) <-> exists v, load h' b o = Ok v) -> live h b n -> live h' b n.
  Proof.
    intros P S (l & E & L). assert (G : forall o, (exists v, load h' b o = Ok v) <-> o < n).
    { intros o. rewrite <- S. unfold load. rewrite E. rewrite <- L, <- nth_error_Some. destruct (nth_error l o); split; intros H; try congruence; [eauto|destruct H; discriminate]. }
    destruct (proj2 (G 0) P) as (v & V). unfold load in V. destruct (nth_error h' b) as [[l'|]|] eqn:E'; try discriminate. exists l'. split; [exact E'|].
    assert (G' : forall o, o < length l' <-> o < n).
    { intros o. rewrite <- G. unfold load. rewrite E'. rewrite <- nth_error_Some. destruct (nth_error l' o); split; intros H; try congruence; [eauto|destruct H; discriminate]. }
    pose proof (G' n). pose proof (G' (length l')). lia.
  Qed.
  Lemma live_lt (h : heap T) b n : live h b n -> b < length h.
  Proof. intros (l & E & _). apply nth_error_Some. congruence. Qed.

  Lemma sound_made s h' r sh val : sound s -> fresh_result (s_heap s) h' r sh val -> sound (mkState h' (s_env s ++ [(r, false)]) (s_out s)).
  Proof.
    intros S ([LE X] & B & _ & _ & C & LV & _). apply Forall_app. split; [|constructor; [|constructor]].
    - eapply Forall_impl; [|exact S]. intros p (n & L & Ch). exists n. split; [|exact Ch]. cbn [s_heap].
      pose proof (live_lt _ _ _ L). eapply live_loads; [eapply chain_n; eauto| |exact L]. intros o. now rewrite X.
    - cbn [fst snd s_heap]. replace (a_blk r) with (length (s_heap s)) by now rewrite B. eauto.
  Qed.

  Lemma sound_cells s h' : sound s -> same_cells (s_heap s) h' -> sound (mkState h' (s_env s) (s_out s)).
  Proof.
    intros S SC. eapply Forall_impl; [|exact S]. intros p (n & L & Ch). exists n. split; [|exact Ch]. cbn [s_heap].
    eapply same_cells_live; eauto. eapply chain_n; eauto.
  Qed.

  Lemma live_same_cells (h h' : heap T) b n P : live h b n -> live h' b n -> same_elsewhere h h' P -> (forall b' o, P b' o -> b' = b) -> same_cells h h'.
  Proof.
    intros (l & E & L) (l' & E' & L') [LH SE] PB. split; [symmetry; congruence|]. intros b' o. destruct (Nat.eq_dec b' b) as [->|N].
    - unfold load. rewrite E, E'. assert (Q : nth_error l o = None <-> nth_error l' o = None) by (rewrite !nth_error_None; lia).
      destruct (nth_error l o), (nth_error l' o); split; intros [? ?]; eauto; try discriminate; exfalso; destruct Q as [Q1 Q2]; (discriminate (Q1 eq_refl) || discriminate (Q2 eq_refl)).
    - rewrite SE; [tauto|]. intros Q. now apply PB in Q.
  Qed.

  Lemma sound_arr s k a bc : sound s -> nth_error (s_env s) k = Some (a, bc) -> exists n, live (s_heap s) (a_blk a) n /\ chain (a_blk a) n bc a.
  Proof. intros S N. apply nth_error_In in N. now apply (proj1 (Forall_forall _ _) S) in N. Qed.

  Lemma noob_as_absolute i n : noob (as_absolute i n).
  Proof. unfold as_absolute. nb. Qed.
  Lemma noob_vinsert {A} (l : list A) : forall i x, noob (vinsert l i x).
  Proof. induction l; intros [|i] x; cbn [vinsert]; nb. Qed.
  Lemma noob_vremove {A} (l : list A) : forall i, noob (vremove l i).
  Proof. induction l; intros [|i]; cbn [vremove]; nb. Qed.
  Lemma noob_vswap {A} (l : list A) i j : noob (vswap l i j).
  Proof. unfold vswap. nb. Qed.
  Lemma noob_indexed_length ix n : noob (indexed_length ix n).
  Proof. destruct ix; cbn [indexed_length]; nb. Qed.
  Lemma noob_slice_go ixs : forall sh st, noob (slice_go ixs sh st).
  Proof. induction ixs as [|ix ixs IH]; intros [|n sh] [|x st]; cbn [slice_go]; nb. apply noob_indexed_length. Qed.
  Lemma noob_strided_len sh st : noob (strided_len sh st).
  Proof. unfold strided_len. apply noob_bind; [|intros; apply noob_Ok]. revert st. induction sh as [|n sh IH]; intros [|x st]; cbn [strided_len_sum]; nb. Qed.
  Lemma noob_bstride_go : forall osh bsh st, noob (bstride_go st bsh osh).
  Proof. induction osh as [|n osh IH]; intros [|m bsh] [|x st]; cbn [bstride_go]; nb. Qed.

  Lemma view_by_noob o a : view_by o a <> Oob.
  Proof.
    change (noob (view_by o a)). destruct o; cbn [view_by].
    1,4: apply noob_Ok.
    7: apply view_noob.
    all: apply noob_bind; [|intros; apply noob_Ok].
    - unfold nd_reshape. nb.
    - unfold nd_transpose. repeat (apply noob_bind; [first [apply noob_as_absolute|apply noob_vswap]|intros]). nb.
    - unfold nd_unsqueeze. apply noob_bind; [apply noob_as_absolute|intros ax]. destruct (_ =? _); [apply noob_Ok|].
      apply noob_bind; [apply noob_vinsert|intros]. apply noob_bind; [nb|intros]. apply noob_bind; [nb|intros]. apply noob_bind; [apply noob_vinsert|intros]. nb.
    - unfold nd_slice. apply noob_bind; [apply noob_slice_go|intros [[? ?] ?]]. apply noob_bind; [apply noob_strided_len|intros]. nb.
    - unfold nd_slice_along. apply noob_bind; [apply noob_as_absolute|intros ax]. apply noob_bind; [nb|intros]. apply noob_bind; [nb|intros].
      apply noob_bind; [destruct (index_collapses ix)|intros [? ?]; apply noob_bind; [apply noob_strided_len|intros; nb]].
      + apply noob_bind; [apply noob_vremove|intros]. apply noob_bind; [apply noob_vremove|intros]. nb.
      + apply noob_bind; [apply noob_indexed_length|intros]. nb.
    - unfold nd_offset_diagonal_along. apply noob_bind; [nb|intros]. apply noob_bind; [apply noob_as_absolute|intros]. apply noob_bind; [apply noob_as_absolute|intros]. nb.
    - unfold nd_broadcast_to, broadcast_shape, broadcast_stride. apply noob_bind; [nb|intros]. apply noob_bind; [|intros; apply noob_Ok].
      destruct (_ <? _); [apply noob_Panic|]. apply noob_bind; [apply noob_bstride_go|intros; apply noob_Ok].
  Qed.

  Lemma view_by_chain b n bc a o r : chain b n bc a -> view_allowed o a bc -> view_by o a = Ok (Some r) -> chain b n (bc || marks o) r.
  Proof.
    intros C A E. destruct o; cbn [view_by view_allowed marks] in *; rewrite ?orb_false_r, ?orb_true_r;
      try (apply bind_Ok_inv in E as (r' & E & [= <-])).
    - injection E as <-. now apply Ch_view.
    - subst bc. eapply Ch_reshape; eauto.
    - eapply Ch_transpose; eauto.
    - injection E as <-. now apply Ch_squeeze.
    - eapply Ch_unsqueeze; eauto.
    - eapply Ch_slice; eauto.
    - assert (K : exists k, as_absolute i (length (a_shape a)) = Ok k).
      { unfold nd_slice_along in E. apply bind_Ok_inv in E as (k & K & _). eauto. }
      destruct K as (k & K). eapply Ch_slice_along; eauto.
    - eapply Ch_diagonal; eauto.
    - destruct A. now apply (Ch_einsum b n bc a sub out r).
    - eapply Ch_broadcast; eauto.
  Qed.

  (** a command whose result is a new array or a changed heap *)
  Definition good_out (s : state) (r : res state) : Prop := r <> Oob /\ forall s', r = Ok s' -> sound s'.

  Lemma good_made s p : sound s -> p <> Oob -> (forall h' r, p = Ok (h', r) -> exists sh val, fresh_result (s_heap s) h' r sh val) -> good_out s (made s p).
  Proof.
    intros S NO F. destruct p as [[h' r]| |]; cbn [made bind fst snd]; split; try discriminate; [|now destruct NO].
    intros s' [= <-]. destruct (F h' r eq_refl) as (sh & val & FR). eapply sound_made; eauto.
  Qed.
  Lemma good_stored s p : sound s -> p <> Oob -> (forall h', p = Ok h' -> same_cells (s_heap s) h') -> good_out s (stored s p).
  Proof.
    intros S NO F. destruct p as [h'| |]; cbn [stored bind]; split; try discriminate; [|now destruct NO]. intros s' [= <-]. now apply sound_cells; auto.
  Qed.
  Lemma good_read {A} show s (p : res A) : sound s -> p <> Oob -> good_out s (only_read show s p).
  Proof. intros S NO. destruct p; cbn [only_read bind]; split; try discriminate; [|now destruct NO]. now intros s' [= <-]. Qed.
  Lemma good_arr s k (f : arr * bool -> res state) :
    (forall a bc, nth_error (s_env s) k = Some (a, bc) -> good_out s (f (a, bc))) -> good_out s (p <- nth_arr s k ;; f p).
  Proof. intros H. unfold nth_arr. destruct (nth_error (s_env s) k) as [[a bc]|]; cbn [bind]; [now apply H|]. split; discriminate. Qed.

  (** the computation of one element of the result returns or panics *)
  Lemma all_or_one (val : list nat -> res T) sh : (forall idx, in_range idx sh -> val idx <> Oob) ->
    (forall idx, in_range idx sh -> exists v, val idx = Ok v) \/ exists idx, in_range idx sh /\ val idx = Panic.
  Proof.
    intros NO. assert (D : forall l, (forall idx, In idx l -> val idx <> Oob) -> (forall idx, In idx l -> exists v, val idx = Ok v) \/ exists idx, In idx l /\ val idx = Panic).
    { induction l as [|idx l IH]; intros N; [left; intros ? []|]. destruct IH as [H|(i & I & P)]; [intros; apply N; now right| |right; exists i; split; [now right|auto]].
      destruct (val idx) as [v| |] eqn:E; [|right; exists idx; split; [now left|auto]|now destruct (N idx (or_introl eq_refl))].
      left. intros i [<-|I]; eauto. }
    destruct (D (indices sh)) as [H|(idx & I & P)].
    - intros idx I. apply NO. now apply in_indices.
    - left. intros idx R. apply H. now apply in_indices.
    - right. exists idx. split; [now apply in_indices|auto].
  Qed.

  (** panics, or returns a new array *)
  Definition fop (h : heap T) (p : res (heap T * arr)) : Prop := p = Panic \/ exists h' r sh val, p = Ok (h', r) /\ fresh_result h h' r sh val.
  Lemma good_fop s p : sound s -> fop (s_heap s) p -> good_out s (made s p).
  Proof.
    intros S [->|(h' & r & sh & val & -> & F)]; apply good_made; auto; try discriminate. intros h2 r2 E. assert (h2 = h' /\ r2 = r) as [-> ->] by (split; congruence). eauto.
  Qed.
  Lemma fop_of (h : heap T) (p : res (heap T * arr)) sh val :
    ((forall idx, in_range idx sh -> exists v, val idx = Ok v) -> exists h' r, p = Ok (h', r) /\ fresh_result h h' r sh val) ->
    ((exists idx, in_range idx sh /\ val idx = Panic) -> p = Panic) -> (forall idx, in_range idx sh -> val idx <> Oob) -> fop h p.
  Proof.
    intros H1 H2 NO. destruct (all_or_one val sh NO) as [A|A]; [right|left; auto]. destruct (H1 A) as (h' & r & E & F). eauto 6.
  Qed.

  Lemma get_then (h : heap T) a idx (g : T -> res T) : valid h a -> in_range idx (a_shape a) -> (forall x, g x <> Oob) -> (x <- get h a idx ;; g x) <> Oob.
  Proof. intros [_ V] R NO. destruct (V idx R) as (v & ->). apply NO. Qed.

  Lemma binary_fop (h : heap T) f a b : valid h a -> valid h b -> usable a -> usable b -> (forall x y, f x y <> Oob) -> fop h (nd_binary f zero h a b).
  Proof.
    intros Va Vb [Da Pa] [Db Pb] NO. destruct (C11_broadcast_shapes (a_shape a) (a_shape b)) as (J1 & J2 & _).
    destruct (broadcast_shapes (a_shape a) (a_shape b)) as [sh| |] eqn:E.
    - pose proof (proj1 (J1 sh) eq_refl) as J. pose proof J as [L _].
      assert (PS : 0 < prod sh) by (apply pos_prod; eapply join_shape_pos; [exact J|apply pos_prod; exact Pa|apply pos_prod; exact Pb]).
      destruct (C12_binary T f zero h a b sh Va Vb J ltac:(lia) PS) as [K1 K2]. eapply fop_of; [exact K1|auto|].
      intros idx R. destruct (valid_get_bidx h a sh idx Va (join_shape_broadcastable_l _ _ _ J) R) as (x & ->).
      destruct (valid_get_bidx h b sh idx Vb (join_shape_broadcastable_r _ _ _ J) R) as (y & ->). apply NO.
    - left. apply C12_incompatible_shapes_panic. now apply J2.
    - exfalso. revert E. change (noob (broadcast_shapes (a_shape a) (a_shape b))).
      assert (G : forall s1 s2, noob (bshapes_go s1 s2)) by (induction s1; intros [|? ?]; cbn [bshapes_go]; nb).
      unfold broadcast_shapes, pad. destruct (_ <? _); apply noob_bind; try (intros; apply G); nb.
  Qed.

  Lemma reduce_along_fop (h : heap T) g d a axes : valid h a -> usable a -> (forall x y, g x y <> Oob) -> fop h (nd_reduce_along g d h a axes).
  Proof.
    intros V [D P] NO. set (nd := length (a_shape a)).
    assert (DEC : (axes_in nd axes /\ NoDup (axes_of nd axes)) \/ (~ axes_in nd axes \/ ~ NoDup (axes_of nd axes))).
    { destruct (ListDec.NoDup_dec Nat.eq_dec (axes_of nd axes)) as [N|N]; [|auto].
      destruct (Forall_dec (fun k => - Z.of_nat nd <= k < Z.of_nat nd)%Z) with (l := axes) as [A|A]; [|auto|auto].
      intros k. destruct (Z_le_dec (- Z.of_nat nd) k), (Z_lt_dec k (Z.of_nat nd)); [left|right|right|right]; lia. }
    destruct DEC as [[A N]|B]; [|left; now apply C20_bad_axes_panic].
    destruct (C20_reduce_along T g h a d axes V D P A N) as [K1 K2]. eapply fop_of; [exact K1|auto|].
    intros o R. assert (M : exists vs, mapM (get h a) (fibre (axes_of nd axes) (a_shape a) o) = Ok vs).
    { apply mapM_Ok. intros idx I. apply V. unfold fibre in I. apply filter_In in I as [I _]. now apply in_indices. }
    destruct M as (vs & M). unfold nd in M. cbv beta zeta. rewrite M. cbn [bind]. clear M. generalize d. induction vs as [|x vs IH]; intros acc; cbn [foldM]; [discriminate|].
    pose proof (NO x acc). destruct (g x acc); cbn [bind]; try easy.
  Qed.

  Lemma zero_in_range sh : 0 < prod sh -> in_range (repeat 0 (length sh)) sh.
  Proof. intros P. apply pos_prod in P. induction P; cbn [length repeat]; constructor; auto. Qed.

  Lemma holds_of (h : heap T) a : valid h a -> holds h a (fun idx => match get h a idx with Ok v => v | _ => zero end).
  Proof. intros [W V]. split; [exact W|]. intros idx R. destruct (V idx R) as (v & ->). reflexivity. Qed.

  (** products of arrays are characterised over commutative semirings; other commands over any type *)
  Definition ring_ok (c : cmd) : Prop :=
    match c with CDot _ _ | CMatmul _ _ | CBmm _ _ | CEinsum _ _ _ => is_csr zero one add mul | _ => True end.

  Lemma dot_fop (CSR : is_csr zero one add mul) (h : heap T) a b : valid h a -> valid h b -> usable a -> fop h (nd_dot zero (okadd add) (okadd mul) h a b).
  Proof.
    intros Va Vb [_ P]. destruct (C26_mismatch_panics T zero one (okadd add) (okadd mul) (okfma add mul) h a b) as (M & _).
    destruct (a_shape a) as [|n [|? ?]] eqn:Sa; [left; apply M; left; discriminate| |left; apply M; left; discriminate].
    destruct (a_shape b) as [|n' [|? ?]] eqn:Sb; [left; apply M; right; left; discriminate| |left; apply M; right; left; discriminate].
    destruct (Nat.eq_dec n n') as [<-|N]; [|left; apply M; right; right; congruence].
    assert (PN : 0 < n) by (cbn in P; lia).
    destruct (C26_dot T zero one add mul CSR h a b _ _ n Sa Sb PN (holds_of h a Va) (holds_of h b Vb)) as (h' & r & E & F). right. eauto 6.
  Qed.

  Lemma matmul_fop (CSR : is_csr zero one add mul) (h : heap T) a b : valid h a -> valid h b -> usable a -> usable b ->
    fop h (nd_matmul zero one (okadd add) (okadd mul) (okfma add mul) h a b).
  Proof.
    intros Va Vb Ua Ub. destruct (C26_mismatch_panics T zero one (okadd add) (okadd mul) (okfma add mul) h a b) as (_ & M & _).
    pose proof (dot_fop CSR h a b Va Vb Ua) as DF. destruct Ua as [_ Pa], Ub as [_ Pb].
    destruct (a_shape a) as [|n [|k [|? ?]]] eqn:Sa; try (left; apply M; exact I).
    - destruct (a_shape b) as [|n' [|? ?]] eqn:Sb; try (left; apply M; exact I). unfold nd_matmul. rewrite Sa, Sb. exact DF.
    - destruct (a_shape b) as [|k' [|m [|? ?]]] eqn:Sb; try (left; apply M; exact I).
      + destruct (Nat.eq_dec k k') as [<-|N]; [|left; now apply M]. cbn in Pa, Pb.
        destruct (C26_matvec T zero one add mul CSR h a b _ _ n k Sa Sb ltac:(nia) ltac:(nia) (holds_of h a Va) (holds_of h b Vb)) as (h' & r & E & F). right. eauto 6.
      + destruct (Nat.eq_dec k k') as [<-|N]; [|left; now apply M]. cbn in Pa, Pb.
        destruct (C26_matmul T zero one add mul CSR h a b _ _ n k m Sa Sb ltac:(nia) ltac:(nia) ltac:(nia) (holds_of h a Va) (holds_of h b Vb)) as (h' & r & E & F). right. eauto 6.
  Qed.

  Lemma bmm_fop (CSR : is_csr zero one add mul) (h : heap T) a b : valid h a -> valid h b -> usable a -> usable b ->
    fop h (nd_bmm zero one (okadd add) (okadd mul) (okfma add mul) h a b).
  Proof.
    intros Va Vb [_ Pa] [_ Pb]. destruct (C26_mismatch_panics T zero one (okadd add) (okadd mul) (okfma add mul) h a b) as (_ & _ & M).
    destruct (a_shape a) as [|q [|n [|k [|? ?]]]] eqn:Sa; try (left; apply M; exact I).
    destruct (a_shape b) as [|q' [|k' [|m [|? ?]]]] eqn:Sb; try (left; apply M; exact I).
    destruct (Nat.eq_dec q q') as [<-|N]; [|left; now apply M]. cbn in Pa, Pb.
    assert (0 < q /\ 0 < n /\ 0 < k) as (Q & N & K) by (split; [|split]; destruct q, n, k; lia).
    assert (0 < k' /\ 0 < m) as (K' & M') by (split; destruct k', m; lia).
    destruct (Nat.eq_dec k k') as [<-|NK].
    - destruct (C26_bmm T zero one add mul CSR h a b _ _ q n k m Sa Sb Q N K M' (holds_of h a Va) (holds_of h b Vb)) as (h' & r & E & F). right. eauto 6.
    - left. destruct Va as [La _], Vb as [Lb _]. eapply C26_bmm_inner_mismatch_panics; eauto; [rewrite La, Sa|rewrite Lb, Sb]; reflexivity.
  Qed.

  Lemma diagonal_usable b n bc a o i j r : chain b n bc a -> usable a -> nd_offset_diagonal_along a o i j = Ok r -> usable r.
  Proof.
    intros C U E.
    destruct (diagonal_inv_args _ _ _ _ _ (i_wf _ _ _ _ (chain_inv _ _ _ _ C)) E) as (x & y & Ex & Ey & N & O1 & O2 & _ & _ & _ & SH).
    destruct U as [D P]. apply pos_prod in P. pose proof (proj1 (pos_nz _) P) as NZ.
    assert (AX : forall z k, as_absolute z (length (a_shape a)) = Ok k -> k < length (a_shape a)).
    { intros z k Ez. unfold as_absolute in Ez. destruct (_ || _)%Z eqn:Q; [discriminate|]. injection Ez as <-. apply orb_false_iff in Q as [Q1 Q2]. 
      apply Z.ltb_ge in Q1. rewrite Z.geb_leb in Q2. apply Z.leb_gt in Q2. destruct (z <? 0)%Z eqn:Q3; [apply Z.ltb_lt in Q3|apply Z.ltb_ge in Q3]; lia. }
    pose proof (AX _ _ Ex) as Lx. pose proof (AX _ _ Ey) as Ly. pose proof (nz_nth _ _ NZ Lx) as Nx. pose proof (nz_nth _ _ NZ Ly) as Ny.
    split.
    * assert (LL : length (a_shape r) <= length (a_shape a)); [|lia]. rewrite SH, app_length. cbn [length].
      assert (DL : forall l p, p <= x < p + length l -> length (drop_two p x y l) < length l); [|specialize (DL (a_shape a) 0 ltac:(lia)); lia].
      clear. assert (W : forall l p, length (drop_two p x y l) <= length l).
      { induction l as [|? l IH]; intros p; cbn [drop_two length]; [lia|]. specialize (IH (S p)). destruct (_ || _); cbn [length]; lia. }
      induction l as [|? l IH]; intros p H; cbn [drop_two length] in *; [lia|]. destruct (Nat.eqb_spec p x) as [->|]; cbn [orb].
      -- specialize (W l (S x)). lia.
      -- specialize (IH (S p) ltac:(lia)). destruct (p =? y); cbn [length]; lia.
    * rewrite SH. apply pos_prod, pos_nz. apply nz_app; [apply nz_drop, NZ|]. constructor; [|constructor]. destruct (Z_le_dec 0 o) as [Q|Q].
      -- specialize (O1 Q). lia.
      -- specialize (O2 ltac:(lia)). lia.
  Qed.
  Lemma trace_fop (h : heap T) g b n bc a o i j : live h b n -> chain b n bc a -> usable a -> (forall x y, g x y <> Oob) -> fop h (nd_trace zero g h a o i j).
  Proof.
    intros LV C U NO. unfold nd_trace. destruct (nd_offset_diagonal_along a o i j) as [r| |] eqn:E; cbn [bind]; [|now left|].
    - pose proof (Ch_diagonal _ _ _ _ _ _ _ _ C E) as CR. apply reduce_along_fop; auto.
      + eapply C25_view_chains_live_partial; eauto.
      + exact (diagonal_usable _ _ _ _ _ _ _ _ C U E).
    - exfalso. exact (view_by_noob (VDiagonal o i j) a ltac:(cbn [view_by]; now rewrite E)).
  Qed.

  Lemma full_fop (h : heap T) x sh : fop h (nd_full h x sh).
  Proof.
    destruct (Nat.eq_dec (prod sh) 0) as [Z|Z]; [left; unfold nd_full; now rewrite repeat_length, Z|]. right.
    assert (M : mapM (fun _ : list nat => Ok x) (indices sh) = Ok (repeat x (prod sh))).
    { rewrite <- indices_length. generalize (indices sh). induction l as [|? l IH]; cbn [mapM]; [reflexivity|]. rewrite IH. reflexivity. }
    pose proof (fresh_result_of h sh _ _ ltac:(lia) M) as F. exists (h ++ [Some (repeat x (prod sh))]), (fresh_arr (length h) (prod sh) sh), sh, (fun _ => Ok x).
    split; [|exact F]. unfold nd_full. rewrite repeat_length. destruct (Nat.eqb_spec (prod sh) 0); [contradiction|]. cbn [negb guard bind]. unfold from_buffer. now rewrite repeat_length.
  Qed.

  Lemma scalar_op_fop (h : heap T) f a c : valid h a -> usable a -> (forall x y, f x y <> Oob) -> fop h (nd_scalar_op f zero h a c).
  Proof.
    intros V [D P] NO. destruct (C13_scalar_op T f zero h a c V D P) as [K1 K2]. eapply fop_of; [exact K1|auto|].
    intros idx R. apply get_then; auto.
  Qed.
  Lemma unary_fop (h : heap T) g a : valid h a -> usable a -> (forall x, g x <> Oob) -> fop h (nd_unary g zero h a).
  Proof.
    intros V [D P] NO. destruct (C13_negation T g zero h a V D P) as [K1 K2]. eapply fop_of; [exact K1|auto|].
    intros idx R. apply get_then; auto.
  Qed.

  Lemma foldM_noob (g : T -> T -> res T) vs : (forall x y, g x y <> Oob) -> forall acc, foldM g vs acc <> Oob.
  Proof.
    intros NO. induction vs as [|x vs IH]; intros acc; cbn [foldM]; [discriminate|]. pose proof (NO x acc). destruct (g x acc); cbn [bind]; try easy.
  Qed.
  Lemma reduce_fop (h : heap T) g d b n a : live h b n -> chain b n false a \/ (chain b n true a /\ has_uniform_stride (a_shape a) (a_stride a) = None) -> usable a -> (forall x y, g x y <> Oob) -> fop h (nd_reduce g d h a).
  Proof.
    intros LV C [D P] NO. destruct (C19_fold_partial T g h b n a d LV C D) as (vs & E & F1 & F2).
    pose proof (foldM_noob g vs NO d) as N. destruct (foldM g vs d) as [v| |] eqn:Q; [|left; auto|easy].
    destruct (F1 v eq_refl) as (h' & r & ? & ?). right. eauto 6.
  Qed.

  Lemma Forall2_dec' {A B} (P : A -> B -> Prop) : (forall x y, {P x y} + {~ P x y}) -> forall l m, {Forall2 P l m} + {~ Forall2 P l m}.
  Proof.
    intros D. induction l as [|x l IH]; intros [|y m]; try (right; intros H; inversion H; fail); [left; constructor|].
    destruct (D x y) as [p|p]; [|right; intros H; inversion H; auto]. destruct (IH m) as [q|q]; [left; now constructor|right; intros H; inversion H; auto].
  Qed.
  Lemma broadcastable_dec sh t : {broadcastable sh t} + {~ broadcastable sh t}.
  Proof.
    unfold broadcastable. destruct (le_dec (length sh) (length t)) as [L|L]; [|right; tauto].
    destruct (Forall2_dec' (fun n m => n = 1 \/ n = m)) with (l := sh) (m := skipn (length t - length sh) t) as [F|F]; [|left|right]; try tauto.
    intros x y. destruct (Nat.eq_dec x 1), (Nat.eq_dec x y); auto. right. tauto.
  Qed.

  (** panics, or keeps every cell *)
  Definition sop (h : heap T) (p : res (heap T)) : Prop := p <> Oob /\ forall h', p = Ok h' -> same_cells h h'.
  Lemma good_sop s p : sound s -> sop (s_heap s) p -> good_out s (stored s p).
  Proof. intros S [N C]. now apply good_stored. Qed.

  Lemma assign_sop (h : heap T) f b n bc a c : live h b n -> chain b n bc a -> valid h c -> usable a -> (forall x y, f x y <> Oob) -> sop h (nd_assign f h a c).
  Proof.
    intros LV C V [D P] NO. destruct bc.
    - destruct (C15_assign_readonly_partial T f h b n a C) as [-> _]. split; discriminate.
    - destruct (broadcastable_dec (a_shape c) (a_shape a)) as [B|B]; [|rewrite C14_assign_shape_panics by exact B; split; discriminate].
      destruct (C60_assign_safe T f h b n a c LV C V B D NO) as (N & _ & K). split; [exact N|]. intros h' E. destruct (K h' E) as (L' & _ & _ & SE).
      eapply live_same_cells; eauto. intros b' o [-> _]. eapply chain_blk; eauto.
  Qed.
  Lemma assign_scalar_sop (h : heap T) f b n bc a c : live h b n -> chain b n bc a -> usable a -> (forall x y, f x y <> Oob) -> sop h (nd_assign_scalar f h a c).
  Proof.
    intros LV C [D P] NO. destruct bc.
    - destruct (C15_assign_readonly_partial T f h b n a C) as [_ ->]. split; discriminate.
    - destruct (C60_assign_scalar_safe T f h b n a c LV C D NO) as (N & _ & K). split; [exact N|]. intros h' E. destruct (K h' E) as (L' & _ & SE).
      eapply live_same_cells; eauto. intros b' o [-> _]. eapply chain_blk; eauto.
  Qed.
  Lemma fill_sop (h : heap T) b n a v : live h b n -> chain b n false a -> sop h (nd_fill h a v).
  Proof.
    intros LV C. destruct (C16_fill_partial T h b n a v LV C) as (h' & E & G & SE). rewrite E. split; [discriminate|]. intros h2 [= <-].
    pose proof (chain_valid _ _ _ _ _ LV C) as V. split; [apply SE|]. intros b' o.
    destruct (Nat.eq_dec b' (a_blk a)) as [->|N]; [|rewrite (proj2 SE); [tauto|]; intros (? & _ & Q & _); congruence].
    destruct (in_dec Nat.eq_dec o (map (fun idx => a_off a + dot idx (a_stride a)) (indices (a_shape a)))) as [I|I].
    - apply in_map_iff in I as (idx & <- & I). apply in_indices in I. specialize (G idx I). destruct V as [_ V]. destruct (V idx I) as (x & X). unfold get in *. split; eauto.
    - rewrite (proj2 SE); [tauto|]. intros Q. apply I. apply in_map_iff. destruct Q as (idx & R & _ & Q). exists idx. split; [symmetry; exact Q|]. now apply in_indices.
  Qed.
  Lemma index_set_sop (h : heap T) b n a idx v : live h b n -> chain b n false a -> sop h (nd_index_set h a idx v).
  Proof.
    intros LV C. destruct (C61_index T h b n a idx LV C) as (_ & _ & K1 & K2).
    destruct (le_lt_dec (length idx) (length (a_shape a))) as [L|L]; [|rewrite K1 by auto; split; discriminate].
    destruct (lt_dec (dot idx (a_stride a)) (a_len a)) as [L2|L2]; [|rewrite K1 by (right; lia); split; discriminate].
    destruct (K2 L L2 v) as (h' & E & L' & _ & SE). rewrite E. split; [discriminate|]. intros h2 [= <-].
    eapply live_same_cells; eauto. now intros b' o [-> _].
  Qed.
  Lemma index_noob (h : heap T) b n a idx : live h b n -> chain b n false a -> nd_index h a idx <> Oob.
  Proof.
    intros LV C. destruct (C61_index T h b n a idx LV C) as (K1 & K2 & _).
    destruct (Nat.eq_dec (length idx) (length (a_shape a))) as [L|L]; [|rewrite K1 by auto; discriminate].
    destruct (lt_dec (dot idx (a_stride a)) (a_len a)) as [L2|L2]; [|rewrite K1 by (right; lia); discriminate].
    destruct (K2 L L2) as (v & -> & _). discriminate.
  Qed.
  Lemma value_noob (h : heap T) a : valid h a -> nd_value h a <> Oob.
  Proof.
    intros [W V]. destruct (C23_value T h a) as [K1 K2]. destruct (Nat.eq_dec (prod (a_shape a)) 1) as [E|E]; [|rewrite K2 by auto; discriminate].
    rewrite K1 by auto. destruct (V _ (zero_in_range (a_shape a) ltac:(lia))) as (v & ->). discriminate.
  Qed.
  Lemma elems_noob (h : heap T) a : valid h a -> elems h a <> Oob.
  Proof.
    intros [W V]. unfold elems. destruct (mapM_Ok (get h a) (indices (a_shape a))) as (vs & ->); [|discriminate]. intros idx I. apply V. now apply in_indices.
  Qed.

  Lemma einsum_fop (CSR : is_csr zero one add mul) s ks subs out (l : list (arr * bool)) : sound s -> mapM (nth_arr s) ks = Ok l -> allowed (CEinsum ks subs out) s ->
    fop (s_heap s) (nd_einsum zero one (okadd add) (okadd mul) (okfma add mul) (s_heap s) (map fst l) subs out).
  Proof.
    intros S M (U & L15 & LS & LO & sm & dm & ND & LET & NE & L32 & F). right.
    assert (NT : Forall2 (fun k p => nth_error (s_env s) k = Some p) ks l).
    { clear -M. revert l M. induction ks as [|k ks IH]; intros l M; cbn [mapM] in M; [injection M as <-; constructor|].
      apply bind_Ok_inv in M as (p & E & M). apply bind_Ok_inv in M as (l' & E' & [= <-]). constructor; [|now apply IH].
      unfold nth_arr in E. destruct (nth_error (s_env s) k); congruence. }
    assert (AL : forall p, In p l -> valid (s_heap s) (fst p) /\ usable (fst p)).
    { intros p I. destruct (In_nth_error _ _ I) as (j & J). assert (exists k, In k ks /\ nth_error (s_env s) k = Some p) as (k & K1 & K2).
      { clear -NT I. induction NT; [easy|]. destruct I as [->|I]; [exists x; split; [now left|auto]|]. destruct (IHNT I) as (k & ? & ?). exists k. split; [now right|auto]. }
      destruct p as [a bc]. destruct (sound_arr _ _ _ _ S K2) as (n & LV & C). split; [eapply chain_valid; eauto|exact (U k K1 a bc K2)]. }
    assert (SH : Forall2 (fun sub a => a_shape a = map dm sub) subs (map fst l)).
    { clear -F NT. revert l NT. induction F as [|sub k subs ks H F IH]; intros l NT; inversion NT; subst; cbn [map]; constructor; [|now apply IH].
      destruct y as [a bc]. eapply H; eauto. }
    pose proof (C27_einsum_partial T zero one add mul CSR (s_heap s) (map fst l) subs (map (fun p idx => match get (s_heap s) (fst p) idx with Ok v => v | _ => zero end) l) out sm dm LS LO ND LET NE L32) as K.
    destruct K as (h' & r & E & FR); [| | | |eauto 6].
    - rewrite map_length. apply Forall2_length in NT. lia.
    - assert (AL' : Forall (fun a => usable a) (map fst l)) by (apply Forall_map, Forall_forall; intros p I; now apply AL).
      clear -SH AL'. induction SH as [|sub a subs as_ H SH IH]; constructor; inversion AL'; subst; auto. split; [auto|]. destruct H2 as [D _]. rewrite H, map_length in D. exact D.
    - clear -AL. induction l as [|p l IH]; cbn [map]; constructor; [apply holds_of; now apply AL; left|]. apply IH. intros q I. apply AL. now right.
    - intros x I. apply LET in I as (sub & I1 & I2).
      assert (exists p, In p l /\ a_shape (fst p) = map dm sub) as (p & P1 & P2).
      { clear -SH I1. revert l SH. induction subs as [|s0 subs IH]; intros l SH; [easy|]. destruct l as [|p l]; cbn [map] in SH; inversion SH; subst.
        destruct I1 as [->|I1]; [exists p; split; [now left|auto]|]. destruct (IH I1 l H4) as (q & ? & ?). exists q. split; [now right|auto]. }
      destruct (AL p P1) as [_ [_ P]]. apply pos_prod in P. rewrite P2 in P. apply (proj1 (Forall_forall _ _) P). now apply in_map.
  Qed.

  Lemma exec_good c s : ring_ok c -> sound s -> allowed c s -> good_out s (exec c s).
  Proof.
    intros RG S A.
    assert (CV : forall k a bc, nth_error (s_env s) k = Some (a, bc) -> valid (s_heap s) a).
    { intros k a bc E. destruct (sound_arr _ _ _ _ S E) as (n & LV & C). eapply chain_valid; eauto. }
    destruct c; cbn [exec]; cbn [allowed] in A; cbn [ring_ok] in RG.
    - (* CNew *) destruct A as (V & N & sh & TY & R & L & P). apply good_fop; [exact S|]. right.
      destruct (C04_rectangular_partial T (s_heap s) ks d sh V N TY R L P) as (h' & r & ? & ?). eauto 6.
    - apply good_fop; [exact S|]. apply full_fop.
    - (* CView *) apply good_arr. intros a bc E. cbn [fst snd]. destruct (sound_arr _ _ _ _ S E) as (n & LV & C).
      pose proof (view_by_noob o a) as N. destruct (view_by o a) as [[r|]| |] eqn:EV; cbn [bind]; split; try discriminate; [| |easy].
      + intros s' [= <-]. pose proof (view_by_chain _ _ _ _ _ _ C (A a bc E) EV) as CR. apply Forall_app. split; [exact S|]. constructor; [|constructor].
        cbn [fst snd s_heap]. pose proof (chain_blk _ _ _ _ CR) as B. rewrite B. eauto.
      + now intros s' [= <-].
    - destruct A as (A1 & A2 & NO). apply good_arr. intros a bc E. apply good_arr. intros a2 bc2 E2. apply good_fop; [exact S|]. apply binary_fop; eauto.
    - destruct A as (A1 & NO). apply good_arr. intros a bc E. apply good_fop; [exact S|]. apply scalar_op_fop; eauto.
    - destruct A as (A1 & NO). apply good_arr. intros a bc E. apply good_fop; [exact S|]. apply unary_fop; eauto.
    - destruct A as (A1 & NO). apply good_arr. intros a bc E. apply good_arr. intros a2 bc2 E2. destruct (sound_arr _ _ _ _ S E) as (n & LV & C).
      apply good_sop; [exact S|]. eapply assign_sop; eauto.
    - destruct A as (A1 & NO). apply good_arr. intros a bc E. destruct (sound_arr _ _ _ _ S E) as (n & LV & C). apply good_sop; [exact S|]. eapply assign_scalar_sop; eauto.
    - apply good_arr. intros a bc E. destruct (sound_arr _ _ _ _ S E) as (n & LV & C). assert (bc = false) as -> by exact (A a bc E). apply good_sop; [exact S|]. eapply fill_sop; eauto.
    - apply good_arr. intros a bc E. destruct (sound_arr _ _ _ _ S E) as (n & LV & C). assert (bc = false) as -> by exact (A a bc E). apply good_read; [exact S|]. eapply index_noob; eauto.
    - apply good_arr. intros a bc E. destruct (sound_arr _ _ _ _ S E) as (n & LV & C). assert (bc = false) as -> by exact (A a bc E). apply good_sop; [exact S|]. eapply index_set_sop; eauto.
    - apply good_arr. intros a bc E. apply good_read; [exact S|]. apply value_noob. eauto.
    - apply good_arr. intros a bc E. destruct (sound_arr _ _ _ _ S E) as (n & LV & C). assert (bc = false) as -> by exact (A a bc E). apply good_read; [exact S|].
      destruct (chain_tight _ _ _ C) as (TI & NB & FL & W). cbn [fst]. rewrite nd_data_slice_eq by eauto. destruct (f_contig _); [|discriminate]. apply elems_noob. eauto.
    - apply good_arr. intros a bc E. apply good_read; [exact S|]. pose proof (CV _ _ _ E) as V. cbn [fst]. rewrite nd_flatiter_eq; [apply elems_noob; auto|apply V|apply (A a bc E)].
    - apply good_arr. intros a bc E. apply good_arr. intros a2 bc2 E2. apply good_read; [exact S|]. cbn [fst].
      destruct (C18_equality T eqb (s_heap s) a a2 (CV _ _ _ E) (CV _ _ _ E2) ltac:(apply (A a bc E))) as (r & -> & _). discriminate.
    - apply good_arr. intros a bc E. destruct (sound_arr _ _ _ _ S E) as (n & LV & C). destruct (A a bc E) as [[D P] B]. apply good_fop; [exact S|]. right.
      destruct (C17_clone_partial T (s_heap s) _ n bc a LV C B D P) as (h' & r & r' & K1 & K2 & _). eauto 6.
    - apply good_arr. intros a bc E. destruct (sound_arr _ _ _ _ S E) as (n & LV & C). destruct (A a bc E) as [[D P] B]. apply good_fop; [exact S|]. right.
      destruct (C17_clone_partial T (s_heap s) _ n bc a LV C B D P) as (h' & r & r' & _ & _ & _ & K1 & K2 & _). eauto 6.
    - destruct A as (A1 & NO). apply good_arr. intros a bc E. destruct (sound_arr _ _ _ _ S E) as (n & LV & C). destruct (A1 a bc E) as [U B]. apply good_fop; [exact S|]. eapply reduce_fop; eauto. destruct B as [-> |B]; [now left|]. destruct bc; auto.
    - destruct A as (A1 & NO). apply good_arr. intros a bc E. apply good_fop; [exact S|]. apply reduce_along_fop; eauto; exact (A1 a bc E).
    - destruct A as (A1 & NO). apply good_arr. intros a bc E. destruct (sound_arr _ _ _ _ S E) as (n & LV & C). apply good_fop; [exact S|]. eapply trace_fop; eauto; exact (A1 a bc E).
    - destruct A as (A1 & A2). apply good_arr. intros a bc E. apply good_arr. intros a2 bc2 E2. apply good_fop; [exact S|]. apply dot_fop; eauto; exact (A1 a bc E).
    - destruct A as (A1 & A2). apply good_arr. intros a bc E. apply good_arr. intros a2 bc2 E2. apply good_fop; [exact S|]. apply matmul_fop; eauto; (exact (A1 a bc E) || exact (A2 a2 bc2 E2)).
    - destruct A as (A1 & A2). apply good_arr. intros a bc E. apply good_arr. intros a2 bc2 E2. apply good_fop; [exact S|]. apply bmm_fop; eauto; (exact (A1 a bc E) || exact (A2 a2 bc2 E2)).
    - destruct (mapM (nth_arr s) ks) as [l| |] eqn:M; cbn [bind]; [|split; discriminate|].
      + apply good_fop; [exact S|]. eapply einsum_fop; eauto.
      + exfalso. revert M. change (noob (mapM (nth_arr s) ks)). clear. induction ks as [|k ks IH]; cbn [mapM]; [nb|].
        apply noob_bind; [unfold nth_arr; nb|intros]. apply noob_bind; [exact IH|intros; nb].
  Qed.

  Lemma exec_all_good cs : Forall ring_ok cs -> forall s, sound s -> all_allowed cs s -> exec_all cs s <> Oob /\ forall s', exec_all cs s = Ok s' -> sound s'.
  Proof.
    induction cs as [|c cs IH]; intros RG s S A; cbn [exec_all]; [split; [discriminate|now intros s' [= <-]]|].
    inversion RG; subst. destruct A as [A1 A2]. destruct (exec_good c s ltac:(assumption) S A1) as [G1 G2]. destruct (exec c s) as [s1| |]; cbn [bind]; [|split; discriminate|easy].
    apply IH; auto.
  Qed.
End Prog.

Theorem C62_programs : forall T (zero one : T) add mul eqb cs, Forall (ring_ok zero one add mul) cs -> forall s, sound s -> all_allowed zero one add mul eqb cs s ->
  exec_all zero one add mul eqb cs s <> Oob /\
  forall s', exec_all zero one add mul eqb cs s = Ok s' -> sound s' /\ Forall (fun p => valid (s_heap s') (fst p)) (s_env s').
Proof.
  intros T zero one add mul eqb cs RG s S A. destruct (exec_all_good zero one add mul eqb cs RG s S A) as [N K]. split; [exact N|].
  intros s' E. specialize (K s' E). split; [exact K|]. eapply Forall_impl; [|exact K]. intros p (n & LV & C). eapply chain_valid; eauto.
Qed.
Print Assumptions C62_programs.

(** the program that starts with nothing is covered *)
Lemma sound_start T : sound (@mkState T [] [] []).
Proof. constructor. Qed.

(** make a 2x3 array; take its last two columns and transpose them; add 1 in place to the whole array; multiply
    the view by itself; broadcast a row; add it to the array; sum a result along an axis; einsum *)
Definition prog : list (@cmd nat) :=
  [CNew [KVec; KArr 3] (Node [Node [Leaf 1; Leaf 2; Leaf 3]; Node [Leaf 4; Leaf 5; Leaf 6]]);
   CView (VSlice [IFull; IRange 1 3]) 0; CView (VTranspose ByRef 0 1) 1; CAssignScalar (fun x y => Ok (x + y)) 0 1;
   CMatmul 1 2; CView (VSlice [IUsize 0]) 0; CView (VBroadcast [2; 3]) 4; CBinary (fun x y => Ok (x * y)) 5 0;
   CReduceAlong (fun x acc => Ok (acc + x)) 0 6 [1%Z]; CAssign (fun x y => Ok (x + y)) 5 0].
Example C62_ex : all_allowed 0 1 Nat.add Nat.mul Nat.eqb (firstn 9 prog) (mkState [] [] []) /\
  exists s, exec_all 0 1 Nat.add Nat.mul Nat.eqb (firstn 9 prog) (mkState [] [] []) = Ok s /\
    s_heap s = [Some [2; 3; 4; 5; 6; 7]; Some [25; 46; 46; 85]; Some [4; 9; 16; 10; 18; 28]; Some [29; 56]] /\
    exec_all 0 1 Nat.add Nat.mul Nat.eqb prog (mkState [] [] []) = Panic.
Proof.
  Ltac step := split; [|let s := fresh in let E := fresh in intros s E; vm_compute in E; injection E as <-].
  Ltac here := intros a bc E; injection E as <- <-.
  split.
  - cbn [firstn prog all_allowed]. step.
    { split; [exists 1, [3]; reflexivity|]. split; [discriminate|]. exists [2; 3]. split; [|split; [|split; [reflexivity|cbn; lia]]]; cbn;
        repeat match goal with |- exists _, _ => eexists | |- _ /\ _ => split | |- Forall _ _ => constructor | |- _ = _ => reflexivity end. }
    step. { here. split; [cbn; lia|repeat constructor]. }
    step. { here. exact I. }
    step. { split; [here; split; vm_compute; lia|discriminate]. }
    step. { split; here; split; vm_compute; lia. }
    step. { here. split; [cbn; lia|repeat constructor]. }
    step. { here. exact I. }
    step. { split; [|split; [|discriminate]]; here; split; vm_compute; lia. }
    step. { split; [here; split; vm_compute; lia|discriminate]. }
    exact I.
  - eexists. vm_compute. repeat split.
Qed.

(** without the restrictions programs do leave memory: cloning, summing, filling or indexing a
    broadcast array; slicing out of range *)
Example C62_unrestricted_ex :
  let run := exec_all 0 1 Nat.add Nat.mul Nat.eqb in
  let b := [CFull 1 [3]; CView (VBroadcast [4; 3]) 0] in
  run (b ++ [CClone 1]) (mkState [] [] []) = Oob /\ run (b ++ [CReduce (fun x acc => Ok (acc + x)) 0 1]) (mkState [] [] []) = Oob /\
  run (b ++ [CFill 1 9]) (mkState [] [] []) = Oob /\ run (b ++ [CIndex 1 [0; 7]]) (mkState [] [] []) = Oob /\
  run [CFull 1 [3]; CView (VSlice [IRange 0 5]) 0; CFlatiter 1] (mkState [] [] []) = Oob.
Proof. vm_compute. repeat split. Qed.
