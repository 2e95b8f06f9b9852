(** RefFacts2.v: every command of Prog.v against the machine of SpecRef.v *)
From Coq Require Import List Arith Lia Bool ZArith.
From Verif Require Import Base Nested PropsNew Spec Layout SpecFacts LayoutFacts Views ViewsFacts ViewsFacts2 ViewsFacts3 Kernels Access HeapFacts KernelFacts OpFacts
  AccessFacts Reduce ReduceFacts Chain ChainFacts Einsum EinsumFacts8 PropsViews PropsOps PropsReduce PropsEinsum PropsEinsumView PropsAssign Prog PropsProg SpecRef RefFacts.
Import ListNotations.
Open Scope res_scope.

Lemma join_rev_spec : forall a b,
  match join_rev a b with
  | Ok r => length r = Nat.max (length a) (length b) /\ forall k, dim_compat (nth k a 1) (nth k b 1) /\ nth k r 1 = dim_join (nth k a 1) (nth k b 1)
  | Panic => exists k, ~ dim_compat (nth k a 1) (nth k b 1)
  | Oob => False
  end.
Proof.
  induction a as [|x a IH]; intros b; [|destruct b as [|y b]]; cbn [join_rev].
  - split; [reflexivity|]. intros k. assert (nth k [] 1 = 1) as -> by now destruct k. split; [right; now left|reflexivity].
  - split; [cbn [length]; lia|]. intros k. assert (nth k [] 1 = 1) as -> by now destruct k. split; [right; now right|]. unfold dim_join. destruct (Nat.eqb_spec (nth k (x :: a) 1) 1); auto.
  - destruct ((x =? y) || (x =? 1) || (y =? 1)) eqn:Q.
    + specialize (IH b). destruct (join_rev a b) as [r| |]; cbn [bind]; [|destruct IH as (k & K); now exists (S k)|easy].
      destruct IH as [L H]. split; [cbn [length]; lia|]. intros [|k]; cbn [nth]; [|apply H]. split; [|reflexivity]. unfold dim_compat.
      apply orb_true_iff in Q as [Q|Q]; [apply orb_true_iff in Q as [Q|Q]|]; apply Nat.eqb_eq in Q; auto.
    + exists 0. cbn [nth]. apply orb_false_iff in Q as [Q Q3]. apply orb_false_iff in Q as [Q1 Q2]. apply Nat.eqb_neq in Q1, Q2, Q3. unfold dim_compat. tauto.
Qed.
Lemma join_spec a b :
  match join a b with Ok r => join_shape a b r | Panic => exists k, ~ dim_compat (dim_r a k) (dim_r b k) | Oob => False end.
Proof.
  unfold join. pose proof (join_rev_spec (rev a) (rev b)) as H. destruct (join_rev (rev a) (rev b)) as [r| |]; cbn [bind]; auto.
  destruct H as [L H]. split; [rewrite !rev_length in *; exact L|]. intros k. unfold dim_r. rewrite rev_involutive. apply H.
Qed.

Lemma nest_dims_rect {T} : forall sh (d : nest T), rect sh d -> 0 < prod sh -> nest_dims d = sh.
Proof.
  induction sh as [|n sh IH]; intros d R P; cbn [rect] in R; [now destruct R as (x & ->)|]. destruct R as (l & -> & L & F). cbn [nest_dims]. rewrite L. f_equal.
  destruct l as [|d l]; [cbn in L; subst; cbn in P; lia|]. inversion F; subst. apply IH; [assumption|]. rewrite prod_cons in P. lia.
Qed.

Lemma inside_spec idx sh : in_range idx sh -> inside idx sh = true.
Proof.
  intros R. unfold inside. rewrite (in_range_length _ _ R), Nat.eqb_refl. cbn [andb]. induction R; cbn [combine forallb fst snd]; [reflexivity|]. apply andb_true_iff. split; [now apply Nat.ltb_lt|assumption].
Qed.

Lemma bidx_in_range s t j : broadcastable s t -> in_range j t -> in_range (bidx s j) s.
Proof. intros Bc R. destruct (broadcast_stride_ok s (rm_stride s) t (rm_stride_length _) Bc) as (? & _ & _ & K). now apply K. Qed.

Lemma axes_ref nd axes : (axes_in nd axes -> mapM (fun k => ref_axis k nd) axes = Ok (axes_of nd axes)) /\ (~ axes_in nd axes -> mapM (fun k => ref_axis k nd) axes = Panic).
Proof.
  split.
  - induction 1 as [|k axes H _ IH]; cbn [mapM]; [reflexivity|]. rewrite IH. destruct (ref_axis_cases k nd) as [(i & E)|[_ N]]; [|contradiction].
    rewrite E. cbn [bind]. apply ref_axis_Ok in E as [_ ->]. reflexivity.
  - intros N. induction axes as [|k axes IH]; [destruct N; constructor|]. cbn [mapM]. destruct (ref_axis_cases k nd) as [(i & E)|[E _]]; [|now rewrite E].
    rewrite E. cbn [bind]. rewrite IH; [reflexivity|]. intros A. apply N. constructor; [|exact A]. now apply ref_axis_Ok in E.
Qed.

Section Cmds.
  Context {T : Type}.
  Variable zero one : T.
  Variable add mul : T -> T -> T.
  Variable eqb : T -> T -> bool.
  Local Notation exec := (exec zero one add mul eqb).
  Local Notation ref := (ref zero one add mul eqb).
  Local Notation allowed := (@allowed T).
  Local Notation cmd := (@cmd T).
  Local Notation state := (@state T).

  (** the library is used as documented: views and indices inside the array, compound
      assignment to contiguous arrays that does not read what it has overwritten (C14) *)
  Definition supported (c : cmd) (s : state) : Prop :=
    allowed c s /\ ring_ok zero one add mul c /\
    match c with
    | CView o k => on s k (fun a _ => view_ok o a)
    | CAssign _ k1 k2 => on s k1 (fun a bc => bc = false -> f_contig (a_fl a) = true /\ on s k2 (fun b _ => no_feedback a b))
    | CAssignScalar _ k _ => on s k (fun a bc => bc = false -> f_contig (a_fl a) = true)
    | CIndex k idx | CIndexSet k idx _ => on s k (fun a _ => in_range idx (a_shape a))
    | _ => True
    end.

  (** commands that are not rejected for a reason of layout (C05 C23 C24) *)
  Definition exact (c : cmd) (s : state) : Prop :=
    match c with
    | CView o k => on s k (fun a _ => view_exact o a)
    | CIndex k idx | CIndexSet k idx _ => on s k (fun a _ => dot idx (a_stride a) < a_len a)
    | CDataSlice k => on s k (fun a _ => f_contig (a_fl a) = true)
    | _ => True
    end.

  Lemma sim_arr (ex : Prop) (s : state) k (f : arr * bool -> res state) (g : table -> res (@rstate T)) :
    (forall a bc, nth_error (s_env s) k = Some (a, bc) -> sim ex (f (a, bc)) (g (tab_of (a, bc)))) -> sim ex (p <- nth_arr s k ;; f p) (t <- tab (abs s) k ;; g t).
  Proof.
    intros H. unfold nth_arr, tab. cbn [abs r_env]. rewrite nth_error_map. destruct (nth_error (s_env s) k) as [[a bc]|] eqn:E; cbn [option_map orPanic bind]; [now apply H|].
    cbn [sim]. reflexivity.
  Qed.

  Lemma fresh_elems (h h' : heap T) r sh val : fresh_result h h' r sh val -> elems h' r = mapM val (indices sh).
  Proof. intros (_ & _ & S & _ & _ & _ & G). unfold elems. rewrite S. apply mapM_ext. intros idx I. apply G. now apply in_indices. Qed.
  Lemma sim_fresh (ex : Prop) (s : state) h' r sh val f : fresh_result (s_heap s) h' r sh val -> (forall idx, in_range idx sh -> f idx = val idx) ->
    sim ex (made s (Ok (h', r))) (ref_make (abs s) sh f).
  Proof.
    intros F E. apply sim_made. pose proof (fresh_elems _ _ _ _ _ F) as M. pose proof F as (_ & _ & S & V & _). destruct (valid_elems _ _ V) as (vs & EV). rewrite EV in M.
    exists sh, val, vs. split; [exact F|]. split; [auto|]. unfold ref_make. rewrite (mapM_ext f val), <- M; [reflexivity|]. intros idx I. apply E. now apply in_indices.
  Qed.
  Lemma sim_fresh_vals (ex : Prop) (s : state) h' r sh val vs : fresh_result (s_heap s) h' r sh val -> mapM val (indices sh) = Ok vs -> sim ex (made s (Ok (h', r))) (Ok (ref_new (abs s) sh vs)).
  Proof. intros F M. apply sim_made. exists sh, val, vs. auto. Qed.

  Lemma at_elem (h : heap T) a xs idx : elems h a = Ok xs -> in_range idx (a_shape a) -> at_ (a_shape a) xs idx = Ok (match get h a idx with Ok v => v | _ => zero end).
  Proof. intros E R. rewrite (at_get _ _ _ _ E R). destruct (nth_error_of_indices_get _ _ _ _ E R) as (y & _ & G). now rewrite G. Qed.

  Lemma sum_products_Ok k x y (u v : nat -> T) : (forall t, t < k -> x t = Ok (u t)) -> (forall t, t < k -> y t = Ok (v t)) ->
    sum_products zero add mul k x y = Ok (bigsum add zero (map (fun t => mul (u t) (v t)) (seq 0 k))).
  Proof.
    intros X Y. unfold sum_products. rewrite (mapM_pure_ext _ (fun t => mul (u t) (v t))); [reflexivity|]. intros t I. apply in_seq in I. rewrite X, Y by lia. reflexivity.
  Qed.

  Lemma dot_sim (s : state) a b xs ys n : is_csr zero one add mul -> valid (s_heap s) a -> valid (s_heap s) b -> elems (s_heap s) a = Ok xs -> elems (s_heap s) b = Ok ys ->
    a_shape a = [n] -> a_shape b = [n] -> 0 < n ->
    sim True (made s (nd_dot zero (okadd add) (okadd mul) (s_heap s) a b))
      (ref_make (abs s) [] (fun _ => sum_products zero add mul n (fun t => at_ [n] xs [t]) (fun t => at_ [n] ys [t]))).
  Proof.
    intros CSR Va Vb Ea Eb Sa Sb P. destruct (C26_dot T zero one add mul CSR (s_heap s) a b _ _ n Sa Sb P (holds_of zero _ _ Va) (holds_of zero _ _ Vb)) as (h' & r & -> & F).
    eapply sim_fresh; [exact F|]. intros idx R. apply sum_products_Ok; intros t L.
    - rewrite <- Sa. apply at_elem; [exact Ea|]. rewrite Sa. repeat constructor. exact L.
    - rewrite <- Sb. apply at_elem; [exact Eb|]. rewrite Sb. repeat constructor. exact L.
  Qed.

  Lemma matmul_sim (s : state) a b bc bc2 xs ys : is_csr zero one add mul -> valid (s_heap s) a -> valid (s_heap s) b -> usable a -> usable b -> elems (s_heap s) a = Ok xs -> elems (s_heap s) b = Ok ys ->
    sim True (made s (nd_matmul zero one (okadd add) (okadd mul) (okfma add mul) (s_heap s) a b))
      (match t_shape (tab_of (a, bc)), t_shape (tab_of (b, bc2)) with
        | [n], [m] => if n =? m then ref_make (abs s) [] (fun _ => sum_products zero add mul n (fun t => at_ [n] xs [t]) (fun t => at_ [n] ys [t])) else Panic
        | [n; k], [k'] => if k =? k' then ref_make (abs s) [n] (fun idx => sum_products zero add mul k (fun t => at_ [n; k] xs [nth 0 idx 0; t]) (fun t => at_ [k] ys [t])) else Panic
        | [n; k], [k'; m] => if k =? k' then ref_make (abs s) [n; m] (fun idx => sum_products zero add mul k (fun t => at_ [n; k] xs [nth 0 idx 0; t]) (fun t => at_ [k; m] ys [t; nth 1 idx 0])) else Panic
        | _, _ => Panic
        end).
  Proof.
    intros CSR Va Vb [_ Pa] [_ Pb] Ea Eb. destruct (C26_mismatch_panics T zero one (okadd add) (okadd mul) (okfma add mul) (s_heap s) a b) as (_ & M & _).
    cbn [tab_of t_shape fst]. pose proof (dot_sim s a b xs ys) as DS.
    destruct (a_shape a) as [|n [|k [|? ?]]] eqn:Sa; try (rewrite M by exact I; destruct (a_shape b) as [|? [|? ?]]; intros _; reflexivity).
    - destruct (a_shape b) as [|n' [|? ?]] eqn:Sb; try (rewrite M by exact I; intros _; reflexivity). destruct (Nat.eqb_spec n n') as [<-|N]; [|rewrite M by exact N; intros _; reflexivity].
      unfold nd_matmul. rewrite Sa, Sb. apply DS; auto. cbn in Pa. lia.
    - destruct (a_shape b) as [|k' [|m [|? ?]]] eqn:Sb; try (rewrite M by exact I; intros _; reflexivity); (destruct (Nat.eqb_spec k k') as [<-|N]; [|rewrite M by exact N; intros _; reflexivity]); cbn in Pa, Pb.
      + destruct (C26_matvec T zero one add mul CSR (s_heap s) a b _ _ n k Sa Sb ltac:(nia) ltac:(nia) (holds_of zero _ _ Va) (holds_of zero _ _ Vb)) as (h' & r & -> & F).
        eapply sim_fresh; [exact F|]. intros idx R. inversion R as [|i ? ? ? Hi R1]; subst. inversion R1; subst. cbn [nth hd]. apply sum_products_Ok; intros t L.
        * rewrite <- Sa. apply at_elem; [exact Ea|]. rewrite Sa. repeat constructor; assumption.
        * rewrite <- Sb. apply at_elem; [exact Eb|]. rewrite Sb. repeat constructor; assumption.
      + destruct (C26_matmul T zero one add mul CSR (s_heap s) a b _ _ n k m Sa Sb ltac:(nia) ltac:(nia) ltac:(nia) (holds_of zero _ _ Va) (holds_of zero _ _ Vb)) as (h' & r & -> & F).
        eapply sim_fresh; [exact F|]. intros idx R. inversion R as [|i ? ? ? Hi R1]; subst. inversion R1 as [|j ? ? ? Hj R2]; subst. inversion R2; subst. cbn [nth]. apply sum_products_Ok; intros t L.
        * rewrite <- Sa. apply at_elem; [exact Ea|]. rewrite Sa. repeat constructor; assumption.
        * rewrite <- Sb. apply at_elem; [exact Eb|]. rewrite Sb. repeat constructor; assumption.
  Qed.

  Lemma bmm_sim (s : state) a b bc bc2 xs ys : is_csr zero one add mul -> valid (s_heap s) a -> valid (s_heap s) b -> usable a -> usable b -> elems (s_heap s) a = Ok xs -> elems (s_heap s) b = Ok ys ->
    sim True (made s (nd_bmm zero one (okadd add) (okadd mul) (okfma add mul) (s_heap s) a b))
      (match t_shape (tab_of (a, bc)), t_shape (tab_of (b, bc2)) with
        | [q; n; k], [q'; k'; m] => if (q =? q') && (k =? k')
            then ref_make (abs s) [q; n; m] (fun idx => sum_products zero add mul k (fun t => at_ [q; n; k] xs [nth 0 idx 0; nth 1 idx 0; t]) (fun t => at_ [q; k; m] ys [nth 0 idx 0; t; nth 2 idx 0]))
            else Panic
        | _, _ => Panic
        end).
  Proof.
    intros CSR Va Vb [_ Pa] [_ Pb] Ea Eb. destruct (C26_mismatch_panics T zero one (okadd add) (okadd mul) (okfma add mul) (s_heap s) a b) as (_ & _ & M).
    cbn [tab_of t_shape fst].
    destruct (a_shape a) as [|q [|n [|k [|? ?]]]] eqn:Sa; try (rewrite M by exact I; intros _; reflexivity).
    destruct (a_shape b) as [|q' [|k' [|m [|? ?]]]] eqn:Sb; try (rewrite M by exact I; intros _; reflexivity).
    destruct (Nat.eqb_spec q q') as [<-|N]; [|rewrite M by exact N; intros _; reflexivity]. cbn in Pa, Pb.
    assert (0 < q /\ 0 < n /\ 0 < k) as (Q & N & K) by (split; [|split]; destruct q, n, k; lia).
    assert (0 < k' /\ 0 < m) as (K' & M') by (split; destruct k', m; lia).
    destruct (Nat.eqb_spec k k') as [<-|NK]; cbn [andb].
    - destruct (C26_bmm T zero one add mul CSR (s_heap s) a b _ _ q n k m Sa Sb Q N K M' (holds_of zero _ _ Va) (holds_of zero _ _ Vb)) as (h' & r & -> & F).
      eapply sim_fresh; [exact F|]. intros idx R. inversion R as [|i ? ? ? Hi R1]; subst. inversion R1 as [|j ? ? ? Hj R2]; subst. inversion R2 as [|l ? ? ? Hl R3]; subst. inversion R3; subst. cbn [nth].
      apply sum_products_Ok; intros t L.
      + rewrite <- Sa. apply at_elem; [exact Ea|]. rewrite Sa. repeat constructor; assumption.
      + rewrite <- Sb. apply at_elem; [exact Eb|]. rewrite Sb. repeat constructor; assumption.
    - destruct Va as [La _], Vb as [Lb _]. erewrite C26_bmm_inner_mismatch_panics; eauto; [intros _; reflexivity|rewrite La, Sa|rewrite Lb, Sb]; reflexivity.
  Qed.

  Lemma same_vals_spec (h : heap T) a b xs ys : a_shape a = a_shape b -> elems h a = Ok xs -> elems h b = Ok ys ->
    (same_vals eqb xs ys = true <-> forall idx, in_range idx (a_shape a) -> exists x y, get h a idx = Ok x /\ get h b idx = Ok y /\ eqb x y = true).
  Proof.
    intros S Ea Eb. unfold elems in Ea, Eb. rewrite <- S in Eb.
    assert (G : forall l xs ys, mapM (get h a) l = Ok xs -> mapM (get h b) l = Ok ys ->
      (same_vals eqb xs ys = true <-> forall idx, In idx l -> exists x y, get h a idx = Ok x /\ get h b idx = Ok y /\ eqb x y = true)).
    { clear. induction l as [|i l IH]; intros xs ys Ea Eb; cbn [mapM] in Ea, Eb.
      - injection Ea as <-. injection Eb as <-. cbn [same_vals]. split; [intros _ ? []|reflexivity].
      - apply bind_Ok_inv in Ea as (x & X & Ea). apply bind_Ok_inv in Ea as (xs' & Ea & [= <-]). apply bind_Ok_inv in Eb as (y & Y & Eb). apply bind_Ok_inv in Eb as (ys' & Eb & [= <-]).
        cbn [same_vals]. rewrite andb_true_iff, (IH _ _ Ea Eb). split.
        + intros [E H] idx [<-|J]; eauto.
        + intros H. split; [|intros idx J; apply H; now right]. destruct (H i (or_introl eq_refl)) as (x' & y' & X' & Y' & E). congruence. }
    rewrite (G _ _ _ Ea Eb). split; intros H idx J; apply H; now apply in_indices.
  Qed.

  Lemma sim_weaken (ex : Prop) (p : res state) (q : res (@rstate T)) : sim True p q -> sim ex p q.
  Proof. destruct p; cbn [sim]; auto. Qed.

  Lemma reduce_along_sim (s : state) g d a xs axes : valid (s_heap s) a -> usable a -> (forall x y, g x y <> Oob) -> elems (s_heap s) a = Ok xs ->
    sim True (made s (nd_reduce_along g d (s_heap s) a axes))
      (ax <- mapM (fun k => ref_axis k (length (a_shape a))) axes ;;
        if nodupb Nat.eqb ax
        then ref_make (abs s) (drop_axes ax (a_shape a)) (fun o => vs <- mapM (at_ (a_shape a) xs) (fibre ax (a_shape a) o) ;; foldM g vs d)
        else Panic).
  Proof.
    intros V [D P] NO EX. set (nd := length (a_shape a)). destruct (axes_ref nd axes) as [AR1 AR2].
    destruct (Forall_dec (fun k => - Z.of_nat nd <= k < Z.of_nat nd)%Z) with (l := axes) as [A|A].
    { intros k. destruct (Z_le_dec (- Z.of_nat nd) k), (Z_lt_dec k (Z.of_nat nd)); [left|right|right|right]; lia. }
    2: { rewrite AR2 by exact A. rewrite C20_bad_axes_panic by (left; exact A). intros _. reflexivity. }
    rewrite AR1 by exact A. cbn [bind]. destruct (nodupb Nat.eqb (axes_of nd axes)) eqn:Q.
    2: { rewrite C20_bad_axes_panic; [intros _; reflexivity|]. right. intros N. apply (nodupb_spec Nat.eqb Nat.eqb_eq) in N. unfold nd in Q. congruence. }
    apply (nodupb_spec Nat.eqb Nat.eqb_eq) in Q. destruct (C20_reduce_along T g (s_heap s) a d axes V D P A Q) as [K1 K2]. fold nd in K1, K2. cbv zeta in K1, K2.
    assert (M : forall o, mapM (at_ (a_shape a) xs) (fibre (axes_of nd axes) (a_shape a) o) = mapM (get (s_heap s) a) (fibre (axes_of nd axes) (a_shape a) o)).
    { intros o. apply mapM_ext. intros idx J. apply at_get; [exact EX|]. unfold fibre in J. apply filter_In in J as [J _]. now apply in_indices. }
    eapply sim_fop; [exact K1|intros H; apply K2; auto| |].
    - intros o R. assert (MM : exists vs, mapM (get (s_heap s) a) (fibre (axes_of nd axes) (a_shape a) o) = Ok vs).
      { apply mapM_Ok. intros idx J. apply V. unfold fibre in J. apply filter_In in J as [J _]. now apply in_indices. }
      destruct MM as (vs & ->). cbn [bind]. now apply foldM_noob.
    - intros o R. cbv beta. now rewrite M.
  Qed.

  Lemma trace_sim (s : state) g n bc a o i j : live (s_heap s) (a_blk a) n -> chain (a_blk a) n bc a -> usable a -> (forall x y, g x y <> Oob) ->
    sim True (made s (nd_trace zero g (s_heap s) a o i j))
      (d <- ref_view (VDiagonal o i j) (tab_of (a, bc)) ;;
        match d with
        | None => Panic
        | Some d => xs <- data (abs s) d ;;
            let nd := length (t_shape d) - 1 in
            ref_make (abs s) (firstn nd (t_shape d)) (fun idx => vs <- mapM (fun i => at_ (t_shape d) xs (idx ++ [i])) (seq 0 (nth nd (t_shape d) 0)) ;;
              foldM (fun x acc => g acc x) vs zero)
        end).
  Proof.
    intros LV C U NO. pose proof (view_ref _ _ _ _ (VDiagonal o i j) C I (proj2 U)) as VR. unfold nd_trace. cbn [view_by] in VR.
    destruct (nd_offset_diagonal_along a o i j) as [r| |] eqn:E; cbn [bind] in VR |- *; [|rewrite VR by exact I; intros _; reflexivity|contradiction].
    rewrite VR. cbn [bind marks]. rewrite orb_false_r. pose proof (Ch_diagonal _ _ _ _ _ _ _ _ C E) as CR. pose proof (chain_valid _ _ _ _ _ LV CR) as V.
    destruct (data_abs s r bc V) as (xs & EX & DX). rewrite DX. cbn [bind]. pose proof (diagonal_usable _ _ _ _ _ _ _ _ C U E) as UR.
    pose proof (reduce_along_sim s (fun v acc => g acc v) zero r xs [(-1)%Z] V UR ltac:(intros; apply NO) EX) as RS.
    destruct (diagonal_inv_args _ _ _ _ _ (i_wf _ _ _ _ (chain_inv _ _ _ _ C)) E) as (x & y & _ & _ & _ & _ & _ & _ & _ & _ & SH).
    cbv zeta. cbn [tab_of t_shape fst]. set (sh0 := drop_two _ _ _ _) in SH. set (m := Nat.min _ _) in SH. clearbody sh0 m. rewrite SH in RS |- *.
    rewrite app_length in RS |- *. cbn [length] in RS |- *. rewrite Nat.add_sub, firstn_app, Nat.sub_diag, firstn_all, firstn_O, app_nil_r, app_nth2, Nat.sub_diag by lia. cbn [nth].
    assert (AX : mapM (fun k => ref_axis k (length sh0 + 1)) [(-1)%Z] = Ok [length sh0]).
    { destruct (axes_ref (length sh0 + 1) [(-1)%Z]) as [H _]. rewrite H; [|constructor; [lia|constructor]]. unfold axes_of. cbn [map]. do 2 f_equal.
      replace (-1)%Z with (Z.of_nat (length sh0) + (-1) * Z.of_nat (length sh0 + 1))%Z by lia. rewrite Z_mod_plus_full, Z.mod_small by lia. lia. }
    rewrite AX in RS. cbn [bind nodupb existsb negb andb] in RS. rewrite drop_axes_last in RS. revert RS. unfold ref_make.
    rewrite (mapM_ext (fun o0 => vs <- mapM (at_ (sh0 ++ [m]) xs) (fibre [length sh0] (sh0 ++ [m]) o0);; foldM (fun v acc => g acc v) vs zero)
      (fun idx => vs <- mapM (fun i0 => at_ (sh0 ++ [m]) xs (idx ++ [i0])) (seq 0 m);; foldM (fun x0 acc => g acc x0) vs zero)); [auto|].
    intros idx J. apply in_indices in J. rewrite fibre_last by exact J. now rewrite mapM_map.
  Qed.

  Lemma NoDup_two {A} (l m : list A) : NoDup l -> NoDup m -> (forall x, In x l -> In x m -> False) -> NoDup (l ++ m).
  Proof.
    induction 1 as [|x l N ND IH]; intros M D; [exact M|]. cbn [app]. constructor; [|apply IH; [exact M|intros y J; apply D; now right]].
    intros J. apply in_app_iff in J as [J|J]; [contradiction|]. apply (D x); [now left|exact J].
  Qed.
  Lemma NoDup_front {A} (l m : list A) : NoDup (l ++ m) -> NoDup l.
  Proof. induction l as [|x l IH]; [constructor|]. intros N. inversion N; subst. constructor; [|now apply IH]. intros J. apply H1, in_app_iff. now left. Qed.

  Lemma lookup_map (dm : Z -> nat) ls l : In l ls -> Spec.lookup ls (map dm ls) l = dm l.
  Proof. induction ls as [|x ls IH]; [intros []|]. intros J. cbn [map Spec.lookup]. destruct (Z.eqb_spec x l) as [->|N]; [reflexivity|]. apply IH. destruct J; [contradiction|assumption]. Qed.

  Lemma value_at_holds (h : heap T) a xs : valid h a -> elems h a = Ok xs -> holds h a (value_at zero (a_shape a) xs).
  Proof. intros V E. split; [apply V|]. intros idx R. destruct (nth_error_of_indices_get _ _ _ _ E R) as (y & N & ->). f_equal. unfold value_at. symmetry. now apply nth_error_nth. Qed.

  Lemma einsum_sim (s : state) ks subs out (l : list (arr * bool)) : is_csr zero one add mul -> sound s -> mapM (nth_arr s) ks = Ok l -> allowed (CEinsum ks subs out) s ->
    sim True (made s (nd_einsum zero one (okadd add) (okadd mul) (okfma add mul) (s_heap s) (map fst l) subs out)) (ref (CEinsum ks subs out) (abs s)).
  Proof.
    intros CSR S M (U & L15 & LS & LO & sm & dm & ND & LET & NE & L32 & F).
    assert (NT : Forall2 (fun k p => nth_error (s_env s) k = Some p) ks l).
    { clear -M. revert l M. induction ks as [|k ks IH]; intros l M; cbn [mapM] in M; [injection M as <-; constructor|].
      apply bind_Ok_inv in M as (p & E & M). apply bind_Ok_inv in M as (l' & E' & [= <-]). constructor; [|now apply IH].
      unfold nth_arr in E. destruct (nth_error (s_env s) k); congruence. }
    assert (AL : forall p, In p l -> valid (s_heap s) (fst p) /\ usable (fst p)).
    { intros p J. assert (exists k, In k ks /\ nth_error (s_env s) k = Some p) as (k & K1 & K2).
      { clear -NT J. induction NT; [easy|]. destruct J as [->|J]; [exists x; split; [now left|auto]|]. destruct (IHNT J) as (k & ? & ?). exists k. split; [now right|auto]. }
      destruct p as [a bc]. destruct (sound_arr _ _ _ _ S K2) as (n & LV & C). split; [eapply chain_valid; eauto|exact (U k K1 a bc K2)]. }
    assert (SH : Forall2 (fun sub a => a_shape a = map dm sub) subs (map fst l)).
    { clear -F NT. revert l NT. induction F as [|sub k subs ks H F IH]; intros l NT; inversion NT; subst; cbn [map]; constructor; [|now apply IH].
      destruct y as [a bc]. eapply H; eauto. }
    cbn [SpecRef.ref].
    assert (TS : mapM (tab (abs s)) ks = Ok (map tab_of l)).
    { clear -NT. induction NT as [|k p ks l N NT IH]; [reflexivity|]. cbn [mapM map]. unfold tab at 1. cbn [abs r_env]. rewrite nth_error_map, N. cbn [option_map orPanic bind]. now rewrite IH. }
    rewrite TS. cbn [bind].
    assert (XS : exists xss, mapM (data (abs s)) (map tab_of l) = Ok xss /\ Forall2 (fun p xs => elems (s_heap s) (fst p) = Ok xs) l xss).
    { clear -AL. induction l as [|[a bc] l IH]; [exists []; split; [reflexivity|constructor]|]. destruct IH as (xss & E & FF); [intros p J; apply AL; now right|].
      destruct (AL (a, bc) (or_introl eq_refl)) as [V _]. destruct (data_abs s a bc V) as (xs & EX & DX). exists (xs :: xss). cbn [map mapM]. rewrite DX, E. split; [reflexivity|]. now constructor. }
    destruct XS as (xss & -> & FX). cbn [bind]. cbv zeta.
    assert (TSH : map t_shape (map tab_of l) = map a_shape (map fst l)) by (rewrite !map_map; reflexivity). rewrite TSH.
    set (dm' := ext subs (map a_shape (map fst l))). set (sm' := filter _ _).
    assert (DM : forall x, In x (concat subs) -> dm' x = dm x).
    { intros x J. unfold dm', ext. replace (concat (map a_shape (map fst l))) with (map dm (concat subs)); [now apply lookup_map|].
      clear -SH. revert SH. generalize (map fst l). intros m SH. induction SH; cbn [concat map]; [reflexivity|]. rewrite map_app. congruence. }
    assert (INC : forall x, In x (concat subs) <-> exists s, In s subs /\ In x s) by (intros x; rewrite in_concat; split; intros (q & ? & ?); eauto).
    assert (LET' : forall x, In x (out ++ sm') <-> exists s, In s subs /\ In x s).
    { intros x. rewrite <- INC, in_app_iff. unfold sm'. rewrite filter_In, nodup_In. split.
      - intros [J|[J _]]; [|exact J]. apply INC, LET, in_app_iff. now left.
      - intros J. destruct (existsb (Z.eqb x) out) eqn:Q; [left; now apply mem_spec|right; auto]. }
    assert (ND' : NoDup (out ++ sm')).
    { apply NoDup_two; [now apply NoDup_front in ND|apply NoDup_filter, NoDup_nodup|].
      intros x J K. unfold sm' in K. apply filter_In in K as [_ K]. apply negb_true_iff in K. apply mem_spec in J. congruence. }
    assert (EQV : forall x, In x (out ++ sm') <-> In x (out ++ sm)) by (intros x; now rewrite LET, LET').
    pose proof (C27_einsum_partial T zero one add mul CSR (s_heap s) (map fst l) subs (map (fun p => value_at zero (t_shape (fst p)) (snd p)) (combine (map tab_of l) xss)) out sm' dm' LS LO ND' LET') as K.
    destruct K as (h' & r & -> & FR); [| | | | | |].
    - intros Q. destruct (out ++ sm) as [|x m] eqn:Q2; [contradiction|]. assert (In x (out ++ sm')) by (apply EQV; now left). rewrite Q in *. easy.
    - apply Nat.le_trans with (length (out ++ sm)); [|exact L32]. apply NoDup_incl_length; [exact ND'|]. intros x. apply EQV.
    - rewrite map_length. apply Forall2_length in NT. lia.
    - assert (AL' : Forall (fun a => usable a) (map fst l)) by (apply Forall_map, Forall_forall; intros p J; now apply AL).
      assert (DM2 : forall sub, In sub subs -> map dm' sub = map dm sub) by (intros sub J; apply map_ext_in; intros x K; apply DM, INC; eauto).
      clearbody dm'. clear -SH AL' DM2. induction SH as [|sub a subs as_ H SH IH]; constructor; inversion AL'; subst; auto.
      + split; [rewrite DM2 by (now left); exact H|]. destruct H2 as [D _]. rewrite H, map_length in D. exact D.
      + apply IH; [assumption|]. intros q J. apply DM2. now right.
    - clear -AL FX. induction FX as [|p xs l xss E FX IH]; cbn [map combine]; constructor; [|apply IH; intros q J; apply AL; now right].
      cbn [fst snd tab_of t_shape]. apply value_at_holds; [|exact E]. apply AL. now left.
    - intros x J. apply LET' in J as (sub & J1 & J2). rewrite DM by (apply INC; eauto).
      assert (exists p, In p l /\ a_shape (fst p) = map dm sub) as (p & P1 & P2).
      { clear -SH J1. revert l SH. induction subs as [|s0 subs IH]; intros l SH; [easy|]. destruct l as [|p l]; cbn [map] in SH; inversion SH; subst.
        destruct J1 as [->|J1]; [exists p; split; [now left|auto]|]. destruct (IH J1 l H4) as (q & ? & ?). exists q. split; [now right|auto]. }
      destruct (AL p P1) as [_ [_ P]]. apply pos_prod in P. rewrite P2 in P. apply (proj1 (Forall_forall _ _) P). now apply in_map.
    - eapply sim_fresh_vals; [exact FR|]. apply mapM_pure_ext. reflexivity.
  Qed.
End Cmds.
