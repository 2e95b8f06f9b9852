(** PropsPointers.v: which operations form pointers outside the allocation (C76). *)
From Coq Require Import List Arith Lia Bool ZArith.
From Verif Require Import Base Spec Layout SpecFacts LayoutFacts Views ViewsFacts ViewsFacts2 ViewsFacts3 Kernels Access HeapFacts KernelFacts OpFacts AccessFacts
  Chain ChainFacts ViewsFacts4 Reduce ReduceFacts Einsum Iter PropsViews PropsOps PropsReduce PropsBcast PropsAssign PropsAssign2 PropsIter PropsEinsum Pointers PointersFacts.
From Verif Require SpecRef RefFacts.
Import ListNotations.
Open Scope res_scope.

(** The elements lie on one line: every stride is the next length times the next stride
    (the stride of axes of length 1 in front may be 0). *)
Definition straight (sh st : list nat) : Prop :=
  forall k, S k < length sh -> nth k st 0 = nth (S k) sh 0 * nth (S k) st 0 \/ nth k st 0 = 0 /\ prod (firstn (S k) sh) = 1.
(** the cell one step after the last one is more than one past the end of the n cells *)
Definition beyond (n off : nat) (sh st : list nat) : Prop :=
  prod sh <> 0 /\ last st 0 <> 0 /\ n < off + prod sh * last st 0.

Lemma collapse_go_straight sh : forall n s st, length st = length sh ->
  (straight (n :: sh) (s :: st) /\ collapse_go n s sh st = ([n * prod sh], [last (s :: st) 0])) \/
  (~ straight (n :: sh) (s :: st) /\ length (fst (collapse_go n s sh st)) <> 1).
Proof.
  induction sh as [|n' sh IH]; intros n s [|s' st] L; cbn [length] in L; try discriminate.
  - left. split; [intros k K; cbn [length] in K; lia|]. cbn [collapse_go prod fold_right last]. now rewrite Nat.mul_1_r.
  - cbn [collapse_go]. destruct ((s =? n' * s') || (s =? 0) && (n =? 1)) eqn:E.
    + assert (H0 : s = n' * s' \/ s = 0 /\ n = 1).
      { apply orb_true_iff in E as [E|E]; [left; now apply Nat.eqb_eq|]. apply andb_true_iff in E as [E1 E2]. right. split; now apply Nat.eqb_eq. }
      assert (X : straight (n * n' :: sh) (s' :: st) <-> straight (n :: n' :: sh) (s :: s' :: st)).
      { split; intros H.
        - intros [|k] K; [cbn [nth firstn prod fold_right]; destruct H0 as [->|[-> ->]]; [now left|right; split; reflexivity]|].
          cbn [length] in K. specialize (H k ltac:(cbn [length]; lia)). cbn [nth] in H |- *. destruct k as [|k].
          + cbn [nth firstn prod fold_right] in H |- *. destruct H as [H|[H1 H2]]; [now left|right; split; [exact H1|lia]].
          + cbn [nth] in H. destruct H as [H|[H1 H2]]; [now left|]. right. split; [exact H1|].
            cbn [firstn] in H2 |- *. change (n * n' * prod (firstn (S k) sh) = 1) in H2. change (n * (n' * prod (firstn (S k) sh)) = 1). lia.
        - intros k K. cbn [length] in K. specialize (H (S k) ltac:(cbn [length]; lia)). cbn [nth] in H |- *. destruct k as [|k].
          + cbn [nth firstn prod fold_right] in H |- *. destruct H as [H|[H1 H2]]; [now left|right; split; [exact H1|lia]].
          + cbn [nth] in H. destruct H as [H|[H1 H2]]; [now left|]. right. split; [exact H1|].
            cbn [firstn] in H2 |- *. change (n * (n' * prod (firstn (S k) sh)) = 1) in H2. change (n * n' * prod (firstn (S k) sh) = 1). lia. }
      destruct (IH (n * n') s' st ltac:(lia)) as [[S C]|[S C]]; rewrite X in S; [left|right]; (split; [exact S|]); [|exact C].
      rewrite C. cbn [prod fold_right last]. fold (prod sh). now rewrite Nat.mul_assoc.
    + right. apply orb_false_iff in E as [E1 E2]. split.
      * intros H. destruct (H 0 ltac:(cbn [length]; lia)) as [H1|[H1 H2]]; cbn [nth firstn prod fold_right] in *.
        -- apply Nat.eqb_neq in E1. contradiction.
        -- rewrite H1, Nat.eqb_refl in E2. cbn [andb] in E2. apply Nat.eqb_neq in E2. lia.
      * destruct (collapse_go n' s' sh st) as [x y] eqn:C. cbn [fst length].
        assert (x <> []). { clear - C. revert C. revert n' s' st x y. induction sh as [|m sh IH]; intros n' s' [|t st] x y C; cbn [collapse_go] in C; try (injection C as <- <-; discriminate).
          destruct (_ || _); [eapply IH; eauto|]. destruct (collapse_go m t sh st) as [u w]. injection C as <- <-. discriminate. }
        destruct x; [contradiction|cbn [length]; lia].
Qed.

Lemma collapse_straight sh st : length st = length sh -> sh <> [] ->
  (straight sh st /\ collapse sh st = ([prod sh], [last st 0])) \/ (~ straight sh st /\ length (fst (collapse sh st)) <> 1).
Proof. destruct sh as [|n sh], st as [|s st]; cbn [length]; intros L N; try discriminate; try contradiction. apply (collapse_go_straight sh n s st). lia. Qed.

(** the lists returned by collapse have equal lengths *)
Lemma collapse_go_len sh : forall n s st, length (fst (collapse_go n s sh st)) = length (snd (collapse_go n s sh st)).
Proof.
  induction sh as [|n' sh IH]; intros n s [|s' st]; cbn [collapse_go]; try reflexivity.
  destruct (_ || _); [apply IH|]. specialize (IH n' s' st). destruct (collapse_go n' s' sh st). cbn [fst snd length] in *. lia.
Qed.
Lemma collapse_len sh st : length (fst (collapse sh st)) = length (snd (collapse sh st)).
Proof. destruct sh, st; try reflexivity. apply collapse_go_len. Qed.

(** the last move over an operand with the given layout is allowed *)
Definition edge {T} (h : heap T) (p : ptr) (sh st : list nat) : bool :=
  match collapse sh st with ([n], [s]) => lim h p s n | _ => true end.

Lemma bind_cut {A B} b (m : res A) (k : A -> res B) : bind (cut b m) k = match m with Ok x => if b then k x else Oob | Panic => Panic | Oob => Oob end.
Proof. destruct m; try reflexivity. destruct b; reflexivity. Qed.
Lemma cut_bind {A B} b (m : res A) (k : A -> res B) : cut b (bind m k) = match m with Ok x => cut b (k x) | Panic => Panic | Oob => Oob end.
Proof. destruct m; reflexivity. Qed.

Section Kernels.
  Context {T : Type}.
  Variable f : T -> T -> res T.
  Implicit Types (h : heap T).

  Lemma edge_one h p sh st n s : collapse sh st = ([n], [s]) -> edge h p sh st = lim h p s n.
  Proof. unfold edge. now intros ->. Qed.
  Lemma edge_many h p sh st : length (fst (collapse sh st)) <> 1 -> edge h p sh st = true.
  Proof. unfold edge. destruct (collapse sh st) as [[|x [|y l]] [|u [|v m]]]; cbn [fst length]; auto; lia. Qed.

  Lemma xn_cut h lhs lsh lst rhs rs dst n : p_xn f h lhs lsh lst rhs rs dst n = cut (slim h rhs rs n) (k_xn f h lhs lsh lst rhs rs dst n).
  Proof. unfold p_xn, k_xn. destruct (fig_list lsh lst); cbn [bind cut]; try reflexivity. apply p_xn_cut. Qed.
  Lemma nx_cut h lhs ls rhs rsh rst dst n : p_nx f h lhs ls rhs rsh rst dst n = cut (slim h lhs ls n) (k_nx f h lhs ls rhs rsh rst dst n).
  Proof. unfold p_nx, k_nx. destruct (fig_list rsh rst); cbn [bind cut]; try reflexivity. apply p_nx_cut. Qed.
  Lemma xx_cut h lhs lsh lst rhs rsh rst dst : p_xx f h lhs lsh lst rhs rsh rst dst = k_xx f h lhs lsh lst rhs rsh rst dst.
  Proof. unfold p_xx, k_xx. destruct (fig_list lsh lst); cbn [bind]; try reflexivity. destruct (fig_list rsh rst); cbn [bind]; try reflexivity. apply p_xx_eq. Qed.

  Lemma one_of (l m : list nat) : length l = length m -> length l = 1 -> exists x y, l = [x] /\ m = [y].
  Proof. destruct l as [|x [|]], m as [|y [|]]; cbn [length]; intros; try discriminate; eauto. Qed.

  Lemma binary_cut h lp ls rp rs dst sh : length ls = length sh -> length rs = length sh ->
    p_binary f h lp ls rp rs dst sh = cut (edge h lp sh ls && edge h rp sh rs) (k_binary f h lp ls rp rs dst sh).
  Proof.
    intros L1 L2. unfold p_binary, k_binary. destruct sh as [|n0 sh].
    { destruct ls, rs; try discriminate. cbn [length Nat.eqb andb]. unfold edge. cbn [collapse andb]. now rewrite cut_true. }
    destruct ((length ls =? 0) && (length rs =? 0)) eqn:Z; [apply andb_true_iff in Z as [Z _]; apply Nat.eqb_eq in Z; cbn [length] in L1; lia|].
    set (sh' := n0 :: sh) in *. assert (N : sh' <> []) by discriminate.
    pose proof (collapse_len sh' ls) as CL1. pose proof (collapse_len sh' rs) as CL2.
    destruct (collapse_straight sh' ls L1 N) as [[_ C1]|[_ C1]], (collapse_straight sh' rs L2 N) as [[_ C2]|[_ C2]].
    - rewrite (edge_one _ _ _ _ _ _ C1), (edge_one _ _ _ _ _ _ C2), C1, C2. cbn [last_of length csub Nat.ltb Nat.leb Nat.sub vget nth_error bind Nat.eqb andb].
      destruct (Nat.eqb_spec (last rs 0) 0) as [E0|E0].
      { rewrite E0. destruct (Nat.eqb_spec (last ls 0) 1) as [->|]; rewrite p_nn_cut; reflexivity. }
      destruct (Nat.eqb_spec (last ls 0) 0) as [E1|E1].
      { rewrite E1. destruct (Nat.eqb_spec (last rs 0) 1) as [->|]; rewrite p_nn_cut; reflexivity. }
      destruct (Nat.eqb_spec (last ls 0) 1) as [->|], (Nat.eqb_spec (last rs 0) 1) as [->|]; cbn [andb]; rewrite p_nn_cut; reflexivity.
    - rewrite (edge_one _ _ _ _ _ _ C1), (edge_many _ _ _ _ C2), C1, andb_true_r. destruct (collapse sh' rs) as [rsh rst]. cbn [fst snd] in *.
      cbn [last_of length csub Nat.ltb Nat.leb Nat.sub vget nth_error bind Nat.eqb andb].
      destruct (last_of rst) as [ri| |]; cbn [bind cut]; try reflexivity. destruct (vget rsh 0) as [rn| |]; cbn [bind cut]; try reflexivity.
      apply Nat.eqb_neq in C2. rewrite C2. cbn [andb].
      destruct (Nat.eqb_spec (last ls 0) 0) as [E1|E1]; [rewrite E1; apply nx_cut|]. destruct (Nat.eqb_spec (last ls 0) 1) as [E2|E2]; [rewrite E2|]; apply nx_cut.
    - rewrite (edge_one _ _ _ _ _ _ C2), (edge_many _ _ _ _ C1), C2. cbn [andb]. destruct (collapse sh' ls) as [lsh lst]. cbn [fst snd] in *.
      cbn [last_of length csub Nat.ltb Nat.leb Nat.sub vget nth_error bind Nat.eqb andb].
      change (csub (length [last rs 0]) 1) with (Ok 0).
      destruct (last_of lst) as [li| |]; cbn [bind cut]; try reflexivity. destruct (vget lsh 0) as [ln| |]; cbn [bind cut]; try reflexivity.
      apply Nat.eqb_neq in C1. rewrite C1. cbn [andb].
      destruct (Nat.eqb_spec (last rs 0) 0) as [E1|E1]; [rewrite E1; apply xn_cut|]. destruct (Nat.eqb_spec (last rs 0) 1) as [E2|E2]; [rewrite E2|]; apply xn_cut.
    - rewrite (edge_many _ _ _ _ C1), (edge_many _ _ _ _ C2), cut_true. destruct (collapse sh' ls) as [lsh lst], (collapse sh' rs) as [rsh rst]. cbn [fst snd] in *.
      destruct (last_of lst) as [li| |]; cbn [bind]; try reflexivity. destruct (last_of rst) as [ri| |]; cbn [bind]; try reflexivity.
      destruct (vget lsh 0) as [ln| |]; cbn [bind]; try reflexivity. destruct (vget rsh 0) as [rn| |]; cbn [bind]; try reflexivity.
      apply Nat.eqb_neq in C1, C2. rewrite C1, C2. cbn [andb]. apply xx_cut.
  Qed.

  Lemma scalar_cut h lp sh st c dst : length st = length sh -> p_scalar f h lp sh st c dst = cut (edge h lp sh st) (k_scalar f h lp sh st c dst).
  Proof.
    intros L. unfold p_scalar, k_scalar. destruct st as [|s st], sh as [|n sh]; try discriminate; [unfold edge; cbn [collapse]; now rewrite cut_true|].
    destruct (collapse_straight _ _ L ltac:(discriminate)) as [[_ C]|[_ C]].
    - rewrite (edge_one _ _ _ _ _ _ C), C. cbn [last_of length csub Nat.ltb Nat.leb Nat.sub vget nth_error bind Nat.eqb].
      destruct (Nat.eqb_spec (last (s :: st) 0) 1) as [->|]; rewrite p_nn_cut; cbn [slim]; now rewrite andb_true_r.
    - rewrite (edge_many _ _ _ _ C), cut_true. destruct (collapse (n :: sh) (s :: st)) as [x y]. cbn [fst] in C.
      destruct (last_of y); cbn [bind]; try reflexivity. apply Nat.eqb_neq in C. rewrite C. rewrite xn_cut. cbn [slim]. apply cut_true.
  Qed.

  Lemma unary_cut (g : T -> res T) h p sh st dst : length st = length sh -> p_unary g h p sh st dst = cut (edge h p sh st) (k_unary g h p sh st dst).
  Proof.
    intros L. unfold p_unary, k_unary. destruct st as [|s st], sh as [|n sh]; try discriminate; [unfold edge; cbn [collapse]; now rewrite cut_true|].
    destruct (collapse_straight _ _ L ltac:(discriminate)) as [[_ C]|[_ C]].
    - rewrite (edge_one _ _ _ _ _ _ C), C. cbn [length vget nth_error bind Nat.eqb].
      destruct (Nat.eqb_spec (last (s :: st) 0) 0) as [->|]; [apply p_un_cut|]. destruct (Nat.eqb_spec (last (s :: st) 0) 1) as [->|]; apply p_un_cut.
    - rewrite (edge_many _ _ _ _ C), cut_true. destruct (collapse (n :: sh) (s :: st)) as [x y]. cbn [fst] in C. apply Nat.eqb_neq in C. rewrite C.
      destruct (fig_list x y); cbn [bind]; try reflexivity. apply p_ux_eq.
  Qed.
End Kernels.

(** ** Conditions on an array whose allocation has n cells *)
(** a loop over a straight operand, one over an evenly strided one (stretched axes count as even) *)
Definition overrun (n : nat) (a : arr) : Prop :=
  straight (a_shape a) (a_stride a) /\ beyond n (a_off a) (a_shape a) (a_stride a).
Definition overrun_even (n : nat) (a : arr) : Prop :=
  evenly (a_shape a) (a_stride a) /\ beyond n (a_off a) (a_shape a) (a_stride a).

(** Rust's rule turns an accepted operation into undefined behaviour exactly when [bad]; it
    changes nothing else. *)
Definition exactly {A} (bad : Prop) (plain strict : res A) : Prop :=
  match plain with Ok r => (bad /\ strict = Oob) \/ (~ bad /\ strict = Ok r) | e => strict = e end.

Lemma live_size {T} (h : heap T) b n : live h b n -> size h b = Some n.
Proof. intros (l & E & L). unfold size. now rewrite E, L. Qed.
Lemma size_app {T} (h h2 : heap T) b n : size h b = Some n -> size (h ++ h2) b = Some n.
Proof.
  unfold size. intros E. destruct (nth_error h b) eqn:N; [|discriminate]. rewrite nth_error_app1; [now rewrite N|]. apply nth_error_Some. congruence.
Qed.
Lemma lim_beyond {T} (h : heap T) p n sh st : size h (fst p) = Some n -> lim h p (last st 0) (prod sh) = true <-> ~ beyond n (snd p) sh st.
Proof.
  intros S. unfold lim, beyond. rewrite S. rewrite !orb_true_iff, !Nat.eqb_eq, Nat.leb_le.
  split; [intros H (A & B & C); lia|]. intros H. destruct (Nat.eq_dec (last st 0) 0); [tauto|]. destruct (Nat.eq_dec (prod sh) 0); [tauto|].
  right. destruct (Nat.le_gt_cases (snd p + prod sh * last st 0) n); [assumption|]. exfalso. apply H. auto.
Qed.
Lemma edge_spec {T} (h : heap T) p n sh st : length st = length sh -> size h (fst p) = Some n ->
  edge h p sh st = true <-> ~ (straight sh st /\ beyond n (snd p) sh st).
Proof.
  intros L S. destruct sh as [|n0 sh].
  { destruct st; [|discriminate]. unfold edge. cbn [collapse]. split; [intros _ (_ & _ & B & _); now apply B|reflexivity]. }
  destruct (collapse_straight (n0 :: sh) st L ltac:(discriminate)) as [[H C]|[H C]].
  - rewrite (edge_one _ _ _ _ _ _ C). rewrite (lim_beyond h p n) by exact S. tauto.
  - rewrite (edge_many _ _ _ _ C). tauto.
Qed.
Lemma exactly_cut {A} (bad : Prop) b (r : res A) : (b = true <-> ~ bad) -> (b = false -> bad) -> exactly bad r (cut b r).
Proof. intros H1 H2. unfold exactly, cut. destruct r; try reflexivity. destruct b; [right|left]; tauto. Qed.
Lemma edge_false {T} (h : heap T) p n sh st : length st = length sh -> size h (fst p) = Some n ->
  edge h p sh st = false -> straight sh st /\ beyond n (snd p) sh st.
Proof.
  intros L S E. destruct sh as [|n0 sh]; [destruct st; discriminate|].
  destruct (collapse_straight (n0 :: sh) st L ltac:(discriminate)) as [[H C]|[H C]].
  - rewrite (edge_one _ _ _ _ _ _ C) in E. split; [exact H|]. unfold lim in E. rewrite S in E. apply orb_false_iff in E as [E E2]. apply orb_false_iff in E as [E E1].
    apply Nat.eqb_neq in E, E1. apply Nat.leb_gt in E2. repeat split; auto.
  - rewrite (edge_many _ _ _ _ C) in E. discriminate.
Qed.
Lemma exactly_bind {A B} bad b (m : res A) (k : A -> B) : (b = true <-> ~ bad) -> (b = false -> bad) ->
  exactly bad (x <- m ;; Ok (k x)) (x <- cut b m ;; Ok (k x)).
Proof. intros H1 H2. destruct m; cbn [bind cut exactly]; auto. destruct b; cbn [bind]; [right|left]; tauto. Qed.

Lemma exactly_bind_ok {A B} bad b (m : res A) (k : A -> res B) : (forall x, exists y, k x = Ok y) -> (b = true <-> ~ bad) -> (b = false -> bad) ->
  exactly bad (bind m k) (bind (cut b m) k).
Proof. intros K H1 H2. destruct m as [x| |]; cbn [bind cut exactly]; auto. destruct (K x) as (y & E). rewrite E. destruct b; cbn [bind]; [right; rewrite E|left]; tauto. Qed.

Section Ops.
  Lemma off_edge {T} (h' : heap T) a n : wf a -> size h' (a_blk a) = Some n -> (edge h' (a_ptr a) (a_shape a) (a_stride a) = true <-> ~ overrun n a) /\
    (edge h' (a_ptr a) (a_shape a) (a_stride a) = false -> overrun n a).
  Proof. intros W S. split; [apply (edge_spec h' (a_ptr a) n); [apply W|exact S]|apply (edge_false h' (a_ptr a) n); [apply W|exact S]]. Qed.

  Lemma off_edge_sh {T} (h' : heap T) a n sh : a_shape a = sh -> wf a -> size h' (a_blk a) = Some n -> (edge h' (a_ptr a) sh (a_stride a) = true <-> ~ overrun n a) /\
    (edge h' (a_ptr a) sh (a_stride a) = false -> overrun n a).
  Proof. intros <-. apply off_edge. Qed.
  Lemma two_edges (P Q : Prop) (x y : bool) : (x = true <-> ~ P) /\ (x = false -> P) -> (y = true <-> ~ Q) /\ (y = false -> Q) ->
    (x && y = true <-> ~ (P \/ Q)) /\ (x && y = false -> P \/ Q).
  Proof. intros [A B] [C D]. rewrite andb_true_iff. split; [tauto|]. destruct x; cbn [andb]; intros H; [right; auto|left; auto]. Qed.
End Ops.

Lemma broadcast_to_parts a sh a' : wf a -> broadcastable (a_shape a) sh -> nd_broadcast_to a sh = Ok a' ->
  broadcast_stride (a_stride a) sh (a_shape a) = Ok (a_stride a') /\ a_ptr a' = a_ptr a /\ a_shape a' = sh /\ length (a_stride a') = length sh.
Proof.
  intros W B. unfold nd_broadcast_to. rewrite (broadcast_shape_ok _ _ B). cbn [bind].
  destruct (broadcast_stride_ok _ _ _ W B) as (bst & E & L & _). rewrite E. cbn [bind]. intros [= <-]. cbn. auto.
Qed.

(** a op b: undefined exactly when one of the stretched operands overruns *)
Theorem C76_binary : forall T (f : T -> T -> res T) d h a b n1 n2, wf a -> wf b -> live h (a_blk a) n1 -> live h (a_blk b) n2 ->
  (forall sh a' b', join_shape (a_shape a) (a_shape b) sh -> nd_broadcast_to a sh = Ok a' -> nd_broadcast_to b sh = Ok b' ->
    exactly (overrun n1 a' \/ overrun n2 b') (nd_binary f d h a b) (pd_binary f d h a b)) /\
  ((forall sh, ~ join_shape (a_shape a) (a_shape b) sh) -> pd_binary f d h a b = Panic).
Proof.
  intros T f d h a b n1 n2 Wa Wb L1 L2. split.
  - intros sh a' b' J Ea Eb. unfold nd_binary, pd_binary. rewrite (proj2 (broadcast_shapes_ok_iff _ _ _) J). cbn [bind].
    destruct (broadcast_to_parts _ _ _ Wa (join_shape_broadcastable_l _ _ _ J) Ea) as (-> & PA & SA & LA).
    destruct (broadcast_to_parts _ _ _ Wb (join_shape_broadcastable_r _ _ _ J) Eb) as (-> & PB & SB & LB). cbn [bind alloc].
    rewrite binary_cut by assumption. rewrite <- PA, <- PB.
    destruct (two_edges (overrun n1 a') (overrun n2 b') (edge (h ++ [Some (repeat d (prod sh))]) (a_ptr a') sh (a_stride a')) (edge (h ++ [Some (repeat d (prod sh))]) (a_ptr b') sh (a_stride b'))) as [H1 H2].
    + apply off_edge_sh; [exact SA|unfold wf; congruence|]. apply size_app. rewrite (f_equal fst PA : a_blk a' = a_blk a). now apply live_size.
    + apply off_edge_sh; [exact SB|unfold wf; congruence|]. apply size_app. rewrite (f_equal fst PB : a_blk b' = a_blk b). now apply live_size.
    + now apply exactly_bind.
  - intros N. unfold pd_binary. destruct (broadcast_shapes (a_shape a) (a_shape b)) as [sh| |] eqn:E; cbn [bind]; try reflexivity.
    + apply broadcast_shapes_ok_iff in E. now elim (N sh).
    + exfalso. assert (broadcast_shapes (a_shape a) (a_shape b) = Panic) by (destruct (broadcast_shapes_char (a_shape a) (a_shape b)) as [(r & E2 & J)|[E2 _]]; [now elim (N r)|exact E2]). congruence.
Qed.
Print Assumptions C76_binary.

Theorem C76_scalar_op : forall T (f : T -> T -> res T) d h a c n, wf a -> live h (a_blk a) n -> exactly (overrun n a) (nd_scalar_op f d h a c) (pd_scalar_op f d h a c).
Proof.
  intros T f d h a c n W L. unfold nd_scalar_op, pd_scalar_op. cbn [alloc]. rewrite scalar_cut by exact W.
  edestruct (off_edge (h ++ [Some (repeat d (prod (a_shape a)))]) a n W) as [H1 H2]; [apply size_app; now apply live_size|]. now apply exactly_bind.
Qed.
Print Assumptions C76_scalar_op.

Theorem C76_neg : forall T (g : T -> res T) d h a n, wf a -> live h (a_blk a) n -> exactly (overrun n a) (nd_unary g d h a) (pd_unary g d h a).
Proof.
  intros T g d h a n W L. unfold nd_unary, pd_unary. cbn [alloc]. rewrite unary_cut by exact W.
  edestruct (off_edge (h ++ [Some (repeat d (prod (a_shape a)))]) a n W) as [H1 H2]; [apply size_app; now apply live_size|]. now apply exactly_bind.
Qed.
Print Assumptions C76_neg.

(** a op= b: b' is b, stretched to the shape of a if it has another *)
Theorem C76_assign : forall T (f : T -> T -> res T) h a b b' n1 n2, wf a -> wf b -> live h (a_blk a) n1 -> live h (a_blk b) n2 ->
  (a_shape b = a_shape a /\ b' = b \/ a_shape b <> a_shape a /\ nd_broadcast_to b (a_shape a) = Ok b') ->
  exactly (overrun n1 a \/ overrun n2 b') (nd_assign f h a b) (pd_assign f h a b).
Proof.
  intros T f h a b b' n1 n2 Wa Wb L1 L2 B. unfold nd_assign, pd_assign. destruct (f_write (a_fl a)); cbn [guard bind exactly]; [|reflexivity].
  destruct (list_eqb (a_shape b) (a_shape a)) eqn:E.
  - apply list_eqb_spec in E. destruct B as [[_ ->]|[N _]]; [|contradiction]. rewrite binary_cut; [|exact Wa|rewrite <- E; exact Wb].
    destruct (two_edges (overrun n1 a) (overrun n2 b) (edge h (a_ptr a) (a_shape a) (a_stride a)) (edge h (a_ptr b) (a_shape a) (a_stride b))) as [H1 H2].
    + apply off_edge; [exact Wa|now apply live_size].
    + apply off_edge_sh; [exact E|exact Wb|now apply live_size].
    + now apply exactly_cut.
  - destruct B as [[E2 _]|[_ EB]]; [apply list_eqb_spec in E2; congruence|]. rewrite EB. cbn [bind].
    assert (BC : broadcastable (a_shape b) (a_shape a)). { destruct (SpecRef.broadcastableb (a_shape b) (a_shape a)) eqn:X; [now apply RefFacts.broadcastableb_spec|]. rewrite nd_broadcast_to_panic in EB; [discriminate|]. rewrite <- RefFacts.broadcastableb_spec. congruence. }
    destruct (broadcast_to_parts _ _ _ Wb BC EB) as (_ & PB & SB & LB). rewrite binary_cut; [|exact Wa|exact LB].
    destruct (two_edges (overrun n1 a) (overrun n2 b') (edge h (a_ptr a) (a_shape a) (a_stride a)) (edge h (a_ptr b') (a_shape a) (a_stride b'))) as [H1 H2].
    + apply off_edge; [exact Wa|now apply live_size].
    + apply off_edge_sh; [exact SB|unfold wf; congruence|]. rewrite (f_equal fst PB : a_blk b' = a_blk b). now apply live_size.
    + now apply exactly_cut.
Qed.
Print Assumptions C76_assign.

Theorem C76_assign_scalar : forall T (f : T -> T -> res T) h a c n, wf a -> live h (a_blk a) n -> exactly (overrun n a) (nd_assign_scalar f h a c) (pd_assign_scalar f h a c).
Proof.
  intros T f h a c n W L. unfold nd_assign_scalar, pd_assign_scalar. destruct (f_write (a_fl a)); cbn [guard bind exactly]; [|reflexivity].
  rewrite scalar_cut by exact W. destruct (off_edge h a n W) as [H1 H2]; [now apply live_size|]. now apply exactly_cut.
Qed.
Print Assumptions C76_assign_scalar.

(** sum, product, min, max, and magnitudes, of the whole array *)
Theorem C76_reduce : forall T (g : T -> T -> res T) d h a n, wf a -> live h (a_blk a) n -> exactly (overrun_even n a) (nd_reduce g d h a) (pd_reduce g d h a).
Proof.
  intros T g d h a n W L. unfold nd_reduce, pd_reduce, k_reduce, p_reduce. unfold overrun_even.
  destruct (uniform_dec (a_shape a) (a_stride a) W) as [[E U]|[E U]]; rewrite U.
  - assert (K : (if last (a_stride a) 0 =? 1 then p_fold_run g h (a_ptr a) (prod (a_shape a)) 1 d else p_fold_run g h (a_ptr a) (prod (a_shape a)) (last (a_stride a) 0) d) =
      cut (lim h (a_ptr a) (last (a_stride a) 0) (prod (a_shape a))) (if last (a_stride a) 0 =? 1 then fold_run g h (a_ptr a) (prod (a_shape a)) 1 d else fold_run g h (a_ptr a) (prod (a_shape a)) (last (a_stride a) 0) d)).
    { destruct (Nat.eqb_spec (last (a_stride a) 0) 1) as [->|]; apply p_fold_cut. }
    rewrite K. clear K. pose proof (lim_beyond h (a_ptr a) n (a_shape a) (a_stride a) (live_size _ _ _ L)) as B.
    apply exactly_bind_ok; [intros v; unfold nd_scalar, nd_full; cbn; eauto|cbn [a_ptr snd] in B; tauto|].
    intros Z. split; [exact E|]. destruct (Nat.eq_dec (prod (a_shape a)) 0) as [P|P].
    { rewrite P in Z. now rewrite lim0 in Z. }
    destruct (Nat.eq_dec (last (a_stride a) 0) 0) as [Q|Q]; [rewrite Q in Z; discriminate|]. split; [exact P|]. split; [exact Q|].
    destruct (Nat.le_gt_cases (a_off a + prod (a_shape a) * last (a_stride a) 0) n); [|assumption]. exfalso.
    assert (lim h (a_ptr a) (last (a_stride a) 0) (prod (a_shape a)) = true) by (apply B; unfold beyond; cbn [a_ptr snd]; lia). congruence.
  - destruct (fig_list _ _) as [is| |]; cbn [bind exactly]; try reflexivity. destruct (fold_idx g h (a_ptr a) is d) as [v| |]; cbn [bind exactly]; try reflexivity.
    destruct (nd_scalar h v) as [r| |]; cbn [exactly]; try reflexivity. right. tauto.
Qed.
Print Assumptions C76_reduce.

(** ** Loops that may also panic half-way *)
(** k moves by s from the cell off end past the one-past-the-end cell of n cells *)
Definition past (n off s k : nat) : Prop := k <> 0 /\ s <> 0 /\ n < off + k * s.
(** As [exactly]; an operation that panics in a later round may be undefined before it panics. *)
Definition exactly_early {A} (bad : Prop) (plain strict : res A) : Prop :=
  match plain with
  | Ok r => (bad /\ strict = Oob) \/ (~ bad /\ strict = Ok r)
  | Panic => strict = Panic \/ (bad /\ strict = Oob)
  | Oob => strict = Oob
  end.

Lemma lim_past {T} (h : heap T) p n s k : size h (fst p) = Some n -> lim h p s k = false <-> past n (snd p) s k.
Proof.
  intros S. unfold lim, past. rewrite S, !orb_false_iff, !Nat.eqb_neq, Nat.leb_gt. tauto.
Qed.
Lemma early_exactly {A} bad b (plain strict : res A) : (b = false <-> bad) -> early b plain strict -> exactly_early bad plain strict.
Proof.
  intros H E. destruct plain; cbn [early exactly_early] in *; auto.
  - destruct b; subst strict; [right|left]; split; auto; [intros B; apply H in B; discriminate|now apply H].
  - destruct E as [E|[E1 E2]]; [now left|right]. split; [now apply H|exact E2].
Qed.
Lemma early_bind {A B} b (plain strict : res A) (k : A -> B) : early b plain strict -> early b (x <- plain ;; Ok (k x)) (x <- strict ;; Ok (k x)).
Proof. destruct plain; cbn [early bind]; intros E; [subst; destruct b; reflexivity|destruct E as [->|[-> ->]]; cbn [bind]; auto|now subst]. Qed.

(** a.dot(b) of vectors *)
Theorem C76_dot : forall T (zero : T) add mul h a b n1 n2, wf a -> wf b -> live h (a_blk a) n1 -> live h (a_blk b) n2 ->
  exactly_early (overrun n1 a \/ overrun n2 b) (nd_dot zero add mul h a b) (pd_dot zero add mul h a b).
Proof.
  intros T zero add mul h a b n1 n2 Wa Wb L1 L2. unfold nd_dot, pd_dot. unfold wf in *.
  destruct (a_shape a) as [|n [|]] eqn:Sa; try (now left). destruct (a_shape b) as [|m [|]] eqn:Sb; try (now left).
  destruct (a_stride a) as [|s [|]] eqn:Ta; try discriminate. destruct (a_stride b) as [|t [|]] eqn:Tb; try discriminate.
  destruct (Nat.eqb_spec n m) as [->|]; cbn [guard bind]; [|now left]. unfold nd_scalar, nd_full, from_buffer. cbn [prod fold_right repeat length Nat.eqb negb guard alloc bind].
  match goal with |- context [strided_dot zero add mul ?hh] => set (h1 := hh) end.
  assert (S1 : size h1 (a_blk a) = Some n1) by (apply size_app; now apply live_size). assert (S2 : size h1 (a_blk b) = Some n2) by (apply size_app; now apply live_size).
  eapply (early_exactly _ (lim h1 (a_ptr a) s m && lim h1 (a_ptr b) t m)); [|apply (early_bind _ _ _ (fun h2 => (h2, _))); apply p_strided_early].
  rewrite andb_false_iff, (lim_past _ _ n1), (lim_past _ _ n2) by assumption. unfold overrun, beyond, past. rewrite Sa, Sb, Ta, Tb. cbn [prod fold_right last a_ptr snd].
  rewrite Nat.mul_1_r. assert (straight [m] [s] /\ straight [m] [t]) by (split; intros k K; cbn [length] in K; lia). tauto.
Qed.
Print Assumptions C76_dot.

(** matrix times vector: after the last row, after the last element of the last row, after the vector *)
Theorem C76_matvec : forall T (zero one : T) add mul fma h a b n1 n2 rows cols m rs s t,
  a_shape a = [rows; cols] -> a_stride a = [rs; s] -> a_shape b = [m] -> a_stride b = [t] -> live h (a_blk a) n1 -> live h (a_blk b) n2 ->
  exactly_early (rows <> 0 /\ (past n1 (a_off a) rs rows \/ past n1 (a_off a + (rows - 1) * rs) s cols \/ past n2 (a_off b) t cols))
    (nd_matmul zero one add mul fma h a b) (pd_matvec zero add mul h a b).
Proof.
  intros T zero one add mul fma h a b n1 n2 rows cols m rs s t Sa Ta Sb Tb L1 L2. unfold nd_matmul, pd_matvec. rewrite Sa, Sb, Ta, Tb.
  destruct (Nat.eqb_spec cols m) as [->|]; cbn [guard bind]; [|now left]. cbn [alloc].
  set (h1 := h ++ [Some (repeat zero rows)]).
  assert (S1 : size h1 (a_blk a) = Some n1) by (apply size_app; now apply live_size). assert (S2 : size h1 (a_blk b) = Some n2) by (apply size_app; now apply live_size).
  eapply (early_exactly _ (mv_lim h1 (a_ptr a) rs s (a_ptr b) t m rows)); [|apply (early_bind _ _ _ (fun h2 => (h2, _))); apply p_matvec_early].
  unfold mv_lim. rewrite orb_false_iff, !andb_false_iff, Nat.eqb_neq, (lim_past _ (a_ptr a) n1), (lim_past _ (padd (a_ptr a) _) n1), (lim_past _ (a_ptr b) n2) by assumption.
  cbn [padd a_ptr snd]. tauto.
Qed.
Print Assumptions C76_matvec.

(** bmm: after the last matrix of either operand *)
Theorem C76_bmm : forall T (zero one : T) add mul fma h a b n1 n2, live h (a_blk a) n1 -> live h (a_blk b) n2 ->
  exactly_early (past n1 (a_off a) (nth 0 (a_stride a) 0) (nth 0 (a_shape a) 0) \/ past n2 (a_off b) (nth 0 (a_stride b) 0) (nth 0 (a_shape b) 0))
    (nd_bmm zero one add mul fma h a b) (pd_bmm zero one add mul fma h a b).
Proof.
  intros T zero one add mul fma h a b n1 n2 L1 L2. unfold nd_bmm, pd_bmm.
  destruct (a_shape a) as [|n [|i [|j [|]]]] eqn:Sa; try (now left). destruct (a_shape b) as [|n' [|j' [|k [|]]]] eqn:Sb; try (now left).
  destruct (Nat.eqb_spec n n') as [<-|]; cbn [guard bind]; [|now left]. unfold nd_full, from_buffer. destruct (guard _) as [[]| |] eqn:EG; cbn [bind]; [|now left|reflexivity]. cbn [alloc].
  set (h1 := h ++ [Some (repeat zero (prod [n; i; k]))]). set (r := fresh_arr _ _ _).
  assert (SL : forall x la, nd_slice_along x 0 (IUsize 0) = Ok la -> a_ptr la = a_ptr x).
  { intros x la E. unfold nd_slice_along in E. apply bind_Ok_inv in E as (ax & _ & E). apply bind_Ok_inv in E as (q & _ & E). apply bind_Ok_inv in E as (w & _ & E).
    apply bind_Ok_inv in E as ([sh st] & _ & E). apply bind_Ok_inv in E as (len & _ & E). injection E as <-. unfold a_ptr. cbn [a_blk a_off index_first]. now rewrite Nat.mul_0_r, Nat.add_0_r. }
  destruct (nd_slice_along a 0 (IUsize 0)) as [la| |] eqn:Ea; cbn [bind]; [|now left|reflexivity].
  destruct (nd_slice_along b 0 (IUsize 0)) as [lb| |] eqn:Eb; cbn [bind]; [|now left|reflexivity].
  destruct (a_stride a) as [|sa ta]; [now left|]. destruct (a_stride b) as [|sb tb]; [now left|]. cbn [vget nth_error bind nth].
  assert (RS : a_stride r = [i * k; k; 1]) by (unfold r, fresh_arr, stride_from_shape; cbn [a_stride stride_from_shape_go fst]; repeat (f_equal; try lia)).
  rewrite RS. cbn [nth_error bind tl].
  assert (S1 : size h1 (a_blk a) = Some n1) by (apply size_app; now apply live_size). assert (S2 : size h1 (a_blk b) = Some n2) by (apply size_app; now apply live_size).
  eapply (early_exactly _ (lim h1 (a_ptr la) sa n && lim h1 (a_ptr lb) sb n)); [|apply (early_bind _ _ _ (fun h2 => (h2, _))); apply p_bmm_early].
  - rewrite (SL _ _ Ea), (SL _ _ Eb), andb_false_iff, (lim_past _ _ n1), (lim_past _ _ n2) by assumption. reflexivity.
  - right. exists (prod [n; i; k]). unfold r. cbn [a_ptr fresh_arr a_blk a_off fst snd]. split.
    + unfold size, h1. rewrite nth_error_app2, Nat.sub_diag by lia. cbn [nth_error]. now rewrite repeat_length.
    + cbn [prod fold_right]. nia.
Qed.
Print Assumptions C76_bmm.

(** einsum: never *)
Theorem C76_einsum : forall T (zero one : T) add mul fma h ops subs out, pd_einsum zero one add mul fma h ops subs out = nd_einsum zero one add mul fma h ops subs out.
Proof.
  intros T zero one add mul fma h ops subs out. unfold pd_einsum, nd_einsum. destruct (prepare_einsum ops subs out) as [[[strides ish] osh]| |]; cbn [bind]; try reflexivity.
  cbn [alloc]. now rewrite p_run_eq.
Qed.
Print Assumptions C76_einsum.

(** ** fill *)
(** A block whose strides look even is filled in one run; another one is filled sub-block by
    sub-block, and the pointer moves past the last of them.  The given length is used when the
    step is 1 (it is the number of elements for every array that was not stretched). *)
Fixpoint fill_over (n off : nat) (sh st : list nat) (len : nat) : Prop :=
  evenly sh st /\ past n off (last st 0) (if last st 0 =? 1 then len else prod sh) \/
  ~ evenly sh st /\ match sh, st with
    | n0 :: sh', s0 :: st' => past n off s0 n0 \/ exists j, j < n0 /\ fill_over n (off + j * s0) sh' st' (nth 0 sh' 0 * nth 0 st' 0)
    | _, _ => False
    end.

Lemma forallb_seq_false (f : nat -> bool) n : forallb f (seq 0 n) = false <-> exists j, j < n /\ f j = false.
Proof.
  split.
  - intros E. destruct (existsb (fun j => negb (f j)) (seq 0 n)) eqn:X.
    + apply existsb_exists in X as (j & I & J). apply in_seq in I. exists j. split; [lia|]. now destruct (f j).
    + exfalso. assert (forallb f (seq 0 n) = true); [|congruence]. apply forallb_forall. intros j I. destruct (f j) eqn:F; [reflexivity|].
      assert (existsb (fun j => negb (f j)) (seq 0 n) = true); [|congruence]. apply existsb_exists. exists j. now rewrite F.
  - intros (j & J & F). destruct (forallb f (seq 0 n)) eqn:E; [|reflexivity]. rewrite forallb_forall in E. rewrite E in F; [discriminate|]. apply in_seq. lia.
Qed.
Lemma fill_lim_over {T} (h : heap T) n sh : forall p st len, length st = length sh -> size h (fst p) = Some n ->
  fill_lim h p sh st len = false <-> fill_over n (snd p) sh st len.
Proof.
  induction sh as [|n0 sh IH]; intros p st len L S.
  - destruct st; [|discriminate]. cbn [fill_lim has_uniform_stride Nat.eqb fill_over last]. rewrite lim_zero. unfold past. split; [discriminate|tauto].
  - destruct st as [|s0 st]; [discriminate|]. cbn [fill_lim fill_over].
    destruct (uniform_dec (n0 :: sh) (s0 :: st) L) as [[E U]|[E U]]; rewrite U.
    + destruct (Nat.eqb_spec (last (s0 :: st) 0) 1) as [Q|Q]; rewrite (lim_past _ _ n) by exact S; [rewrite Q|]; tauto.
    + rewrite andb_false_iff, forallb_seq_false, (lim_past _ _ n) by exact S.
      assert (X : (exists j, j < n0 /\ fill_lim h (padd p (j * s0)) sh st (nth 0 sh 0 * nth 0 st 0) = false) <->
        (exists j, j < n0 /\ fill_over n (snd p + j * s0) sh st (nth 0 sh 0 * nth 0 st 0))).
      { split; intros (j & J & F); exists j; (split; [exact J|]); apply (IH (padd p (j * s0))); auto; cbn [length] in L; lia. }
      rewrite X. tauto.
Qed.
Theorem C76_fill : forall T h a (v : T) n, wf a -> live h (a_blk a) n -> exactly (fill_over n (a_off a) (a_shape a) (a_stride a) (a_len a)) (nd_fill h a v) (pd_fill h a v).
Proof.
  intros T h a v n W L. unfold nd_fill, pd_fill. destruct (p_fill_cut v (a_shape a) h (a_ptr a) (a_stride a) (a_len a) W) as (E & _ & _). rewrite E.
  pose proof (fill_lim_over h n (a_shape a) (a_ptr a) (a_stride a) (a_len a) W (live_size _ _ _ L)) as F. cbn [a_ptr snd] in F.
  apply exactly_cut; rewrite <- F; destruct (fill_lim _ _ _ _ _); intuition congruence.
Qed.
Print Assumptions C76_fill.

(** iter_along: after the last item *)
Theorem C76_iter_along : forall T (h : heap T) a axis k n, wf a -> live h (a_blk a) n -> as_absolute axis (length (a_shape a)) = Ok k ->
  exactly_early (past n (a_off a) (nth k (a_stride a) 0) (nth k (a_shape a) 0)) (nd_iter_along h a axis) (pd_iter_along h a axis).
Proof.
  intros T h a axis k n W L E. unfold nd_iter_along, pd_iter_along. rewrite E. cbn [bind]. unfold nd_nditer, pd_nditer, nditer_from.
  destruct (as_absolute_inv _ _ _ E) as [K _]. rewrite (split_one (a_shape a) k K). rewrite (split_one (a_stride a) k) by (unfold wf in W; lia). cbn [bind fst snd length repeat prod fold_right].
  rewrite Nat.mul_1_r. cbn [it_size].
  eapply early_exactly; [|eapply (p_collect_early (nth k (a_shape a) 0) (nth k (a_stride a) 0) n (nth k (a_shape a) 0) 0 h); [lia|]].
  - apply (lim_past h (a_ptr a) n). now apply live_size.
  - cbn [reshaped_view a_blk]. now apply live_size.
Qed.
Print Assumptions C76_iter_along.

(** slices: the pointer of the result *)
Theorem C76_slice : forall T (h : heap T) a n, live h (a_blk a) n -> a_off a <= n ->
  (forall ixs r, nd_slice a ixs = Ok r -> pd_slice h a ixs = if a_off r <=? n then Ok r else Oob) /\
  (forall axis ix r, nd_slice_along a axis ix = Ok r -> pd_slice_along h a axis ix = if a_off r <=? n then Ok r else Oob).
Proof.
  intros T h a n L O.
  assert (M : forall r, a_off a <= a_off r -> (_ <- move h (a_ptr a) (a_off r - a_off a) ;; Ok r) = if a_off r <=? n then Ok r else Oob).
  { intros r R. rewrite move_size. cbn [a_ptr fst snd]. rewrite (live_size _ _ _ L). replace (a_off a + (a_off r - a_off a)) with (a_off r) by lia.
    destruct (Nat.eqb_spec (a_off r - a_off a) 0) as [Z|Z]; cbn [orb]; [|destruct (a_off r <=? n); reflexivity]. assert (a_off r <=? n = true) as -> by (apply Nat.leb_le; lia). reflexivity. }
  split.
  - intros ixs r E. unfold pd_slice. rewrite E. cbn [bind]. apply M. unfold nd_slice in E. apply bind_Ok_inv in E as ([[o sh] st] & _ & E). apply bind_Ok_inv in E as (len & _ & E). injection E as <-. cbn [a_off]. lia.
  - intros axis ix r E. unfold pd_slice_along. rewrite E. cbn [bind]. apply M. unfold nd_slice_along in E. apply bind_Ok_inv in E as (ax & _ & E). apply bind_Ok_inv in E as (q & _ & E). apply bind_Ok_inv in E as (w & _ & E).
    apply bind_Ok_inv in E as ([sh st] & _ & E). apply bind_Ok_inv in E as (len & _ & E). injection E as <-. cbn [a_off]. lia.
Qed.
Print Assumptions C76_slice.

(** ** Which arrays overrun *)
Lemma straight_tail n s sh st : straight (n :: sh) (s :: st) -> straight sh st.
Proof.
  intros H k K. specialize (H (S k) ltac:(cbn [length]; lia)). cbn [nth firstn] in H. destruct H as [H|[H1 H2]]; [now left|right]. split; [exact H1|].
  change (n * prod (firstn (S k) sh) = 1) in H2. now apply Nat.eq_mul_1 in H2 as [_ ?].
Qed.
Lemma straight_head sh : forall n s st, length st = length sh -> straight (n :: sh) (s :: st) -> 1 < n -> s = prod sh * last (s :: st) 0.
Proof.
  induction sh as [|n' sh IH]; intros n s [|s' st] L H N; cbn [length] in L; try discriminate; [cbn; lia|].
  assert (Z : forall k, S k < length (n :: n' :: sh) -> nth k (s :: s' :: st) 0 = nth (S k) (n :: n' :: sh) 0 * nth (S k) (s :: s' :: st) 0).
  { intros k K. destruct (H k K) as [Q|[_ Q]]; [exact Q|]. exfalso. cbn [firstn] in Q. change (n * prod (firstn k (n' :: sh)) = 1) in Q. apply Nat.eq_mul_1 in Q as [? _]. lia. }
  clear IH H. change (last (s :: s' :: st) 0) with (last (s' :: st) 0).
  assert (W : forall sh st n s, length st = length sh -> (forall k, S k < length (n :: sh) -> nth k (s :: st) 0 = nth (S k) (n :: sh) 0 * nth (S k) (s :: st) 0) -> s = prod sh * last (s :: st) 0).
  { clear. induction sh as [|n' sh IH]; intros [|s' st] n s L Z; cbn [length] in L; try discriminate; [cbn; lia|].
    pose proof (Z 0 ltac:(cbn [length]; lia)) as Z0. cbn [nth] in Z0. change (last (s :: s' :: st) 0) with (last (s' :: st) 0). rewrite Z0 at 1.
    rewrite (IH st n' s') at 1; [change (prod (n' :: sh)) with (n' * prod sh); lia|lia|]. intros k K. apply (Z (S k)). cbn [length] in K |- *. lia. }
  apply (W (n' :: sh) (s' :: st) n s); [cbn [length]; lia|exact Z].
Qed.
Lemma straight_dot sh : forall st idx, length st = length sh -> straight sh st -> in_range idx sh -> dot idx st = rank idx sh * last st 0.
Proof.
  induction sh as [|n sh IH]; intros [|s st] idx L H R; cbn [length] in L; try discriminate; inversion R as [|i ? idx' ? HI R']; subst; [reflexivity|].
  cbn [dot rank]. destruct sh as [|n' sh].
  - destruct st; [|discriminate]. inversion R'; subst. cbn. lia.
  - destruct st as [|s' st]; [discriminate|]. rewrite (IH (s' :: st) idx' ltac:(cbn [length] in *; lia) (straight_tail _ _ _ _ H) R'). change (last (s :: s' :: st) 0) with (last (s' :: st) 0).
    destruct i as [|i]; [lia|]. pose proof (straight_head (n' :: sh) n s (s' :: st) ltac:(cbn [length] in *; lia) H ltac:(lia)) as Q. change (last (s :: s' :: st) 0) with (last (s' :: st) 0) in Q. rewrite Q at 1. lia.
Qed.

(** A step of 0 or 1 never overruns: contiguous arrays, row ranges, rows, scalars. *)
Theorem C76_unit_step : forall T (h : heap T) a n, valid h a -> live h (a_blk a) n -> last (a_stride a) 0 <= 1 -> ~ overrun n a.
Proof.
  intros T h a n [W V] (l & EB & L) S [H (P & Q & B)]. assert (last (a_stride a) 0 = 1) as E by lia. rewrite E, Nat.mul_1_r in B.
  destruct (unrank_in_range (prod (a_shape a) - 1) (a_shape a) ltac:(lia)) as [R K].
  destruct (V _ R) as (v & G). unfold get in G. rewrite (straight_dot _ _ _ W H R), K, E in G. unfold load in G. rewrite EB in G.
  destruct (nth_error l _) eqn:X; [|discriminate]. assert (a_off a + (prod (a_shape a) - 1) * 1 < length l) by (apply nth_error_Some; congruence). lia.
Qed.
Print Assumptions C76_unit_step.

Lemma holds_exists {T} (z : T) (h : heap T) a : valid h a -> exists v, holds h a v.
Proof. intros [W V]. exists (fun idx => match get h a idx with Ok v => v | _ => z end). split; [exact W|]. intros idx R. destruct (V idx R) as (v & ->). reflexivity. Qed.

(** ** Everyday programs *)
(** m: a fresh r by c matrix.  Any column but the first: sum, negation, scalar arithmetic are
    accepted, and undefined by the rule. *)
Theorem C76_columns : forall T (op : T -> T -> T) (neg : T -> T) d (h : heap T) b r c j, live h b (r * c) -> 0 < r -> 0 < j < c ->
  exists v, nd_slice_along (fresh_arr b (r * c) [r; c]) 1 (IUsize j) = Ok v /\ chain b (r * c) false v /\
    (exists h' x, nd_reduce (fun x acc => Ok (op acc x)) d h v = Ok (h', x)) /\ pd_reduce (fun x acc => Ok (op acc x)) d h v = Oob /\
    (exists h' x, nd_unary (fun x => Ok (neg x)) d h v = Ok (h', x)) /\ pd_unary (fun x => Ok (neg x)) d h v = Oob.
Proof.
  intros T op neg d h b r c j L R J.
  assert (E : exists v, nd_slice_along (fresh_arr b (r * c) [r; c]) 1 (IUsize j) = Ok v /\ a_shape v = [r] /\ a_stride v = [c] /\ a_off v = j /\ a_blk v = b).
  { unfold nd_slice_along, strided_len. cbn [fresh_arr a_shape length as_absolute]. change (as_absolute 1 2) with (Ok 1). cbn [bind vget nth_error a_stride stride_from_shape stride_from_shape_go fst index_collapses vremove Nat.ltb Nat.leb strided_len_sum].
    unfold vremove. cbn [length Nat.ltb Nat.leb firstn skipn app bind strided_len_sum]. destruct r as [|r]; [lia|]. unfold csub. cbn [Nat.ltb Nat.leb bind Nat.sub].
    eexists. split; [reflexivity|]. cbn [a_shape a_stride a_off a_blk index_first]. rewrite !Nat.mul_1_l. repeat split; lia. }
  destruct E as (v & E & Sv & Tv & Ov & Bv). exists v. split; [exact E|].
  assert (CH : chain b (r * c) false v).
  { eapply (Ch_slice_along b (r * c) false (fresh_arr b (r * c) [r; c]) 1 1 (IUsize j)); [apply Ch_new; [cbn; lia|nia]|reflexivity| |exact E].
    cbn [fresh_arr a_shape nth region pick_ok]. lia. }
  split; [exact CH|].
  assert (B : beyond (r * c) (a_off v) (a_shape v) (a_stride v)) by (unfold beyond; rewrite Sv, Tv, Ov; cbn [prod fold_right last]; rewrite Nat.mul_1_r; lia).
  assert (W : wf v) by (unfold wf; now rewrite Sv, Tv). rewrite <- Bv in L.
  destruct (C19_fold_total_partial T op h (a_blk v) (r * c) v d L) as (vs & h1 & x1 & _ & E1 & _); [now rewrite Bv|rewrite Sv; cbn; unfold MAX_DIMS; lia|].
  split; [eauto|]. split.
  { pose proof (C76_reduce T (fun x acc => Ok (op acc x)) d h v (r * c) W L) as X. rewrite E1 in X. destruct X as [[_ X]|[X _]]; [exact X|]. elim X. split; [|exact B].
    rewrite Sv. intros k K. cbn [length] in K. lia. }
  assert (V : valid h v) by (apply (chain_valid h b (r * c) false); [now rewrite <- Bv|exact CH]).
  destruct (C13_negation T (fun x => Ok (neg x)) d h v V) as [N _]; [rewrite Sv; cbn; unfold MAX_DIMS; lia|rewrite Sv; cbn; lia|].
  destruct N as (h2 & x2 & E2 & _). { intros idx I. destruct (proj2 V idx I) as (y & ->). cbn [bind]. eauto. }
  split; [eauto|].
  pose proof (C76_neg T (fun x => Ok (neg x)) d h v (r * c) W L) as X. rewrite E2 in X. destruct X as [[_ X]|[X _]]; [exact X|]. elim X. split; [|exact B].
  rewrite Sv. intros k K. cbn [length] in K. lia.
Qed.
Print Assumptions C76_columns.

(** the diagonal of a square matrix of any size *)
Theorem C76_diagonal : forall T (op : T -> T -> T) d (h : heap T) b c, live h b (c * c) -> 0 < c ->
  exists v, nd_diagonal (fresh_arr b (c * c) [c; c]) = Ok v /\ chain b (c * c) false v /\
    (exists h' x, nd_reduce (fun x acc => Ok (op acc x)) d h v = Ok (h', x)) /\ pd_reduce (fun x acc => Ok (op acc x)) d h v = Oob.
Proof.
  intros T op d h b c L C.
  assert (E : exists v, nd_diagonal (fresh_arr b (c * c) [c; c]) = Ok v /\ a_shape v = [c] /\ a_stride v = [c + 1] /\ a_off v = 0 /\ a_blk v = b).
  { unfold nd_diagonal, nd_offset_diagonal_along. cbn [fresh_arr a_shape length]. change (as_absolute 0 2) with (Ok 0). change (as_absolute 1 2) with (Ok 1).
    cbn [bind vget nth_error a_stride stride_from_shape stride_from_shape_go fst guard Nat.leb negb Nat.eqb Z.leb Z.compare Z.to_nat].
    assert (c <=? 0 = false) as -> by (apply Nat.leb_gt; lia). cbn [bind drop_two Nat.eqb orb app].
    eexists. split; [reflexivity|]. cbn [reshaped_view_with_offset a_shape a_stride a_off a_blk]. rewrite Nat.sub_0_r, Nat.min_id. repeat split; try lia; try (f_equal; lia). cbn [a_stride fresh_arr stride_from_shape stride_from_shape_go fst drop_two Nat.eqb orb app]. f_equal. lia. }
  destruct E as (v & E & Sv & Tv & Ov & Bv). exists v. split; [exact E|].
  assert (CH : chain b (c * c) false v).
  { eapply (Ch_diagonal b (c * c) false (fresh_arr b (c * c) [c; c]) 0%Z 0%Z 1%Z); [apply Ch_new; [cbn; lia|nia]|exact E]. }
  split; [exact CH|]. rewrite <- Bv in L.
  destruct (C19_fold_total_partial T op h (a_blk v) (c * c) v d L) as (vs & h1 & x1 & _ & E1 & _); [now rewrite Bv|rewrite Sv; cbn; unfold MAX_DIMS; lia|].
  split; [eauto|].
  pose proof (C76_reduce T (fun x acc => Ok (op acc x)) d h v (c * c) ltac:(unfold wf; now rewrite Sv, Tv) L) as X. rewrite E1 in X. destruct X as [[_ X]|[X _]]; [exact X|]. elim X. split.
  - rewrite Sv. intros k K. cbn [length] in K. lia.
  - unfold beyond; rewrite Sv, Tv, Ov; cbn [prod fold_right last]. nia.
Qed.
Print Assumptions C76_diagonal.

(** the transpose of a fresh matrix of at least two columns times a vector *)
Theorem C76_transposed_matvec : forall T (zero one : T) add mul, is_csr zero one add mul -> forall (h : heap T) b b2 r c,
  live h b (r * c) -> live h b2 r -> 0 < r -> 1 < c ->
  exists t, nd_T ByRef (fresh_arr b (r * c) [r; c]) = Ok t /\ chain b (r * c) false t /\
    let v := fresh_arr b2 r [r] in
    (exists h' x, nd_matmul zero one (okadd add) (okadd mul) (okfma add mul) h t v = Ok (h', x)) /\ pd_matvec zero (okadd add) (okadd mul) h t v = Oob.
Proof.
  intros T zero one add mul CSR h b b2 r c L L2 R C. set (m := fresh_arr b (r * c) [r; c]).
  assert (E : exists t, nd_T ByRef m = Ok t /\ a_shape t = [c; r] /\ a_stride t = [1; c] /\ a_off t = 0 /\ a_blk t = b).
  { unfold nd_T, nd_transpose. cbn [m fresh_arr a_shape length]. change (as_absolute 0 2) with (Ok 0). change (as_absolute 1 2) with (Ok 1). cbn [bind].
    eexists. split; [reflexivity|]. cbn [reshaped_view a_shape a_stride a_off a_blk m fresh_arr]. repeat split; cbn; rewrite ?Nat.add_0_r; reflexivity. }
  destruct E as (t & E & St & Tt & Ot & Bt). exists t. split; [exact E|].
  assert (CM : chain b (r * c) false m) by (apply Ch_new; [cbn; lia|nia]).
  assert (CH : chain b (r * c) false t) by (eapply Ch_transpose; [exact CM|exact E]).
  assert (CV : chain b2 r false (fresh_arr b2 r [r])) by (apply Ch_new; [cbn; lia|lia]).
  split; [exact CH|]. cbv zeta. set (v := fresh_arr b2 r [r]).
  destruct (holds_exists zero h t (chain_valid h _ _ _ _ L CH)) as (va & Ha). destruct (holds_exists zero h v (chain_valid h _ _ _ _ L2 CV)) as (vb & Hb).
  destruct (C26_matvec T zero one add mul CSR h t v va vb c r St eq_refl ltac:(lia) R Ha Hb) as (h' & x & EX & _).
  split; [eauto|].
  pose proof (C76_matvec T zero one (okadd add) (okadd mul) (okfma add mul) h t v (r * c) r c r r 1 c 1 St Tt eq_refl eq_refl ltac:(now rewrite Bt) L2) as X.
  rewrite EX in X. destruct X as [[_ X]|[X _]]; [exact X|]. elim X. split; [lia|]. right. left. rewrite Ot. unfold past. nia.
Qed.
Print Assumptions C76_transposed_matvec.

(** fill and iter_along of the columns from the j-th on *)
Theorem C76_column_range : forall T (x : T) (h : heap T) b r c j, live h b (r * c) -> 0 < r -> 0 < j < c ->
  exists v, nd_slice_along (fresh_arr b (r * c) [r; c]) 1 (IFrom j) = Ok v /\ chain b (r * c) false v /\
    (exists h', nd_fill h v x = Ok h') /\ pd_fill h v x = Oob /\
    (exists h' rs, nd_iter_along h v 0 = Ok (h', rs)) /\ pd_iter_along h v 0 = Oob.
Proof.
  intros T x h b r c j L R J.
  assert (E : exists v, nd_slice_along (fresh_arr b (r * c) [r; c]) 1 (IFrom j) = Ok v /\ a_shape v = [r; c - j] /\ a_stride v = [c; 1] /\ a_off v = j /\ a_blk v = b).
  { unfold nd_slice_along, strided_len. cbn [fresh_arr a_shape length]. change (as_absolute 1 2) with (Ok 1). cbn [bind vget nth_error a_stride stride_from_shape stride_from_shape_go fst index_collapses indexed_length].
    unfold csub at 1. assert (c <? j = false) as -> by (apply Nat.ltb_ge; lia). cbn [bind]. unfold vset. cbn [upd bind strided_len_sum].
    unfold csub. assert (r <? 1 = false) as -> by (apply Nat.ltb_ge; lia). assert (c - j <? 1 = false) as -> by (apply Nat.ltb_ge; lia). cbn [bind].
    eexists. split; [reflexivity|]. cbn [a_shape a_stride a_off a_blk index_first]. rewrite !Nat.mul_1_l. repeat split; try lia. cbn; now rewrite Nat.add_0_r. }
  destruct E as (v & E & Sv & Tv & Ov & Bv). exists v. split; [exact E|].
  assert (CH : chain b (r * c) false v).
  { eapply (Ch_slice_along b (r * c) false (fresh_arr b (r * c) [r; c]) 1 1 (IFrom j)); [apply Ch_new; [cbn; lia|nia]|reflexivity| |exact E].
    cbn [fresh_arr a_shape nth region pick_ok]. lia. }
  split; [exact CH|]. assert (W : wf v) by (unfold wf; now rewrite Sv, Tv).
  destruct (C16_fill_partial T h b (r * c) v x L CH) as (h1 & E1 & _). assert (V : valid h v) by (apply (chain_valid h b (r * c) false); assumption).
  destruct (C38_iter_along_partial T h v 0 V) as (h2 & rs & E2 & _).
  { rewrite Sv. cbn. unfold MAX_DIMS. lia. } { rewrite Sv. cbn [length]. lia. }
  { rewrite Sv, Tv. cbn. repeat constructor; auto; lia. }
  rewrite <- Bv in L. split; [eauto|]. split; [|split; [eauto|]].
  - pose proof (C76_fill T h v x (r * c) W L) as X. rewrite E1 in X. destruct X as [[_ X]|[X _]]; [exact X|]. elim X. rewrite Sv, Tv, Ov. cbn [fill_over]. right. split.
    + intros Y. specialize (Y 0 ltac:(cbn; lia)). cbn [nth] in Y. lia.
    + left. unfold past. lia.
  - pose proof (C76_iter_along T h v 0 0 (r * c) W L ltac:(rewrite Sv; reflexivity)) as X. rewrite E2 in X. destruct X as [[_ X]|[X _]]; [exact X|]. elim X. rewrite Sv, Tv, Ov. cbn [nth]. unfold past. lia.
Qed.
Print Assumptions C76_column_range.

(** ** The conditions on concrete arrays *)
Definition ph : heap nat := [Some (seq 0 12); Some [1; 2; 3]].
Definition pm : arr := fresh_arr 0 12 [3; 4].
Definition pcol (j : nat) : arr := match nd_slice_along pm 1 (IUsize j) with Ok v => v | _ => pm end.
Definition prange (lo hi : nat) : arr := match nd_slice_along pm 1 (IRange lo hi) with Ok v => v | _ => pm end.
(** column 0 is fine, column 1 is not; the sum of column 1 is 1 + 5 + 9 *)
Example columns_case :
  nd_reduce (fun x acc => Ok (acc + x)) 0 ph (pcol 0) = pd_reduce (fun x acc => Ok (acc + x)) 0 ph (pcol 0) /\
  (exists h r, nd_reduce (fun x acc => Ok (acc + x)) 0 ph (pcol 1) = Ok (h, r) /\ get h r [] = Ok 15) /\
  pd_reduce (fun x acc => Ok (acc + x)) 0 ph (pcol 1) = Oob.
Proof. split; [reflexivity|]. split; [|reflexivity]. do 2 eexists. split; reflexivity. Qed.
(** a range of columns is not straight: arithmetic is fine, fill is not *)
Example range_case :
  nd_unary (fun x => Ok (x + 1)) 0 ph (prange 1 3) = pd_unary (fun x => Ok (x + 1)) 0 ph (prange 1 3) /\ (exists r, pd_unary (fun x => Ok (x + 1)) 0 ph (prange 1 3) = Ok r) /\
  (exists h, nd_fill ph (prange 1 3) 7 = Ok h) /\ pd_fill ph (prange 1 3) 7 = Oob /\ (exists h, pd_fill ph (prange 0 2) 7 = Ok h).
Proof. repeat split; try reflexivity; eexists; reflexivity. Qed.
(** column 1 as the right operand of +, and as the left operand of += *)
Example binary_case :
  (exists r, nd_binary (fun x y => Ok (x + y)) 0 ph (fresh_arr 1 3 [3]) (pcol 1) = Ok r) /\ pd_binary (fun x y => Ok (x + y)) 0 ph (fresh_arr 1 3 [3]) (pcol 1) = Oob /\
  (exists r, pd_binary (fun x y => Ok (x + y)) 0 ph (fresh_arr 1 3 [3]) (pcol 0) = Ok r) /\
  pd_dot 0 (okadd Nat.add) (okadd Nat.mul) ph (fresh_arr 1 3 [3]) (pcol 1) = Oob /\ (exists r, pd_dot 0 (okadd Nat.add) (okadd Nat.mul) ph (fresh_arr 1 3 [3]) (pcol 0) = Ok r).
Proof. repeat split; try reflexivity; eexists; reflexivity. Qed.
(** bmm of two batches starting at row 1 of each matrix, against whole batches *)
Definition bh : heap nat := [Some (seq 0 8); Some (seq 0 8)].
Definition btail (b : nat) : arr := match nd_slice_along (fresh_arr b 8 [2; 2; 2]) 1 (IFrom 1) with Ok v => v | _ => pm end.
Example bmm_case :
  (exists r, nd_bmm 0 1 (okadd Nat.add) (okadd Nat.mul) (okfma Nat.add Nat.mul) bh (btail 0) (fresh_arr 1 8 [2; 2; 2]) = Ok r) /\
  pd_bmm 0 1 (okadd Nat.add) (okadd Nat.mul) (okfma Nat.add Nat.mul) bh (btail 0) (fresh_arr 1 8 [2; 2; 2]) = Oob /\
  (exists r, pd_bmm 0 1 (okadd Nat.add) (okadd Nat.mul) (okfma Nat.add Nat.mul) bh (fresh_arr 0 8 [2; 2; 2]) (fresh_arr 1 8 [2; 2; 2]) = Ok r).
Proof. repeat split; try reflexivity; eexists; reflexivity. Qed.
(** a slice outside the matrix: accepted by the code (see C09), and its pointer is outside *)
Example slice_case : (exists r, nd_slice_along pm 0 (IRange 4 6) = Ok r /\ a_off r = 16) /\ pd_slice_along ph pm 0 (IRange 4 6) = Oob /\ (exists r, pd_slice_along ph pm 0 (IRange 1 3) = Ok r).
Proof. repeat split; try reflexivity; eexists; try split; reflexivity. Qed.
