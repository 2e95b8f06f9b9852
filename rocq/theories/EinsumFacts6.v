(** EinsumFacts6.v: einsum computes the Einstein summation. *)
From Coq Require Import List Arith Lia Bool ZArith Permutation.
From Verif Require Import Base Spec Layout SpecFacts LayoutFacts Views ViewsFacts Kernels Access HeapFacts ReduceFacts Reduce Einsum EinsumFacts EinsumFacts2 EinsumFacts3 EinsumFacts4 EinsumFacts5.
Import ListNotations.
Open Scope res_scope.

Lemma indices_app s1 s2 : indices (s1 ++ s2) = flat_map (fun i => map (app i) (indices s2)) (indices s1).
Proof.
  induction s1 as [|n s1 IH]; cbn [app indices flat_map].
  - now rewrite app_nil_r, map_id.
  - rewrite flat_map_flat_map. apply flat_map_ext. intros i. rewrite IH, flat_map_map, flat_map_map_in. apply flat_map_ext. intros j. now rewrite map_map.
Qed.

Section Csr.
  Context {T : Type}.
  Variable zero one : T.
  Variable add mul : T -> T -> T.
  Variable CSR : is_csr zero one add mul.

  Local Notation addM := (fun x y => Ok (add x y)).
  Local Notation mulM := (fun x y => Ok (mul x y)).
  Local Notation fmaM := (fun a b c => Ok (add (mul a b) c)).
  Local Notation product := (bigsum mul one).
  Local Notation sum := (bigsum add zero).
  Local Notation acc := (@acc_eff T zero add).
  Local Notation contrib := (contrib zero add).

  Lemma contrib_none l x : (forall p, In p l -> fst p <> x) -> contrib l x = zero.
  Proof.
    intros H. unfold EinsumFacts2.contrib. replace (filter _ l) with (@nil (nat * T)); [reflexivity|]. symmetry.
    induction l as [|p l IH]; [reflexivity|]. cbn [filter]. rewrite (proj2 (Nat.eqb_neq _ _)) by (apply H; now left). apply IH. intros q I. apply H. now right.
  Qed.

  Lemma contrib_flat {A} (F : A -> list (nat * T)) key i0 : forall l, NoDup l -> (forall i, In i l -> Forall (fun p => fst p = key i) (F i)) ->
    (forall i j, In i l -> In j l -> key i = key j -> i = j) -> In i0 l -> contrib (flat_map F l) (key i0) = sum (map snd (F i0)).
  Proof.
    induction l as [|i l IH]; intros ND HF INJ I; [destruct I|]. apply NoDup_cons_iff in ND as [NI ND]. cbn [flat_map].
    rewrite (contrib_app zero one add mul CSR). destruct I as [->|I].
    - rewrite (contrib_const zero add (F i0) (key i0)) by (apply HF; now left). rewrite Nat.eqb_refl.
      rewrite contrib_none; [apply (add_0_r zero one add mul CSR)|]. intros p J E. apply in_flat_map in J as (i & J1 & J2).
      pose proof (proj1 (Forall_forall _ _) (HF i (or_intror J1)) p J2) as K. cbv beta in K.
      assert (i = i0) as ->; [|contradiction]. apply INJ; [now right|now left|congruence].
    - rewrite IH; auto.
      + rewrite (contrib_const zero add (F i) (key i)) by (apply HF; now left).
        rewrite (proj2 (Nat.eqb_neq _ _)); [apply (csr_add_0 _ _ _ _ CSR)|]. intros E. apply NI. replace i with i0; auto. symmetry. apply INJ; [now left|now right|exact E].
      + intros j J. apply HF. now right.
      + intros x y X Y. apply INJ; now right.
  Qed.

  (** operands of an einsum *)
  Inductive operands (h : heap T) (b : nat) (dm : Z -> nat) : list (list Z) -> list arr -> list (list nat -> T) -> Prop :=
  | operands_nil : operands h b dm [] [] []
  | operands_cons s a v ss aa vs : fits dm s a -> holds h a v -> a_blk a <> b -> Forall (fun n => 0 < n) (a_shape a) ->
      operands h b dm ss aa vs -> operands h b dm (s :: ss) (a :: aa) (v :: vs).

  Lemma operands_fits h b dm ss aa vs : operands h b dm ss aa vs -> Forall2 (fits dm) ss aa.
  Proof. induction 1; constructor; auto. Qed.
  Lemma operands_pos h b dm ss aa vs : operands h b dm ss aa vs -> forall s l, In s ss -> In l s -> 0 < dm l.
  Proof.
    induction 1 as [|s a v ss aa vs (A & SH & _) H N P O IH]; intros s' l I J; [destruct I|]. destruct I as [<-|I]; [|eauto].
    rewrite SH in P. apply (proj1 (Forall_forall _ _) P). now apply in_map.
  Qed.

  Definition env_term (o : nat) (dm : Z -> nat) (out : list Z) (subs : list (list Z)) (vals : list (list nat -> T)) (e : Z -> nat) : nat * T :=
    (o + rank (map e out) (map dm out), product (map (fun p => snd p (map e (fst p))) (combine subs vals))).

  Lemma col_row_of Q L k q : nth_error Q k = Some q -> col k (map (row_of Q) L) = map (lsum (fst q) (snd q)) L.
  Proof.
    intros E. unfold col. rewrite map_map. apply map_ext. intros l. unfold row_of. apply nth_error_nth. now rewrite nth_error_map, E.
  Qed.

  Lemma operands_opnds h b dm L Q : NoDup L -> forall ss aa vs, operands h b dm ss aa vs -> (forall s, In s ss -> incl s L) ->
    forall k, (forall i q, nth_error (combine ss (map a_stride aa)) i = Some q -> nth_error Q (k + i) = Some q) ->
    opnds h b (map (row_of Q) L) (map dm L) k (map a_ptr aa) (map (fun p idx => snd p (map (lookup L idx) (fst p))) (combine ss vs)).
  Proof.
    intros ND. induction 1 as [|s a v ss aa vs (A & SH & LS & LM) (HL & HV) N P O IH]; intros IN k HQ; cbn [map combine]; constructor.
    - split; [exact N|]. intros idx R. rewrite (col_row_of Q L k (s, a_stride a)).
      2: { rewrite <- (Nat.add_0_r k). apply HQ. reflexivity. }
      cbn [fst snd]. rewrite <- (map_lookup L ND idx) at 1 by (apply in_range_length in R; now rewrite map_length in R).
      rewrite dot_lsum by auto using IN, in_eq.
      apply (HV (map (lookup L idx) s)). rewrite SH. apply in_range_lookup; auto. apply IN. now left.
    - apply IH.
      + intros x I. apply IN. now right.
      + intros i q E. rewrite Nat.add_succ_comm. now apply HQ.
  Qed.

  Lemma operands_lengths h b dm ss aa vs : operands h b dm ss aa vs -> length ss = length aa /\ length vs = length aa.
  Proof. induction 1 as [|? ? ? ? ? ? ? ? ? ? ? [IH1 IH2]]; cbn [length]; auto. Qed.

  (** the loops started by prepare_einsum add the Einstein sum to every output cell *)
  Lemma einsum_core h b o dm subs ops vals out sm L :
    operands h b dm subs ops vals -> NoDup (out ++ sm) -> (forall s, In s subs -> incl s (out ++ sm)) ->
    Permutation (out ++ sm) L -> (forall l, In l (out ++ sm) -> 0 < dm l) -> out ++ sm <> [] -> length (out ++ sm) <= MAX_DIMS -> length ops < MAX_ARGS ->
    (forall k, k < prod (map dm out) -> exists x, load h b (o + k) = Ok x) ->
    exists h', run_einsum zero one addM mulM fmaM h (map a_ptr ops) (map (row_of (combine subs (map a_stride ops) ++ [(out, rm_stride (map dm out))])) L) (map dm L) (b, o) = Ok h' /\
      length h' = length h /\ (forall b' x, b' <> b -> load h' b' x = load h b' x) /\
      (forall x, x < o \/ o + prod (map dm out) <= x -> load h' b x = load h b x) /\
      forall oidx, in_range oidx (map dm out) ->
        load h' b (o + rank oidx (map dm out)) = (y <- load h b (o + rank oidx (map dm out)) ;; Ok (add y (einsum_value zero one add mul dm subs vals out sm oidx))).
  Proof.
    intros O ND IN P POS NE LM LA DST.
    destruct (operands_lengths _ _ _ _ _ _ O) as [LS LV].
    set (Q := combine subs (map a_stride ops) ++ [(out, rm_stride (map dm out))]).
    assert (NDL : NoDup L) by now apply (Permutation_NoDup P).
    assert (LQ : length Q = S (length ops)). { unfold Q. rewrite app_length, combine_length, map_length. cbn [length]. lia. }
    assert (LL : length L <= MAX_DIMS) by now rewrite <- (Permutation_length P).
    assert (IL : incl out L). { intros l I. apply (Permutation_in _ P). apply in_or_app. now left. }
    assert (LB : length (map a_ptr ops) = length ops) by apply map_length.
    assert (EC : col (length ops) (map (row_of Q) L) = map (lsum out (rm_stride (map dm out))) L).
    { apply (col_row_of Q L (length ops) (out, rm_stride (map dm out))). unfold Q. rewrite nth_error_app2.
      - rewrite combine_length, map_length. replace (length ops - _) with 0 by lia. reflexivity.
      - rewrite combine_length, map_length. lia. }
    assert (ED : forall idx, in_range idx (map dm L) -> dot idx (col (length ops) (map (row_of Q) L)) = rank (map (lookup L idx) out) (map dm out)).
    { intros idx R. rewrite EC. rewrite <- (map_lookup L NDL idx) at 1 by (apply in_range_length in R; now rewrite map_length in R).
      rewrite dot_lsum; auto; [now rewrite rank_dot|now rewrite rm_stride_length, map_length]. }
    destruct (run_einsum_ok zero one add mul CSR h b o (map a_ptr ops) (map (fun p idx => snd p (map (lookup L idx) (fst p))) (combine subs vals))
                (map (row_of Q) L) (map dm L)) as (h' & E & A).
    - intros E. apply map_eq_nil in E. subst L. apply Permutation_sym, Permutation_nil in P. contradiction.
    - apply Forall_forall. intros n I. apply in_map_iff in I as (l & <- & I). apply POS. apply Permutation_sym in P. now apply (Permutation_in _ P).
    - now rewrite !map_length.
    - apply Forall_forall. intros r I. apply in_map_iff in I as (l & <- & I). unfold row_of. rewrite map_length, LB. exact LQ.
    - now rewrite map_length.
    - now rewrite LB.
    - apply operands_opnds; auto.
      + intros s I l J. apply (Permutation_in _ P). now apply (IN s I).
      + intros i q H. cbn [Nat.add]. unfold Q. rewrite nth_error_app1; auto. apply nth_error_Some. congruence.
    - rewrite LB. intros idx R. rewrite ED by auto. apply DST. apply rank_lt. now apply in_range_lookup.
    - exists h'. split; [exact E|]. clear E. destruct A as (A1 & A2 & A3). split; [exact A1|]. split; [exact A2|].
      assert (EM : map (term one mul o (map a_ptr ops) (map (fun p idx => snd p (map (lookup L idx) (fst p))) (combine subs vals)) (hd [] (map (row_of Q) L)) (tl (map (row_of Q) L))) (indices (map dm L)) =
                   map (fun idx => env_term o dm out subs vals (lookup L idx)) (indices (map dm L))).
      { apply map_ext_in. intros idx I. apply in_indices in I. unfold term, env_term.
        replace (hd [] (map (row_of Q) L) :: tl (map (row_of Q) L)) with (map (row_of Q) L).
        - rewrite LB, ED by auto. now rewrite map_map.
        - destruct L as [|l L']; [|reflexivity]. apply Permutation_sym, Permutation_nil in P. contradiction. }
      rewrite EM in A3. clear EM.
      assert (PC : forall x, contrib (map (fun idx => env_term o dm out subs vals (lookup L idx)) (indices (map dm L))) x =
                             contrib (flat_map (fun i => map (fun e => env_term o dm out subs vals (lookup (out ++ sm) (i ++ e))) (indices (map dm sm))) (indices (map dm out))) x).
      { intros x. rewrite <- (flat_map_ext (fun i => map (fun idx => env_term o dm out subs vals (lookup (out ++ sm) idx)) (map (app i) (indices (map dm sm))))) by (intros i; apply map_map).
        rewrite <- flat_map_map, <- indices_app, <- map_app. apply (contrib_perm zero one add mul CSR). apply Permutation_sym. apply env_perm; auto.
        intros e1 e2 EE. unfold env_term. f_equal.
        - f_equal. f_equal. apply map_ext_in. intros l I. apply EE. apply in_or_app. now left.
        - f_equal. apply map_ext_in. intros [s v] I. cbn [fst snd]. f_equal. apply map_ext_in. intros l J. apply EE. apply (IN s); auto. now apply in_combine_l in I. }
      assert (LK : forall i e, in_range i (map dm out) -> map (lookup (out ++ sm) (i ++ e)) out = i).
      { intros i e R. apply in_range_length in R. rewrite map_length in R. clear - R ND.
        revert i R. induction out as [|c out IH]; intros i R; destruct i as [|x i]; try discriminate; [reflexivity|]. cbn [map app lookup]. rewrite Z.eqb_refl. f_equal.
        cbn [app] in ND. apply NoDup_cons_iff in ND as [NI ND].
        transitivity (map (lookup (out ++ sm) (i ++ e)) out); [|apply (IH ND i); now injection R]. apply map_ext_in. intros l I. destruct (Z.eqb_spec c l); [subst; exfalso; apply NI; apply in_or_app; now left|reflexivity]. }
      assert (KEY : forall i p, In i (indices (map dm out)) -> In p (map (fun e => env_term o dm out subs vals (lookup (out ++ sm) (i ++ e))) (indices (map dm sm))) -> fst p = o + rank i (map dm out)).
      { intros i p I J. apply in_map_iff in J as (e & <- & J). unfold env_term. cbn [fst]. rewrite LK; auto. now apply in_indices. }
      split.
      + intros x R. rewrite A3, PC, contrib_none.
        * destruct (load h b x); cbn [bind]; auto. now rewrite (add_0_r zero one add mul CSR).
        * intros p I. apply in_flat_map in I as (i & I & J). rewrite (KEY i p I J). apply in_indices in I. apply rank_lt in I. lia.
      + intros oidx R. rewrite A3, PC.
        rewrite (contrib_flat (fun i => map (fun e => env_term o dm out subs vals (lookup (out ++ sm) (i ++ e))) (indices (map dm sm))) (fun i => o + rank i (map dm out)) oidx).
        * rewrite map_map. reflexivity.
        * apply NoDup_indices.
        * intros i I. apply Forall_forall. intros p J. now apply KEY.
        * intros i j I J H. apply in_indices in I, J. apply (rank_inj i j (map dm out)); auto. lia.
        * now apply in_indices.
  Qed.
End Csr.
