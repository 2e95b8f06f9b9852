(** EinsumFacts7.v: einsum, einsum_into_ptr and the matrix products on whole arrays. *)
From Coq Require Import List Arith Lia Bool ZArith Permutation.
From Verif Require Import Base Spec Layout SpecFacts LayoutFacts Views ViewsFacts ViewsFacts2 Kernels Access HeapFacts
  KernelFacts OpFacts AccessFacts Chain ReduceFacts Reduce Einsum EinsumFacts EinsumFacts2 EinsumFacts3 EinsumFacts4 EinsumFacts5 EinsumFacts6 PropsOps.
Import ListNotations.
Open Scope res_scope.

Lemma fresh_result_written {T} (h h' : heap T) sh (val : list nat -> T) : 0 < prod sh -> length h' = S (length h) ->
  (forall b o, b < length h -> load h' b o = load h b o) ->
  (forall idx, in_range idx sh -> load h' (length h) (rank idx sh) = Ok (val idx)) ->
  load h' (length h) (prod sh) = Oob ->
  fresh_result h h' (fresh_arr (length h) (prod sh) sh) sh (fun idx => Ok (val idx)).
Proof.
  intros P L O V Z.
  assert (G : forall idx, in_range idx sh -> get h' (fresh_arr (length h) (prod sh) sh) idx = Ok (val idx)).
  { intros idx R. unfold get. cbn [fresh_arr a_blk a_off a_stride plus]. rewrite stride_from_shape_rm, <- rank_dot. auto. }
  split; [split; [lia|exact O]|]. split; [reflexivity|]. split; [reflexivity|]. split.
  - split; [cbn; apply stride_from_shape_length|]. cbn [fresh_arr a_shape]. intros idx R. eauto.
  - split; [now apply Ch_new|]. split; [|exact G].
    assert (B : forall k, k < prod sh -> exists v, load h' (length h) k = Ok v).
    { intros k K. destruct (unrank_in_range k sh K) as [R <-]. eauto. }
    destruct (B 0 P) as (v0 & V0). unfold load in Z, B, V0. destruct (nth_error h' (length h)) as [[l|]|] eqn:EL; try discriminate.
    exists l. split; [exact EL|]. apply Nat.le_antisymm.
    + apply nth_error_None. now destruct (nth_error l (prod sh)).
    + destruct (Nat.le_gt_cases (prod sh) (length l)) as [Q|Q]; [exact Q|]. destruct (B (length l) Q) as (v & E).
      rewrite (proj2 (nth_error_None l (length l)) ltac:(lia)) in E. discriminate.
Qed.

Lemma holds_ext {T} (h h' : heap T) a v : Forall (fun n => 0 < n) (a_shape a) ->
  (forall o, load h' (a_blk a) o = load h (a_blk a) o) -> holds h a v -> holds h' a v.
Proof. intros _ E [L H]. split; [exact L|]. intros idx R. unfold get. rewrite E. now apply H. Qed.

Lemma pos_in_range sh : Forall (fun n => 0 < n) sh -> in_range (repeat 0 (length sh)) sh.
Proof. induction 1; cbn [length repeat]; constructor; auto. Qed.
Lemma pos_prod' sh : Forall (fun n => 0 < n) sh -> 0 < prod sh.
Proof. induction 1; cbn [prod fold_right]; [lia|]. unfold prod in *. nia. Qed.

Lemma holds_live {T} (h : heap T) a v : Forall (fun n => 0 < n) (a_shape a) -> holds h a v -> a_blk a < length h.
Proof. intros P [L H]. specialize (H _ (pos_in_range _ P)). unfold get in H. now apply load_lt in H. Qed.

Lemma rm_stride_pos sh : Forall (fun n => 0 < n) sh -> Forall (fun s => s <> 0) (rm_stride sh).
Proof. induction 1 as [|n sh P F IH]; cbn [rm_stride]; constructor; auto. pose proof (pos_prod' sh F). lia. Qed.

Section Csr.
  Context {T : Type}.
  Variable zero one : T.
  Variable add mul : T -> T -> T.
  Variable CSR : is_csr zero one add mul.

  Local Notation addM := (fun x y => Ok (add x y)).
  Local Notation mulM := (fun x y => Ok (mul x y)).
  Local Notation fmaM := (fun a b c => Ok (add (mul a b) c)).
  Local Notation product := (bigsum mul one).
  Local Notation sum := (bigsum add zero).
  Local Notation acc := (@acc_eff T zero add).
  Local Notation value := (einsum_value zero one add mul).

  Lemma operands_heap (h h' : heap T) b b' dm ss aa vs : operands h b dm ss aa vs ->
    (forall a, In a aa -> a_blk a <> b' /\ forall o, load h' (a_blk a) o = load h (a_blk a) o) -> operands h' b' dm ss aa vs.
  Proof.
    induction 1 as [|s a v ss aa vs F H N P O IH]; intros E; constructor; auto.
    - apply holds_ext with h; auto. intros o. now apply (E a (or_introl eq_refl)).
    - apply (E a (or_introl eq_refl)).
    - apply IH. intros x I. apply E. now right.
  Qed.

  Lemma operands_live (h : heap T) b dm ss aa vs : operands h b dm ss aa vs -> forall a, In a aa -> a_blk a < length h.
  Proof. induction 1 as [|s a v ss aa vs F H N P O IH]; intros x I; [destruct I|]. destruct I as [<-|I]; eauto using holds_live. Qed.

  Section Request.
    Variables (dm : Z -> nat) (subs : list (list Z)) (vals : list (list nat -> T)) (out sm : list Z).
    Hypothesis AO : letters out.
    Hypothesis ND : NoDup (out ++ sm).
    Hypothesis COV : forall l, In l (out ++ sm) <-> exists s, In s subs /\ In l s.
    Hypothesis NE : out ++ sm <> [].
    Hypothesis LM : length (out ++ sm) <= MAX_DIMS.

    Lemma prepare_request h b ops : operands h b dm subs ops vals -> length ops < MAX_ARGS ->
      exists L, Permutation (out ++ sm) L /\
        prepare_einsum ops subs out = Ok (map (row_of (combine subs (map a_stride ops) ++ [(out, rm_stride (map dm out))])) L, map dm L, map dm out).
    Proof.
      intros O LA. pose proof (operands_fits _ _ _ _ _ _ O) as F.
      assert (AS : Forall letters subs). { clear - F. induction F as [|s a subs ops (A & _) F IH]; constructor; auto. }
      assert (NDO : NoDup out). { clear - ND. induction out as [|c o IH]; constructor; cbn [app] in ND; apply NoDup_cons_iff in ND as [N ND]; auto. intros I. apply N. apply in_or_app. now left. }
      assert (P : Permutation (out ++ sm) (out ++ summed subs out)).
      { apply NoDup_Permutation; auto.
        - clear - NDO AS. induction out as [|c o IH] eqn:EO; [apply NoDup_summed|]. clear IH.
          rewrite <- EO. rewrite <- EO in NDO. generalize (NoDup_summed subs out). assert (D : forall l, In l out -> ~ In l (summed subs out)).
          { intros l I J. apply summed_spec in J as [_ J]; auto. }
          revert D. generalize (summed subs out) as s. clear EO. induction NDO as [|x l N NDO IH]; intros s D NS; cbn [app]; auto. constructor.
          + intros I. apply in_app_or in I as [I|I]; auto. apply (D x); auto. now left.
          + apply IH; auto. intros y I. apply D. now right.
        - intros l. rewrite COV, in_app_iff, summed_spec by auto. split.
          + intros H. destruct (in_dec Z.eq_dec l out); auto.
          + intros [I|[H _]]; auto. apply COV. apply in_or_app. now left. }
      destruct (prepare_ok dm subs ops out F AO NDO) as (L & PL & E).
      - intros l I. apply COV. apply in_or_app. now left.
      - exact LA.
      - rewrite <- app_length, <- (Permutation_length P). exact LM.
      - exists L. split; [now apply Permutation_trans with (out ++ summed subs out)|exact E].
    Qed.

    Lemma request_incl s : In s subs -> incl s (out ++ sm).
    Proof. intros I l J. apply COV. eauto. Qed.
    Lemma request_pos h b ops : operands h b dm subs ops vals -> forall l, In l (out ++ sm) -> 0 < dm l.
    Proof. intros O l I. apply COV in I as (s & I & J). eapply operands_pos; eauto. Qed.
    Lemma out_pos h b ops : operands h b dm subs ops vals -> Forall (fun n => 0 < n) (map dm out).
    Proof.
      intros O. apply Forall_forall. intros n I. apply in_map_iff in I as (l & <- & I). eapply request_pos; eauto. apply in_or_app. now left.
    Qed.

    Lemma nd_einsum_ok h ops : operands h (length h) dm subs ops vals -> length ops < MAX_ARGS ->
      exists h' r, nd_einsum zero one addM mulM fmaM h ops subs out = Ok (h', r) /\
        fresh_result h h' r (map dm out) (fun oidx => Ok (value dm subs vals out sm oidx)).
    Proof.
      intros O LA. destruct (prepare_request h (length h) ops O LA) as (L & P & E). unfold nd_einsum. rewrite E. cbn [bind alloc].
      set (n := prod (map dm out)).
      destruct (einsum_core zero one add mul CSR (h ++ [Some (repeat zero n)]) (length h) 0 dm subs ops vals out sm L) as (h' & E' & L' & A1 & A2 & A3).
      - apply operands_heap with h (length h); auto. intros a I. pose proof (operands_live _ _ _ _ _ _ O a I). split; [lia|]. intros o. now apply load_app_old.
      - exact ND.
      - exact request_incl.
      - exact P.
      - eapply request_pos; eauto.
      - exact NE.
      - exact LM.
      - exact LA.
      - intros k K. exists zero. cbn [plus]. rewrite load_app_new. rewrite nth_error_repeat by exact K. reflexivity.
      - rewrite E'. cbn [bind]. eexists _, _. split; [reflexivity|]. apply fresh_result_written.
        + apply pos_prod'. eapply out_pos; eauto.
        + rewrite L', app_length. cbn [length]. lia.
        + intros b o B. rewrite A1 by lia. now apply load_app_old.
        + intros idx R. specialize (A3 idx R). cbn [plus] in A3. rewrite A3, load_app_new, nth_error_repeat by (now apply rank_lt).
          cbn [bind]. now rewrite (csr_add_0 _ _ _ _ CSR).
        + rewrite A2 by (cbn [plus]; lia). rewrite load_app_new. now rewrite (proj2 (nth_error_None _ _)) by (rewrite repeat_length; unfold n; lia).
    Qed.

    Lemma einsum_into_ok h b o ops : out <> [] -> operands h b dm subs ops vals -> length ops < MAX_ARGS ->
      (forall k, k < prod (map dm out) -> exists x, load h b (o + k) = Ok x) ->
      exists h', einsum_into_ptr zero one addM mulM fmaM h ops subs out (rm_stride (map dm out)) (b, o) = Ok h' /\
        length h' = length h /\ (forall b' x, b' <> b -> load h' b' x = load h b' x) /\
        (forall x, x < o \/ o + prod (map dm out) <= x -> load h' b x = load h b x) /\
        forall oidx, in_range oidx (map dm out) -> load h' b (o + rank oidx (map dm out)) = Ok (value dm subs vals out sm oidx).
    Proof.
      intros NO O LA DST. destruct (prepare_request h b ops O LA) as (L & P & E). unfold einsum_into_ptr. rewrite E. cbn [bind].
      pose proof (out_pos h b ops O) as OP. set (osh := map dm out) in *.
      assert (G : match has_uniform_stride osh (rm_stride osh) with Some s => guard (s =? 1) | None => Ok tt end = Ok tt).
      { destruct osh as [|n osh'] eqn:EO; [now apply map_eq_nil in EO|]. now rewrite rm_uniform. }
      rewrite G. cbn [bind]. clear G.
      destruct (k_fill_ok osh h (b, o) (rm_stride osh) (prod osh) zero) as (h1 & E1 & W1 & W2 & W3).
      - apply rm_stride_length.
      - now apply rm_stride_pos.
      - reflexivity.
      - intros x I. rewrite offsets_rm in I. apply in_seq in I. apply DST. lia.
      - rewrite E1. cbn [bind fst snd] in *. rewrite offsets_rm in W2, W3.
        destruct (einsum_core zero one add mul CSR h1 b o dm subs ops vals out sm L) as (h' & E' & L' & A1 & A2 & A3).
        + apply operands_heap with h b; auto. intros a I. split.
          * clear - O I. induction O; [destruct I|]. destruct I as [<-|I]; auto.
          * intros x. apply W3. intros [B _]. clear - O I B. induction O; [destruct I|]. destruct I as [<-|I]; auto.
        + exact ND.
        + exact request_incl.
        + exact P.
        + eapply request_pos; eauto.
        + exact NE.
        + exact LM.
        + exact LA.
        + intros k K. exists zero. apply W2. apply in_seq. fold osh in K. lia.
        + fold osh in E', A2, A3. exists h'. split; [exact E'|]. split; [congruence|]. split; [|split].
          * intros b' x N. rewrite A1 by auto. apply W3. intros [B _]. congruence.
          * intros x R. rewrite A2 by auto. apply W3. intros [_ (y & I & ->)]. apply in_seq in I. lia.
          * intros oidx R. rewrite A3 by auto. rewrite W2; [|apply in_seq; apply rank_lt in R; lia]. cbn [bind]. now rewrite (csr_add_0 _ _ _ _ CSR).
    Qed.
  End Request.

  (** ** Matrix products *)
  Definition mdim (n k m : nat) (l : Z) : nat := if (l =? 105)%Z then n else if (l =? 106)%Z then k else m.

  Lemma indices_one n : indices [n] = map (fun i => [i]) (seq 0 n).
  Proof. cbn [indices map]. induction (seq 0 n); cbn [flat_map map app]; congruence. Qed.

  Lemma matmul_value n k m va vb i j :
    value (mdim n k m) matmul_subs [va; vb] matmul_out [106%Z] [i; j] = sum (map (fun t => mul (va [i; t]) (vb [t; j])) (seq 0 k)).
  Proof.
    unfold einsum_value. cbn [map mdim Z.eqb Pos.eqb]. rewrite indices_one, map_map. f_equal. apply map_ext. intros t.
    cbn [matmul_subs matmul_out combine map fst snd app lookup Z.eqb Pos.eqb bigsum fold_right].
    f_equal. apply (mul_1_r zero one add mul CSR).
  Qed.

  Lemma letters_dec s : forallb is_alpha s = true -> letters s.
  Proof. intros H. apply Forall_forall. now apply forallb_forall. Qed.

  Lemma matrix_matrix_ok h b o a1 a2 v1 v2 n k m : a_shape a1 = [n; k] -> a_shape a2 = [k; m] -> 0 < n -> 0 < k -> 0 < m ->
    holds h a1 v1 -> holds h a2 v2 -> a_blk a1 <> b -> a_blk a2 <> b ->
    (forall x, x < n * m -> exists y, load h b (o + x) = Ok y) ->
    exists h', matrix_matrix zero one addM mulM fmaM h a1 a2 [m; 1] (b, o) = Ok h' /\
      length h' = length h /\ (forall b' x, b' <> b -> load h' b' x = load h b' x) /\
      (forall x, x < o \/ o + n * m <= x -> load h' b x = load h b x) /\
      forall i j, i < n -> j < m -> load h' b (o + (i * m + j)) = Ok (sum (map (fun t => mul (v1 [i; t]) (v2 [t; j])) (seq 0 k))).
  Proof.
    intros S1 S2 N K M H1 H2 B1 B2 D. unfold matrix_matrix.
    assert (PR : prod (map (mdim n k m) matmul_out) = n * m) by (cbn; lia).
    destruct (einsum_into_ok (mdim n k m) matmul_subs [v1; v2] matmul_out [106%Z]) with (h := h) (b := b) (o := o) (ops := [a1; a2]) as (h' & E & L & A1 & A2 & A3).
    - apply letters_dec. reflexivity.
    - repeat constructor; cbn; intuition congruence.
    - intros l. cbn. split.
      + intros [<-|[<-|[<-|[]]]]; [exists [105; 106]%Z|exists [106; 107]%Z|exists [105; 106]%Z]; cbn; auto.
      + intros (s & [<-|[<-|[]]] & I); cbn in I; intuition.
    - discriminate.
    - cbn. unfold MAX_DIMS. lia.
    - discriminate.
    - constructor; [|auto|auto| |constructor; [|auto|auto| |constructor]].
      + split; [apply letters_dec; reflexivity|]. split; [rewrite S1; reflexivity|]. destruct H1 as [H1 _]. rewrite S1 in H1. split; [exact H1|cbn; unfold MAX_DIMS; lia].
      + rewrite S1. auto.
      + split; [apply letters_dec; reflexivity|]. split; [rewrite S2; reflexivity|]. destruct H2 as [H2 _]. rewrite S2 in H2. split; [exact H2|cbn; unfold MAX_DIMS; lia].
      + rewrite S2. auto.
    - cbn. unfold MAX_ARGS. lia.
    - intros x X. rewrite PR in X. now apply D.
    - rewrite PR in A2. assert (RS : rm_stride (map (mdim n k m) matmul_out) = [m; 1]) by (cbn; now rewrite Nat.mul_1_r).
      rewrite RS in E. exists h'. split; [exact E|]. split; [exact L|]. split; [exact A1|]. split; [exact A2|].
      intros i j I J. rewrite <- (matmul_value n k m). rewrite <- A3 by (repeat constructor; assumption). f_equal. cbn. lia.
  Qed.

  (** ** dot and matrix-vector: strided_dot on a zero cell *)
  Lemma strided_dot_load h b o p0 s0 V0 p1 s1 V1 count x : 0 < count -> src_ok h b count p0 s0 V0 -> src_ok h b count p1 s1 V1 -> load h b o = Ok x ->
    exists h', strided_dot zero addM mulM h p0 s0 p1 s1 (b, o) count = Ok h' /\ length h' = length h /\
      (forall b' y, (b', y) <> (b, o) -> load h' b' y = load h b' y) /\
      load h' b o = Ok (add x (sum (map (fun k => mul (V0 k) (V1 k)) (seq 0 count)))).
  Proof.
    intros C S0 S1 D.
    destruct (strided_dot_ok zero one add mul CSR h b o p0 s0 V0 p1 s1 V1 count C S0 S1) as (h' & E & L & A1 & A2).
    { intros k _. rewrite Nat.mul_0_r, Nat.add_0_r. eauto. }
    exists h'. split; [exact E|]. split; [exact L|]. pose proof (contrib_const zero add _ o (row_l_0 one mul o count [V0; V1])) as CC. split.
    - intros b' y N. destruct (Nat.eq_dec b' b) as [->|NB]; [|now apply A1]. rewrite A2, CC. rewrite (proj2 (Nat.eqb_neq _ _)) by congruence.
      destruct (load h b y); cbn [bind]; auto. now rewrite (add_0_r zero one add mul CSR).
    - rewrite A2, CC, Nat.eqb_refl, D. cbn [bind]. rewrite snd_row_l. do 2 f_equal. f_equal. apply map_ext. intros k. cbn [map]. apply (product_two zero one add mul CSR).
  Qed.

  Lemma matvec_go_ok b p s v t V1 cols rs n : 0 < cols -> forall rows V0 h o row, 
    fst row <> b -> (forall i k, i < rows -> k < cols -> ld h (padd row (i * rs + k * s)) = Ok (V0 i k)) ->
    p = v -> src_ok h b cols v t V1 -> n = rows -> (forall i, i < rows -> load h b (o + i) = Ok zero) ->
    exists h', matvec_go zero addM mulM h row rs s v t (b, o) cols rows = Ok h' /\ length h' = length h /\
      (forall b' y, b' <> b \/ y < o \/ o + rows <= y -> load h' b' y = load h b' y) /\
      forall i, i < rows -> load h' b (o + i) = Ok (sum (map (fun k => mul (V0 i k) (V1 k)) (seq 0 cols))).
  Proof.
    intros C rows. revert n. induction rows as [|rows IH]; intros n V0 h o row NB H0 -> H1 -> D; cbn [matvec_go].
    - exists h. repeat split; auto. lia.
    - destruct (strided_dot_load h b o row s (V0 0) v t V1 cols zero C) as (h1 & E1 & L1 & A1 & A2).
      + split; [exact NB|]. intros k K. specialize (H0 0 k ltac:(lia) K). exact H0.
      + exact H1.
      + rewrite <- (Nat.add_0_r o). apply D. lia.
      + rewrite E1. cbn [bind padd fst snd].
        destruct (IH rows (fun i => V0 (S i)) h1 (o + 1) (padd row rs)) as (h2 & E2 & L2 & A3 & A4).
        * exact NB.
        * intros i k I K. rewrite padd_padd. specialize (H0 (S i) k ltac:(lia) K). rewrite <- H0. unfold ld, padd. cbn [fst snd]. rewrite A1 by congruence. f_equal. lia.
        * reflexivity.
        * destruct H1 as [N1 H1]. split; [exact N1|]. intros k K. unfold ld in *. cbn [padd fst] in *. rewrite A1 by congruence. now apply H1.
        * reflexivity.
        * intros i I. rewrite A1 by (intros Q; injection Q; lia). rewrite <- Nat.add_assoc. apply D. lia.
        * exists h2. split; [exact E2|]. split; [congruence|]. split.
          -- intros b' y Y. rewrite A3 by (destruct Y; lia). apply A1. intros Q. injection Q as -> ->. lia.
          -- intros [|i] I.
             ++ rewrite Nat.add_0_r. rewrite A3 by lia. rewrite A2. now rewrite (csr_add_0 _ _ _ _ CSR).
             ++ replace (o + S i) with (o + 1 + i) by lia. apply A4. lia.
  Qed.
End Csr.

Lemma shift_shift a x y : shift_arr (shift_arr a x) y = shift_arr a (x + y).
Proof. unfold shift_arr. cbn [a_blk a_off a_len a_cap a_shape a_stride a_fl]. f_equal. lia. Qed.
Lemma shift_0 a : shift_arr a 0 = a.
Proof. unfold shift_arr. rewrite Nat.add_0_r. now destruct a. Qed.

Section Csr2.
  Context {T : Type}.
  Variable zero one : T.
  Variable add mul : T -> T -> T.
  Variable CSR : is_csr zero one add mul.
  Local Notation addM := (fun x y => Ok (add x y)).
  Local Notation mulM := (fun x y => Ok (mul x y)).
  Local Notation fmaM := (fun a b c => Ok (add (mul a b) c)).
  Local Notation sum := (bigsum add zero).

  Lemma bmm_go_ok b sa sb n k m : 0 < n -> 0 < k -> 0 < m -> forall cnt h o a1 a2 (v1 v2 : nat -> list nat -> T),
    a_shape a1 = [n; k] -> a_shape a2 = [k; m] -> a_blk a1 <> b -> a_blk a2 <> b ->
    (forall t, t < cnt -> holds h (shift_arr a1 (t * sa)) (v1 t)) -> (forall t, t < cnt -> holds h (shift_arr a2 (t * sb)) (v2 t)) ->
    (forall x, x < cnt * (n * m) -> exists y, load h b (o + x) = Ok y) ->
    exists h', bmm_go zero one addM mulM fmaM h a1 a2 sa sb [m; 1] (n * m) (b, o) cnt = Ok h' /\ length h' = length h /\
      (forall b' x, b' <> b -> load h' b' x = load h b' x) /\
      (forall x, x < o \/ o + cnt * (n * m) <= x -> load h' b x = load h b x) /\
      forall t i j, t < cnt -> i < n -> j < m ->
        load h' b (o + (t * (n * m) + (i * m + j))) = Ok (sum (map (fun s => mul (v1 t [i; s]) (v2 t [s; j])) (seq 0 k))).
  Proof.
    intros N K M. induction cnt as [|cnt IH]; intros h o a1 a2 v1 v2 S1 S2 B1 B2 H1 H2 D; cbn [bmm_go].
    - exists h. repeat split; auto. intros t i j X. lia.
    - assert (Z1 : holds h a1 (v1 0)) by (rewrite <- (shift_0 a1); apply (H1 0); lia).
      assert (Z2 : holds h a2 (v2 0)) by (rewrite <- (shift_0 a2); apply (H2 0); lia).
      destruct (matrix_matrix_ok zero one add mul CSR h b o a1 a2 (v1 0) (v2 0) n k m S1 S2 N K M Z1 Z2 B1 B2) as (h1 & E1 & L1 & A1 & A2 & A3).
      { intros x X. apply D. cbn [Nat.mul]. lia. }
      rewrite E1. cbn [bind padd fst snd].
      destruct (IH h1 (o + n * m) (shift_arr a1 sa) (shift_arr a2 sb) (fun t => v1 (S t)) (fun t => v2 (S t))) as (h2 & E2 & L2 & A4 & A5 & A6); auto.
      + intros t X. rewrite shift_shift. apply holds_ext with h.
        * cbn [shift_arr a_shape]. rewrite S1. auto.
        * intros x. now apply A1.
        * apply (H1 (S t)). lia.
      + intros t X. rewrite shift_shift. apply holds_ext with h.
        * cbn [shift_arr a_shape]. rewrite S2. auto.
        * intros x. now apply A1.
        * apply (H2 (S t)). lia.
      + intros x X. rewrite <- Nat.add_assoc. rewrite A2 by lia. apply D. cbn [Nat.mul]. lia.
      + exists h2. split; [exact E2|]. split; [congruence|]. split; [|split].
        * intros b' x B. rewrite A4 by auto. now apply A1.
        * intros x X. cbn [Nat.mul] in X. rewrite A5 by lia. apply A2. lia.
        * intros [|t] i j X I J.
          -- cbn [Nat.mul plus]. rewrite A5; [now apply A3|]. left. nia.
          -- specialize (A6 t i j ltac:(lia) I J). rewrite <- A6. f_equal. cbn [Nat.mul]. lia.
  Qed.
End Csr2.
