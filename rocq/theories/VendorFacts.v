(** VendorFacts.v: facts about the callers of the BLAS routines. *)
From Coq Require Import List Arith Lia Bool ZArith.
From Verif Require Import Base Spec Layout SpecFacts LayoutFacts Views ViewsFacts ViewsFacts2 Kernels Access HeapFacts
  KernelFacts OpFacts AccessFacts Chain ReduceFacts Reduce Einsum EinsumFacts EinsumFacts2 EinsumFacts3 EinsumFacts7 PropsOps Vendor.
Import ListNotations.
Open Scope res_scope.

(** fits in an i32 *)
Definition small (n : nat) : Prop := (Z.of_nat n < 2 ^ 31)%Z.

Lemma as_i32_small n : small n -> as_i32 n = Z.of_nat n.
Proof. unfold small, as_i32. intros H. rewrite Z.mod_small; lia. Qed.
Lemma as_i32_back n : small n -> Z.to_nat (as_i32 n) = n.
Proof. intros H. rewrite as_i32_small by exact H. apply Nat2Z.id. Qed.
Lemma small_le m n : m <= n -> small n -> small m.
Proof. unfold small. lia. Qed.

Lemma map_add_seq o w : forall z, map (Nat.add o) (seq z w) = seq (o + z) w.
Proof. induction w as [|w IH]; intros z; cbn [seq map]; [reflexivity|]. f_equal. now rewrite IH, Nat.add_succ_r. Qed.

(** a loop whose iterations store one cell each *)
Lemma for_each_store {T A} (h : heap T) b (body : A -> heap T -> res (heap T)) (pos : A -> nat) (val : A -> T) :
  (forall x h1, (forall b' y, b' <> b -> load h1 b' y = load h b' y) -> body x h1 = st h1 (b, pos x) (val x)) ->
  forall l, NoDup (map pos l) -> forall h1, (forall b' y, b' <> b -> load h1 b' y = load h b' y) ->
  (forall x, In x l -> exists y, load h1 b (pos x) = Ok y) ->
  exists h', for_each body l h1 = Ok h' /\ length h' = length h1 /\
    (forall b' y, b' <> b -> load h' b' y = load h b' y) /\
    (forall y, ~ In y (map pos l) -> load h' b y = load h1 b y) /\
    (forall x, In x l -> load h' b (pos x) = Ok (val x)).
Proof.
  intros BODY. induction l as [|x l IH]; intros ND h1 F1 D; cbn [for_each].
  - exists h1. repeat split; auto. intros x [].
  - rewrite (BODY x h1 F1). destruct (D x (or_introl eq_refl)) as (y & Ey).
    destruct (store_ok h1 b (pos x) (val x) y Ey) as (h2 & E2). unfold st. cbn [fst snd]. rewrite E2. cbn [bind].
    pose proof (store_length _ _ _ _ _ E2) as L2. cbn [map] in ND. apply NoDup_cons_iff in ND as [NI ND].
    assert (G : forall b' o, load h2 b' o = if (b' =? b) && (o =? pos x) then Ok (val x) else load h1 b' o).
    { intros b' o. now rewrite (load_store _ _ _ _ _ E2). }
    destruct (IH ND h2) as (h3 & E3 & L3 & A1 & A2 & A3).
    + intros b' o N. rewrite G. rewrite (proj2 (Nat.eqb_neq _ _)) by exact N. cbn [andb]. now apply F1.
    + intros z I. rewrite G, Nat.eqb_refl. cbn [andb]. destruct (Nat.eqb_spec (pos z) (pos x)); eauto. apply D. now right.
    + exists h3. split; [exact E3|]. split; [congruence|]. split; [exact A1|]. split.
      * intros o NO. cbn [map] in NO. rewrite A2 by (intros I; apply NO; now right). rewrite G, Nat.eqb_refl. cbn [andb].
        rewrite (proj2 (Nat.eqb_neq _ _)); auto. intros ->. apply NO. now left.
      * intros z [<-|I]; [|auto]. rewrite A2 by exact NI. rewrite G, !Nat.eqb_refl. reflexivity.
Qed.

Section Csr.
  Context {T : Type}.
  Variable zero one : T.
  Variable add mul : T -> T -> T.
  Variable CSR : is_csr zero one add mul.
  Variable bad : heap T -> res (heap T).

  Local Notation addM := (fun x y => Ok (add x y)).
  Local Notation mulM := (fun x y => Ok (mul x y)).
  Local Notation fmaM := (fun a b c => Ok (add (mul a b) c)).
  Local Notation sum := (bigsum add zero).

  Lemma src_frame (h h1 : heap T) b count p s V : (forall b' y, b' <> b -> load h1 b' y = load h b' y) ->
    src_ok h b count p s V -> src_ok h1 b count p s V.
  Proof. intros F [N H]. split; [exact N|]. intros k K. unfold ld. rewrite F; [now apply H|exact N]. Qed.

  Lemma dot_body (h h1 : heap T) b p0 s0 V0 p1 s1 V1 c o : (forall b' y, b' <> b -> load h1 b' y = load h b' y) ->
    src_ok h b c p0 s0 V0 -> src_ok h b c p1 s1 V1 ->
    (s <- dot_go addM mulM h1 p0 s0 p1 s1 c zero ;; v <- Ok (mul one s) ;; st h1 (b, o) v) =
    st h1 (b, o) (sum (map (fun k => mul (V0 k) (V1 k)) (seq 0 c))).
  Proof.
    intros F S0 S1. rewrite (dot_go_ok zero one add mul CSR h1 b c p0 s0 V0 p1 s1 V1 zero); [|now apply (src_frame h)|now apply (src_frame h)].
    cbn [bind]. now rewrite (csr_mul_1 _ _ _ _ CSR), (csr_add_0 _ _ _ _ CSR).
  Qed.

  Lemma gemm_ok (h : heap T) m n k (a b c : ptr) lda ldb o (V W : nat -> nat -> T) :
    small m -> small n -> small k -> small lda -> small ldb -> 0 < n -> 0 < k -> k <= lda -> n <= ldb ->
    fst a <> fst c -> fst b <> fst c -> snd c = o ->
    (forall i t, i < m -> t < k -> ld h (padd a (i * lda + t)) = Ok (V i t)) ->
    (forall t j, t < k -> j < n -> ld h (padd b (t * ldb + j)) = Ok (W t j)) ->
    (forall x, x < m * n -> exists y, load h (fst c) (o + x) = Ok y) ->
    exists h', cblas_gemm zero one addM mulM bad h (as_i32 m) (as_i32 n) (as_i32 k) a (as_i32 lda) b (as_i32 ldb) c (as_i32 n) = Ok h' /\
      length h' = length h /\ (forall b' x, b' <> fst c -> load h' b' x = load h b' x) /\
      (forall x, x < o \/ o + m * n <= x -> load h' (fst c) x = load h (fst c) x) /\
      forall i j, i < m -> j < n -> load h' (fst c) (o + (i * n + j)) = Ok (sum (map (fun t => mul (V i t) (W t j)) (seq 0 k))).
  Proof.
    intros Fm Fn Fk Fa Fb N K LA LB NA NB Eo HV HW D. unfold cblas_gemm. rewrite !as_i32_back by assumption. rewrite !as_i32_small by assumption.
    replace ((0 <=? Z.of_nat m) && (0 <=? Z.of_nat n) && (0 <=? Z.of_nat k) && (Z.max 1 (Z.of_nat k) <=? Z.of_nat lda) &&
             (Z.max 1 (Z.of_nat n) <=? Z.of_nat ldb) && (Z.max 1 (Z.of_nat n) <=? Z.of_nat n))%Z with true
      by (symmetry; rewrite !andb_true_iff, !Z.leb_le; lia).
    set (cell := fun p (h : heap T) => s <- dot_go addM mulM h (padd a (fst p * lda)) 1 (padd b (snd p)) ldb k zero ;;
           v <- Ok (mul one s) ;; st h (padd c (fst p * n + snd p)) v).
    assert (FLAT : forall g, for_each cell (flat_map (fun i => map (pair i) (seq 0 n)) (seq 0 m)) g =
      for_each (fun i h => for_each (fun j h => s <- dot_go addM mulM h (padd a (i * lda)) 1 (padd b j) ldb k zero ;;
           v <- Ok (mul one s) ;; st h (padd c (i * n + j)) v) (seq 0 n) h) (seq 0 m) g).
    { intros g. rewrite for_each_flat. apply for_each_ext. intros i s _. now rewrite for_each_map. }
    rewrite <- FLAT. clear FLAT.
    assert (POS : map (fun p => o + (fst p * n + snd p)) (flat_map (fun i => map (pair i) (seq 0 n)) (seq 0 m)) = seq o (m * n)).
    { transitivity (map (Nat.add o) (seq 0 (m * n))); [|rewrite map_add_seq; f_equal; lia].
      rewrite seq_mul. generalize (seq 0 m). intros l. induction l as [|i l IH]; cbn [flat_map map]; [reflexivity|].
      rewrite !map_app, IH. f_equal. rewrite !map_map. reflexivity. }
    pose proof (for_each_store h (fst c)
      (fun p h1 => if (fst p <? m) && (snd p <? n) then cell p h1 else st h1 (fst c, o + (fst p * n + snd p)) (sum (map (fun t => mul (V (fst p) t) (W t (snd p))) (seq 0 k))))
      (fun p => o + (fst p * n + snd p)) (fun p => sum (map (fun t => mul (V (fst p) t) (W t (snd p))) (seq 0 k)))) as FE.
    assert (INP : forall p, In p (flat_map (fun i => map (pair i) (seq 0 n)) (seq 0 m)) <-> fst p < m /\ snd p < n).
    { intros [i j]. cbn [fst snd]. rewrite in_flat_map. split.
      - intros (i' & I & J). apply in_map_iff in J as (j' & [= <- <-] & J). apply in_seq in I, J. lia.
      - intros [I J]. exists i. split; [apply in_seq; lia|]. apply in_map, in_seq. lia. }
    destruct FE with (l := flat_map (fun i => map (pair i) (seq 0 n)) (seq 0 m)) (h1 := h) as (h' & E & L & A1 & A2 & A3).
    - intros [i j] h1 F1. cbn [fst snd]. destruct (Nat.ltb_spec i m) as [I|I]; cbn [andb]; [|reflexivity]. destruct (Nat.ltb_spec j n) as [J|J]; [|reflexivity].
      unfold cell. cbn [fst snd]. unfold padd at 3. rewrite Eo.
      apply (dot_body h h1 (fst c) (padd a (i * lda)) 1 (V i) (padd b j) ldb (fun t => W t j) k _ F1).
      + split; [exact NA|]. intros t Ht. rewrite Nat.mul_1_r, padd_padd. now apply HV.
      + split; [exact NB|]. intros t Ht. rewrite padd_padd, Nat.add_comm. now apply HW.
    - rewrite POS. apply seq_NoDup.
    - auto.
    - intros p I. apply D. apply INP in I as [I J]. destruct p as [i j]. cbn [fst snd] in *. nia.
    - exists h'. split.
      + rewrite <- E. apply for_each_ext. intros p s I. apply INP in I as [I J].
        apply Nat.ltb_lt in I, J. rewrite I, J. reflexivity.
      + split; [exact L|]. split; [exact A1|]. rewrite POS in A2. split.
        * intros x X. apply A2. rewrite in_seq. lia.
        * intros i j I J. apply (A3 (i, j)). apply INP. now split.
  Qed.

  Lemma gemv_ok (h : heap T) m n (a x y : ptr) lda incx o (V : nat -> nat -> T) (W : nat -> T) :
    small m -> small n -> small lda -> small incx -> 0 < n -> n <= lda -> 0 < incx ->
    fst a <> fst y -> fst x <> fst y -> snd y = o ->
    (forall i t, i < m -> t < n -> ld h (padd a (i * lda + t)) = Ok (V i t)) ->
    (forall t, t < n -> ld h (padd x (t * incx)) = Ok (W t)) ->
    (forall i, i < m -> exists z, load h (fst y) (o + i) = Ok z) ->
    exists h', cblas_gemv zero one addM mulM bad h (as_i32 m) (as_i32 n) a (as_i32 lda) x (as_i32 incx) y = Ok h' /\
      length h' = length h /\ (forall b' z, b' <> fst y -> load h' b' z = load h b' z) /\
      (forall z, z < o \/ o + m <= z -> load h' (fst y) z = load h (fst y) z) /\
      forall i, i < m -> load h' (fst y) (o + i) = Ok (sum (map (fun t => mul (V i t) (W t)) (seq 0 n))).
  Proof.
    intros Fm Fn Fa Fx N LA IX NA NX Eo HV HW D. unfold cblas_gemv. rewrite !as_i32_back by assumption. rewrite !as_i32_small by assumption.
    replace ((0 <=? Z.of_nat m) && (0 <=? Z.of_nat n) && (Z.max 1 (Z.of_nat n) <=? Z.of_nat lda) && negb (Z.of_nat incx =? 0))%Z with true
      by (symmetry; rewrite !andb_true_iff, !Z.leb_le, negb_true_iff, Z.eqb_neq; lia).
    rewrite (proj2 (Z.ltb_ge _ _)) by lia.
    set (cell := fun i (h : heap T) => s <- dot_go addM mulM h (padd a (i * lda)) 1 x incx n zero ;; v <- Ok (mul one s) ;; st h (padd y i) v).
    pose proof (for_each_store h (fst y)
      (fun i h1 => if i <? m then cell i h1 else st h1 (fst y, o + i) (sum (map (fun t => mul (V i t) (W t)) (seq 0 n))))
      (fun i => o + i) (fun i => sum (map (fun t => mul (V i t) (W t)) (seq 0 n)))) as FE.
    destruct FE with (l := seq 0 m) (h1 := h) as (h' & E & L & A1 & A2 & A3).
    - intros i h1 F1. destruct (Nat.ltb_spec i m) as [I|I]; [|reflexivity].
      unfold cell. unfold padd at 2. rewrite Eo.
      apply (dot_body h h1 (fst y) (padd a (i * lda)) 1 (V i) x incx W n _ F1).
      + split; [exact NA|]. intros t Ht. rewrite Nat.mul_1_r, padd_padd. now apply HV.
      + split; [exact NX|]. exact HW.
    - change (NoDup (map (Nat.add o) (seq 0 m))). rewrite map_add_seq. apply seq_NoDup.
    - auto.
    - intros i I. apply D. apply in_seq in I. lia.
    - exists h'. split.
      + rewrite <- E. apply for_each_ext. intros i s I. apply in_seq in I.
        rewrite (proj2 (Nat.ltb_lt _ _)) by lia. reflexivity.
      + split; [exact L|]. split; [exact A1|]. split; [|intros i I; apply A3; apply in_seq; lia].
        intros z Z. apply A2. intros I. apply in_map_iff in I as (i & <- & I). apply in_seq in I. lia.
  Qed.
End Csr.

Section Csr2.
  Context {T : Type}.
  Variable zero one : T.
  Variable add mul : T -> T -> T.
  Variable CSR : is_csr zero one add mul.
  Variable bad : heap T -> res (heap T).

  Local Notation addM := (fun x y => Ok (add x y)).
  Local Notation mulM := (fun x y => Ok (mul x y)).
  Local Notation fmaM := (fun a b c => Ok (add (mul a b) c)).
  Local Notation sum := (bigsum add zero).

  (** the strides make legal parameters, or the routine is not called *)
  Definition gemm_legal (a b : arr) (k m : nat) : Prop :=
    forall s t, a_stride a = [s; 1] -> a_stride b = [t; 1] -> k <= s /\ m <= t /\ small s /\ small t.

  Lemma b_matrix_matrix_ok h b o a1 a2 v1 v2 n k m : a_shape a1 = [n; k] -> a_shape a2 = [k; m] -> 0 < n -> 0 < k -> 0 < m ->
    small n -> small k -> small m -> gemm_legal a1 a2 k m ->
    holds h a1 v1 -> holds h a2 v2 -> a_blk a1 <> b -> a_blk a2 <> b ->
    (forall x, x < n * m -> exists y, load h b (o + x) = Ok y) ->
    exists h', b_matrix_matrix zero one addM mulM fmaM bad h a1 a2 [m; 1] (b, o) = Ok h' /\
      length h' = length h /\ (forall b' x, b' <> b -> load h' b' x = load h b' x) /\
      (forall x, x < o \/ o + n * m <= x -> load h' b x = load h b x) /\
      forall i j, i < n -> j < m -> load h' b (o + (i * m + j)) = Ok (sum (map (fun t => mul (v1 [i; t]) (v2 [t; j])) (seq 0 k))).
  Proof.
    intros S1 S2 N K M FN FK FM LEG H1 H2 B1 B2 D. unfold b_matrix_matrix.
    pose proof (proj1 H1) as L1. pose proof (proj1 H2) as L2. rewrite S1 in L1. rewrite S2 in L2.
    destruct (a_stride a1) as [|s0 [|s1 [|? ?]]] eqn:E1; try discriminate. destruct (a_stride a2) as [|t0 [|t1 [|? ?]]] eqn:E2; try discriminate.
    cbn [vget nth_error bind].
    destruct (Nat.eqb_spec s1 1) as [->|NS]; cbn [negb orb]; [|now apply (matrix_matrix_ok zero one add mul CSR)].
    destruct (Nat.eqb_spec t1 1) as [->|NT]; cbn [negb]; [|now apply (matrix_matrix_ok zero one add mul CSR)].
    destruct (LEG _ _ E1 E2) as (LA & LB & FA & FB). rewrite S1, S2. cbn [vget nth_error bind].
    apply (gemm_ok zero one add mul CSR bad h n m k (a_ptr a1) (a_ptr a2) (b, o) s0 t0 o (fun i t => v1 [i; t]) (fun t j => v2 [t; j])); auto.
    - intros i t I J. destruct H1 as [_ H1]. rewrite S1 in H1. specialize (H1 [i; t] ltac:(repeat constructor; assumption)).
      unfold get in H1. rewrite E1 in H1. cbn [dot] in H1. rewrite Nat.mul_1_r, Nat.add_0_r in H1. exact H1.
    - intros t j I J. destruct H2 as [_ H2]. rewrite S2 in H2. specialize (H2 [t; j] ltac:(repeat constructor; assumption)).
      unfold get in H2. rewrite E2 in H2. cbn [dot] in H2. rewrite Nat.mul_1_r, Nat.add_0_r in H2. exact H2.
  Qed.

  Lemma b_bmm_go_ok b sa sb n k m : 0 < n -> 0 < k -> 0 < m -> small n -> small k -> small m -> forall cnt h o a1 a2 (v1 v2 : nat -> list nat -> T),
    a_shape a1 = [n; k] -> a_shape a2 = [k; m] -> a_blk a1 <> b -> a_blk a2 <> b -> gemm_legal a1 a2 k m ->
    (forall t, t < cnt -> holds h (shift_arr a1 (t * sa)) (v1 t)) -> (forall t, t < cnt -> holds h (shift_arr a2 (t * sb)) (v2 t)) ->
    (forall x, x < cnt * (n * m) -> exists y, load h b (o + x) = Ok y) ->
    exists h', b_bmm_go zero one addM mulM fmaM bad h a1 a2 sa sb [m; 1] (n * m) (b, o) cnt = Ok h' /\ length h' = length h /\
      (forall b' x, b' <> b -> load h' b' x = load h b' x) /\
      (forall x, x < o \/ o + cnt * (n * m) <= x -> load h' b x = load h b x) /\
      forall t i j, t < cnt -> i < n -> j < m ->
        load h' b (o + (t * (n * m) + (i * m + j))) = Ok (sum (map (fun s => mul (v1 t [i; s]) (v2 t [s; j])) (seq 0 k))).
  Proof.
    intros N K M FN FK FM. induction cnt as [|cnt IH]; intros h o a1 a2 v1 v2 S1 S2 B1 B2 LEG H1 H2 D; cbn [b_bmm_go].
    - exists h. repeat split; auto. intros t i j X. lia.
    - assert (Z1 : holds h a1 (v1 0)) by (rewrite <- (shift_0 a1); apply (H1 0); lia).
      assert (Z2 : holds h a2 (v2 0)) by (rewrite <- (shift_0 a2); apply (H2 0); lia).
      destruct (b_matrix_matrix_ok h b o a1 a2 (v1 0) (v2 0) n k m S1 S2 N K M FN FK FM LEG Z1 Z2 B1 B2) as (h1 & E1 & L1 & A1 & A2 & A3).
      { intros x X. apply D. cbn [Nat.mul]. lia. }
      rewrite E1. cbn [bind padd fst snd].
      destruct (IH h1 (o + n * m) (shift_arr a1 sa) (shift_arr a2 sb) (fun t => v1 (S t)) (fun t => v2 (S t))) as (h2 & E2 & L2 & A4 & A5 & A6); auto.
      + intros t X. rewrite shift_shift. apply holds_ext with h.
        * cbn [shift_arr a_shape]. rewrite S1. auto.
        * intros x. now apply A1.
        * apply (H1 (S t)). lia.
      + intros t X. rewrite shift_shift. apply holds_ext with h.
        * cbn [shift_arr a_shape]. rewrite S2. auto.
        * intros x. now apply A1.
        * apply (H2 (S t)). lia.
      + intros x X. rewrite <- Nat.add_assoc. rewrite A2 by lia. apply D. cbn [Nat.mul]. lia.
      + exists h2. split; [exact E2|]. split; [congruence|]. split; [|split].
        * intros b' x B. rewrite A4 by auto. now apply A1.
        * intros x X. rewrite A5 by (cbn [Nat.mul] in X; lia). apply A2. cbn [Nat.mul] in X. lia.
        * intros [|t] i j X I J.
          -- cbn [Nat.mul plus]. rewrite A5 by nia. now apply A3.
          -- specialize (A6 t i j ltac:(lia) I J). rewrite <- A6. f_equal. cbn [Nat.mul]. lia.
  Qed.
End Csr2.
