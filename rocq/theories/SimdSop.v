(** SimdSop.v: the vectorised sum-of-products kernels against the portable ones. *)
From Coq Require Import List Arith Lia Bool ZArith Permutation.
From Verif Require Import Base Spec Layout SpecFacts LayoutFacts Views ViewsFacts ViewsFacts2 ViewsFacts3 Kernels Access
  HeapFacts KernelFacts OpFacts Reduce ReduceFacts Einsum Simd SimdFacts SimdOps SimdRed.
Import ListNotations.
Open Scope res_scope.

Lemma mapM_bad {A B} (f : A -> res B) l x : (forall y, f y <> Panic) -> In x l -> f x = Oob -> mapM f l = Oob.
Proof.
  intros N. induction l as [|y l IH]; intros I E; [contradiction|]. cbn [mapM].
  destruct I as [-> | I]; [now rewrite E|]. rewrite (IH I E). specialize (N y). destruct (f y); cbn [bind]; congruence.
Qed.

Lemma bind_Oob {A B} (m : res A) : m <> Panic -> (x <- m ;; @Oob B) = Oob.
Proof. destruct m; cbn [bind]; congruence. Qed.

(** either all n elements can be read or one of them cannot *)
Lemma reads_dec {T} (h : heap T) p s n (d : T) :
  (exists g, forall i, i < n -> ld h (padd p (i * s)) = Ok (g i)) \/ (exists i, i < n /\ ld h (padd p (i * s)) = Oob).
Proof.
  induction n as [|n [(g & IH)|(i & I & E)]].
  - left. exists (fun _ => d). intros i I. lia.
  - destruct (ld h (padd p (n * s))) as [x| |] eqn:E.
    + left. exists (fun i => if i =? n then x else g i). intros i I. destruct (Nat.eqb_spec i n) as [->|]; [exact E|apply IH; lia].
    + now destruct (ld_not_Panic h (padd p (n * s))).
    + right. exists n. split; [lia|exact E].
  - right. exists i. split; [lia|exact E].
Qed.

Section Sop.
  Context {T : Type}.
  Variable L : nat.
  Hypothesis HL : L = 2 \/ L = 4.

  Lemma vload_not_Panic (h : heap T) s : vload L h s <> Panic.
  Proof. apply mapM_not_Panic. intros. apply src_ld_not_Panic. Qed.
  Lemma vload_length (h : heap T) s v : vload L h s = Ok v -> length v = L.
  Proof. intros E. apply mapM_length in E. now rewrite seq_length in E. Qed.
  Lemma vload_bad (h : heap T) p k j : k <= j < k + L -> ld h (padd p j) = Oob -> vload L h (Mem (padd p k)) = Oob.
  Proof.
    intros I E. apply (mapM_bad _ _ (j - k)); [intros; apply src_ld_not_Panic|apply in_seq; lia|].
    cbn [src_add src_ld]. rewrite padd_add. now replace (k + (j - k)) with j by lia.
  Qed.
  Lemma vload_unit (h : heap T) p : vload L h (Mem p) = ovec L h (OUnit (Mem p)) 0.
  Proof. cbn [ovec]. now rewrite src_add_0. Qed.

  (** ** sum_of_products_muladd, for every fused operation *)
  Section Muladd.
    Variable fma : T -> T -> T -> T.
    Variable c : T.

    Lemma vmuladd_map2 a d : length a = L -> length d = L -> vmuladd fma d (repeat c L) a = map2 (fma c) a d.
    Proof.
      clear HL. unfold vmuladd. generalize L as l. intros l. revert a d.
      induction l as [|l IH]; intros [|x a] [|y d] E1 E2; cbn in E1, E2; try discriminate; [reflexivity|].
      cbn [repeat combine map2 fst snd]. f_equal. apply IH; lia.
    Qed.

    Notation cells src dst n := (map (ocell (fma c) (OUnit (Mem src)) (OUnit (Mem dst))) (seq 0 n)).

    Lemma sma_tail_loop n : forall h src dst, sma_tail fma h c src dst n = loop h (cells src dst n) dst.
    Proof.
      intros h src dst. rewrite <- simd_tail_loop. revert h src dst. induction n as [|n IH]; intros h src dst; [reflexivity|].
      cbn [sma_tail simd_tail oelt src_ld onext1 src_add]. apply bind_ext. intros x _. apply bind_ext. intros y _.
      apply bind_ext. intros h' _. apply IH.
    Qed.

    Lemma cells_shift h (src dst : ptr) k n d :
      loop h (map (ocell (fma c) (OUnit (Mem src)) (OUnit (Mem dst))) (seq k n)) d = loop h (cells (padd src k) (padd dst k) n) d.
    Proof.
      rewrite map_seq_shift. apply loop_map_ext. intros i h'. unfold ocell, oat. cbn [obase ostep src_add].
      rewrite !padd_add, !Nat.mul_1_r. reflexivity.
    Qed.

    Lemma one_block h (src dst : ptr) : fst src <> fst dst -> forall k : heap T -> res (heap T),
      (a <- vload L h (Mem src) ;; d <- vload L h (Mem dst) ;;
       h' <- vstore h dst (vmuladd fma d (repeat c L) a) ;; k h') = (h' <- loop h (cells src dst L) dst ;; k h').
    Proof.
      intros N k. rewrite <- block_loop.
      2:{ intros o I. apply in_map_iff in I as (i & <- & _). apply ocell_not_Panic. }
      2:{ intros j o E i v h1 h2 LT ST.
          assert (J : j < L).
          { assert (NN : nth_error (cells src dst L) j <> None) by congruence.
            apply nth_error_Some in NN. now rewrite map_length, seq_length in NN. }
          rewrite nth_error_map, nth_error_seq in E by exact J. injection E as <-. unfold ocell, oat. cbn [obase ostep src_add Nat.add].
          rewrite (src_ld_st_other _ _ _ _ (Mem (padd src (j * 1))) ST), (src_ld_st_other _ _ _ _ (Mem (padd dst (j * 1))) ST); [reflexivity| |].
          - intros Q. apply (f_equal (fun s => match s with Mem p => p | Val _ => dst end)) in Q. apply padd_inj in Q. lia.
          - intros Q. apply (f_equal (fun s => match s with Mem p => fst p | Val _ => fst src end)) in Q. cbn in Q. congruence. }
      rewrite mapM_map. unfold ocell.
      rewrite (mapM_pair (fun i => src_ld h (oat (OUnit (Mem src)) i)) (fun i => src_ld h (oat (OUnit (Mem dst)) i)))
        by (intros; apply src_ld_not_Panic).
      assert (EQ : forall p, vload L h (Mem p) = mapM (fun i => src_ld h (oat (OUnit (Mem p)) i)) (seq 0 L)).
      { intros p. unfold vload. apply mapM_ext. intros i _. unfold oat. cbn [obase ostep]. now rewrite Nat.mul_1_r. }
      rewrite <- !EQ, !bind_assoc. apply bind_ext. intros a EA. rewrite !bind_assoc. apply bind_ext. intros d ED. cbn [bind].
      rewrite vmuladd_map2; [reflexivity|eapply vload_length; eauto..].
    Qed.

    Lemma sma_one_loop fuel : forall h src dst n, fst src <> fst dst -> n < fuel ->
      sma_one L fma fuel h c src dst n = loop h (cells src dst n) dst.
    Proof.
      pose proof (HLpos L HL) as PL. induction fuel as [|fuel IH]; intros h src dst n N LT; [lia|]. cbn [sma_one].
      destruct (Nat.leb_spec L n) as [B|_]; [|apply sma_tail_loop].
      rewrite one_block by exact N. 
      assert (EN : seq 0 n = seq 0 L ++ seq (0 + L) (n - L)) by (rewrite <- seq_app; f_equal; lia). rewrite EN. clear EN.
      rewrite map_app, loop_app, map_length, seq_length. apply bind_ext. intros h' _. cbn [Nat.add].
      rewrite IH; [symmetry; apply cells_shift|exact N|lia].
    Qed.

    Lemma sma_four_loop fuel : forall h src dst n, fst src <> fst dst -> n < fuel ->
      sma_four L fma fuel h c src dst n = loop h (cells src dst n) dst.
    Proof.
      pose proof (HLpos L HL) as PL. induction fuel as [|fuel IH]; intros h src dst n N LT; [lia|]. cbn [sma_four].
      destruct (Nat.leb_spec (4 * L) n) as [B|_]; [|apply sma_one_loop; [exact N|lia]].
      assert (EN : seq 0 n = seq 0 (4 * L) ++ seq (0 + 4 * L) (n - 4 * L)) by (rewrite <- seq_app; f_equal; lia). rewrite EN. clear EN.
      rewrite map_app, loop_app, map_length, seq_length. cbn [Nat.add].
      assert (FR : forall p, fst p <> fst dst \/ p = dst -> @ofree T (OUnit (Mem p)) dst (4 * L)).
      { intros p D i j I Q. unfold oat in Q. cbn [obase ostep src_add] in Q.
        apply (f_equal (fun s => match s with Mem p => p | Val _ => dst end)) in Q.
        destruct D as [D| ->]; [apply D; apply (f_equal fst) in Q; exact Q|]. apply padd_inj in Q. lia. }
      pose proof (block_eq L (HL4 L HL) (fma c) h (OUnit (Mem src)) (OUnit (Mem dst)) dst I I (FR src (or_introl N)) (FR dst (or_intror eq_refl))) as BE.
      transitivity (h3 <- loop h (map (ocell (fma c) (OUnit (Mem src)) (OUnit (Mem dst))) (seq 0 (4 * L))) dst ;;
         sma_four L fma fuel h3 c (padd src (4 * L)) (padd dst (4 * L)) (n - 4 * L)).
      2:{ apply bind_ext. intros h' _. rewrite IH; [symmetry; apply cells_shift|exact N|lia]. }
      rewrite <- BE. cbn [ovec src_add]. clear BE FR.
      assert (NP : forall p, vload L h (Mem p) <> Panic) by (intros; apply vload_not_Panic).
      assert (LN : forall p v, vload L h (Mem p) = Ok v -> length v = L) by (intros; eapply vload_length; eauto).
      destruct (vload L h (Mem (padd src (0 * L)))) as [a0| |] eqn:A0; [|now destruct (NP _ A0)|reflexivity].
      destruct (vload L h (Mem (padd src (1 * L)))) as [a1| |] eqn:A1; [|now destruct (NP _ A1)|];
      (destruct (vload L h (Mem (padd dst (0 * L)))) as [b0| |] eqn:B0; [|now destruct (NP _ B0)|]);
      (destruct (vload L h (Mem (padd src (2 * L)))) as [a2| |] eqn:A2; [|now destruct (NP _ A2)|]);
      (destruct (vload L h (Mem (padd src (3 * L)))) as [a3| |] eqn:A3; [|now destruct (NP _ A3)|]); try reflexivity;
      (destruct (vload L h (Mem (padd dst (1 * L)))) as [b1| |] eqn:B1; [|now destruct (NP _ B1)|]); try reflexivity;
      (destruct (vload L h (Mem (padd dst (2 * L)))) as [b2| |] eqn:B2; [|now destruct (NP _ B2)|]); try reflexivity;
      (destruct (vload L h (Mem (padd dst (3 * L)))) as [b3| |] eqn:B3; [|now destruct (NP _ B3)|]); try reflexivity.
      cbn [bind]. rewrite !vmuladd_map2 by (eapply LN; eauto). reflexivity.
    Qed.

    Lemma muladd_go_loop n : forall h src dst,
      muladd_go (fun a b c => Ok (fma a b c)) h c src dst n = loop h (cells src dst n) dst.
    Proof.
      intros h src dst. rewrite <- sma_tail_loop. revert h src dst. induction n as [|n IH]; intros h src dst; [reflexivity|].
      cbn [muladd_go sma_tail bind]. apply bind_ext. intros x _. apply bind_ext. intros y _. apply bind_ext. intros h' _. apply IH.
    Qed.
  End Muladd.

  Lemma ssop_muladd_eq (fma : T -> T -> T -> T) h p0 p1 dst n : fst p1 <> fst dst ->
    ssop_muladd L fma h p0 p1 dst n = sop_muladd (fun a b c => Ok (fma a b c)) h p0 p1 dst n.
  Proof.
    intros N. unfold ssop_muladd, sop_muladd. apply bind_ext. intros _ _. apply bind_ext. intros c _.
    rewrite muladd_go_loop. apply sma_four_loop; [exact N|lia].
  Qed.

  (** ** the summing loops *)
  Section Sum.
    Variable add : T -> T -> T.

    Lemma ssa_one_uniform fuel : forall (h : heap T) p n acc,
      ssa_one L add fuel h p n acc = red_uniform_go L add (hor_pairs add) add fuel h p n 1 acc.
    Proof.
      induction fuel as [|fuel IH]; intros h p n acc; cbn [ssa_one red_uniform_go]; destruct (L <=? n); auto.
      rewrite vgather_eq by (apply HL4; exact HL). unfold vload. rewrite Nat.mul_1_l.
      rewrite (mapM_ext _ (fun i => src_ld h (src_add (Mem p) (i * 1)))) by (intros; now rewrite Nat.mul_1_r).
      apply bind_ext. intros v _. apply IH.
    Qed.

    Lemma ssa_four_covers (h : heap T) p n g (R : forall i, i < n -> ld h (padd p i) = Ok (g i)) fuel : forall k ts,
      n - k < fuel -> k <= n -> length ts = L ->
      covers add n g add ts k (ssa_four L add fuel h (padd p k) (n - k) (map (teval add) ts)).
    Proof.
      pose proof (HLpos L HL) as PL. induction fuel as [|fuel IH]; intros k ts F LE E; [lia|]. cbn [ssa_four].
      destruct (Nat.leb_spec (4 * L) (n - k)) as [B|_].
      - rewrite !padd_add, !Nat.mul_0_l, !Nat.add_0_r, !(vload_at L h p n g R) by lia. cbn [bind].
        rewrite (quads_eval L add g), map2_teval. replace (n - k - 4 * L) with (n - (k + 4 * L)) by lia.
        destruct (IH (k + 4 * L) (map2 Node ts (quads L g k))) as (t & m & I & P & Q);
          [lia|lia|rewrite map2_length, quads_length; lia|].
        exists t, m. split; [lia|]. split; [|exact Q].
        rewrite P, lv_node by (now rewrite quads_length). rewrite quads_leaves, <- app_assoc, <- map_app.
        rewrite (seq_split k (k + 4 * L) m) by lia. replace (k + 4 * L - k) with (4 * L) by lia. reflexivity.
      - rewrite ssa_one_uniform. replace (padd p k) with (padd p (k * 1)) by (now rewrite Nat.mul_1_r).
        apply (red_uniform_covers L HL add h p 1 n g); auto; try lia.
        + intros i I. rewrite Nat.mul_1_r. now apply R.
        + now apply hor_pairs_tree.
    Qed.

    Lemma hor_pairs_not_Panic v : length v = L -> hor_pairs add v <> Panic.
    Proof.
      intros E. destruct HL as [-> | ->].
      - destruct v as [|a [|b [|]]]; discriminate.
      - destruct v as [|a [|b [|c [|d [|]]]]]; discriminate.
    Qed.

    Lemma red_tail_bad (h : heap T) p n j : ld h (padd p j) = Oob -> forall k acc, k <= j < n ->
      red_tail add h (padd p k) (n - k) 1 acc = Oob.
    Proof.
      intros E k. remember (n - k) as c. revert k Heqc. induction c as [|c IH]; intros k Q acc I; [lia|]. cbn [red_tail].
      destruct (Nat.eq_dec k j) as [->|NE]; [now rewrite E|].
      pose proof (ld_not_Panic h (padd p k)). destruct (ld h (padd p k)); cbn [bind]; [|congruence|reflexivity].
      rewrite padd_add. apply IH; lia.
    Qed.

    Lemma ssa_one_bad (h : heap T) p n j : ld h (padd p j) = Oob -> forall fuel k acc, k <= j < n -> n - k < fuel -> length acc = L ->
      ssa_one L add fuel h (padd p k) (n - k) acc = Oob.
    Proof.
      intros E. pose proof (HLpos L HL) as PL. induction fuel as [|fuel IH]; intros k acc I F LA; [lia|]. cbn [ssa_one].
      destruct (Nat.leb_spec L (n - k)) as [B|_].
      - destruct (vload L h (Mem (padd p k))) as [v| |] eqn:V; [|now destruct (vload_not_Panic _ _ V)|reflexivity]. cbn [bind].
        destruct (Nat.lt_ge_cases j (k + L)) as [LT|GE].
        + rewrite (vload_bad h p k j) in V by (auto; lia). discriminate.
        + rewrite padd_add. replace (n - k - L) with (n - (k + L)) by lia. apply IH; [lia|lia|].
          rewrite map2_length, (vload_length _ _ _ V). lia.
      - pose proof (hor_pairs_not_Panic acc LA). destruct (hor_pairs add acc); cbn [bind]; [|congruence|reflexivity].
        now apply red_tail_bad with (j := j).
    Qed.

    Lemma ssa_four_bad (h : heap T) p n j : ld h (padd p j) = Oob -> forall fuel k acc, k <= j < n -> n - k < fuel -> length acc = L ->
      ssa_four L add fuel h (padd p k) (n - k) acc = Oob.
    Proof.
      intros E. pose proof (HLpos L HL) as PL. induction fuel as [|fuel IH]; intros k acc I F LA; [lia|]. cbn [ssa_four].
      destruct (Nat.leb_spec (4 * L) (n - k)) as [B|_]; [|apply (ssa_one_bad h p n j); auto; lia].
      rewrite !padd_add.
      destruct (vload L h (Mem (padd p (k + 0 * L)))) as [v0| |] eqn:V0; [|now destruct (vload_not_Panic _ _ V0)|reflexivity]. cbn [bind].
      destruct (vload L h (Mem (padd p (k + 1 * L)))) as [v1| |] eqn:V1; [|now destruct (vload_not_Panic _ _ V1)|reflexivity]. cbn [bind].
      destruct (vload L h (Mem (padd p (k + 2 * L)))) as [v2| |] eqn:V2; [|now destruct (vload_not_Panic _ _ V2)|reflexivity]. cbn [bind].
      destruct (vload L h (Mem (padd p (k + 3 * L)))) as [v3| |] eqn:V3; [|now destruct (vload_not_Panic _ _ V3)|reflexivity]. cbn [bind].
      destruct (Nat.lt_ge_cases j (k + 4 * L)) as [LT|GE].
      - exfalso. destruct (Nat.lt_ge_cases j (k + 1 * L)); [rewrite (vload_bad h p (k + 0 * L) j) in V0 by (auto; lia); discriminate|].
        destruct (Nat.lt_ge_cases j (k + 2 * L)); [rewrite (vload_bad h p (k + 1 * L) j) in V1 by (auto; lia); discriminate|].
        destruct (Nat.lt_ge_cases j (k + 3 * L)); [rewrite (vload_bad h p (k + 2 * L) j) in V2 by (auto; lia); discriminate|].
        rewrite (vload_bad h p (k + 3 * L) j) in V3 by (auto; lia). discriminate.
      - apply vload_length in V0, V1, V2, V3. replace (n - k - 4 * L) with (n - (k + 4 * L)) by lia. apply IH; [lia|lia|].
        rewrite !map2_length, V0, V1, V2, V3. lia.
    Qed.

    Lemma fold_run_bad (h : heap T) p n j : ld h (padd p j) = Oob -> forall k acc, k <= j < n ->
      fold_run (fun v acc => Ok (add acc v)) h (padd p k) (n - k) 1 acc = Oob.
    Proof.
      intros E k. remember (n - k) as c. revert k Heqc. induction c as [|c IH]; intros k Q acc I; [lia|]. cbn [fold_run].
      destruct (Nat.eq_dec k j) as [->|NE]; [now rewrite E|].
      pose proof (ld_not_Panic h (padd p k)). destruct (ld h (padd p k)); cbn [bind]; [|congruence|reflexivity].
      rewrite padd_add. apply IH; lia.
    Qed.

    Lemma fold_run_at (h : heap T) p n g (R : forall i, i < n -> ld h (padd p i) = Ok (g i)) : forall k acc, k <= n ->
      fold_run (fun v acc => Ok (add acc v)) h (padd p k) (n - k) 1 acc = Ok (fold_left add (map g (seq k (n - k))) acc).
    Proof.
      intros k. remember (n - k) as c. revert k Heqc. induction c as [|c IH]; intros k Q acc I; [reflexivity|]. cbn [fold_run seq map fold_left].
      rewrite R by lia. cbn [bind]. rewrite padd_add. replace (k + 1) with (S k) by lia. apply IH; lia.
    Qed.
  End Sum.
End Sop.

(** ** equality in a commutative semiring *)
Section Csr.
  Context {T : Type}.
  Variable L : nat.
  Hypothesis HL : L = 2 \/ L = 4.
  Variable zero one : T.
  Variable add mul : T -> T -> T.
  Hypothesis CSR : is_csr zero one add mul.
  Notation fma := (fun a b c => add (mul a b) c).
  Notation addM := (fun x y => Ok (add x y)).
  Notation mulM := (fun x y => Ok (mul x y)).
  Notation fmaM := (fun a b c => Ok (add (mul a b) c)).

  Lemma c_assoc x y z : add (add x y) z = add x (add y z).
  Proof. symmetry. apply (csr_add_assoc _ _ _ _ CSR). Qed.
  Lemma c_comm x y : add x y = add y x.
  Proof. apply (csr_add_comm _ _ _ _ CSR). Qed.
  Lemma c_0 x : add zero x = x.
  Proof. apply (csr_add_0 _ _ _ _ CSR). Qed.

  Lemma fold_zeros k l : fold_right add zero (repeat zero k ++ l) = fold_right add zero l.
  Proof. induction k as [|k IH]; cbn [repeat app fold_right]; [reflexivity|]. now rewrite IH, c_0. Qed.

  Lemma tree_value t k l : Permutation (leaves t) (repeat zero k ++ l) -> teval add t = fold_left add l zero.
  Proof.
    intros P. rewrite (tree_monoid add zero c_assoc c_comm c_0), (fold_perm add zero c_assoc c_comm _ _ P), fold_zeros.
    symmetry. apply (fold_left_right add zero c_assoc c_comm c_0).
  Qed.

  Lemma covers_value n g k out : covers add n g add (repeat (Leaf zero) k) 0 out ->
    out = Ok (fold_left add (map g (seq 0 n)) zero).
  Proof.
    intros (t & m & I & P & ->). f_equal. destruct (tree_fold add (map g (seq m (n - m))) t) as (t' & -> & G).
    apply (tree_value t' k). rewrite G, P, lv_repeat, <- app_assoc, <- map_app. apply Permutation_app_head.
    rewrite <- (seq_split 0 m n) by lia. now rewrite Nat.sub_0_r.
  Qed.

  Lemma ssa_four_sum (h : heap T) p n :
    ssa_four L add (S n) h p n (repeat zero L) = fold_run (fun v acc => Ok (add acc v)) h p n 1 zero.
  Proof.
    destruct (reads_dec h p 1 n zero) as [(g & R)|(j & J & E)].
    - assert (R' : forall i, i < n -> ld h (padd p i) = Ok (g i)) by (intros i I; rewrite <- (R i I); now rewrite Nat.mul_1_r).
      pose proof (ssa_four_covers L HL add h p n g R' (S n) 0 (repeat (Leaf zero) L)) as C.
      rewrite teval_repeat, padd_0, Nat.sub_0_r in C. rewrite (covers_value n g L _ (C ltac:(lia) ltac:(lia) (repeat_length _ _))).
      pose proof (fold_run_at L HL add h p n g R' 0 zero) as F. rewrite padd_0, Nat.sub_0_r in F. symmetry. apply F. lia.
    - rewrite Nat.mul_1_r in E.
      pose proof (ssa_four_bad L HL add h p n j E (S n) 0 (repeat zero L)) as B1.
      pose proof (fold_run_bad L HL add h p n j E 0 zero) as B2. rewrite padd_0, Nat.sub_0_r in B1, B2.
      rewrite B1, B2; auto; try lia. apply repeat_length.
  Qed.

  Lemma ssop_scaled_eq h p0 p1 dst n :
    ssop_scaled L zero add fma h p0 p1 dst n = sop_scaled zero addM fmaM h p0 p1 dst n.
  Proof.
    unfold ssop_scaled, sop_scaled. apply bind_ext. intros _ _. apply bind_ext. intros c _. rewrite ssa_four_sum.
    apply bind_ext. intros s _. reflexivity.
  Qed.

  (** *** the dot product *)
  Section Dot.
    Variable h : heap T.
    Variable p q : ptr.
    Variable n : nat.
    Variable u v : nat -> T.
    Hypothesis RU : forall i, i < n -> ld h (padd p i) = Ok (u i).
    Hypothesis RV : forall i, i < n -> ld h (padd q i) = Ok (v i).
    Notation w := (fun i => mul (u i) (v i)).

    Lemma map2_mul k m : map2 mul (map u (seq k m)) (map v (seq k m)) = map w (seq k m).
    Proof. generalize (seq k m) as l. clear. induction l as [|i l IH]; cbn [map map2]; [reflexivity|]. now rewrite IH. Qed.

    Lemma vmuladd_tree k m : forall ts, length ts = m ->
      vmuladd fma (map (teval add) ts) (map u (seq k m)) (map v (seq k m)) =
      map (teval add) (map2 Node (map Leaf (map w (seq k m))) ts).
    Proof.
      clear -k. revert k. unfold vmuladd. induction m as [|m IH]; intros k [|t ts] E; try discriminate; [reflexivity|].
      cbn [seq map combine map2 fst snd teval]. f_equal. apply IH. now injection E.
    Qed.

    Lemma sdp_tail_at c : forall k acc, k + c = n ->
      sdp_tail fma h (padd p k) (padd q k) c acc = Ok (fold_left (fun s x => add x s) (map w (seq k c)) acc).
    Proof.
      induction c as [|c IH]; intros k acc E; cbn [sdp_tail seq map fold_left]; [reflexivity|].
      rewrite RU, RV by lia. cbn [bind]. rewrite !padd_add. replace (k + 1) with (S k) by lia. apply IH. lia.
    Qed.

    (** the same shape of result as for the sums, with the products as elements *)
    Definition dcovers (ts : list (tree T)) (k : nat) (out : res T) : Prop :=
      exists t, Permutation (leaves t) (lv ts ++ map w (seq k (n - k))) /\ out = Ok (teval add t).

    Lemma tree_fold_flip l : forall t, exists t',
      fold_left (fun s x => add x s) l (teval add t) = teval add t' /\ Permutation (leaves t') (leaves t ++ l).
    Proof.
      clear. induction l as [|x l IH]; intros t; cbn [fold_left].
      - exists t. now rewrite app_nil_r.
      - destruct (IH (Node (Leaf x) t)) as (t' & E & Q). exists t'. split; [exact E|]. rewrite Q. cbn [leaves app].
        apply Permutation_middle.
    Qed.

    Lemma sdp_one_tree fuel : forall k ts, n - k < fuel -> k <= n -> length ts = L ->
      dcovers ts k (sdp_one L add fma fuel h (padd p k) (padd q k) (n - k) (map (teval add) ts)).
    Proof.
      pose proof (HLpos L HL) as PL. induction fuel as [|fuel IH]; intros k ts F LE E; [lia|]. cbn [sdp_one].
      destruct (Nat.leb_spec L (n - k)) as [B|_].
      - rewrite (vload_at L h p n u RU), (vload_at L h q n v RV) by lia. cbn [bind]. rewrite vmuladd_tree by exact E.
        rewrite !padd_add. replace (n - k - L) with (n - (k + L)) by lia.
        destruct (IH (k + L) (map2 Node (map Leaf (map w (seq k L))) ts)) as (t & P & Q);
          [lia|lia|rewrite map2_length, !map_length, seq_length; lia|].
        exists t. split; [|exact Q]. rewrite P, lv_node by (now rewrite !map_length, seq_length). rewrite lv_leaf.
        rewrite (seq_split k (k + L) n) by lia. replace (k + L - k) with L by lia. rewrite map_app, !app_assoc.
        apply Permutation_app_tail, Permutation_app_comm.
      - destruct (hor_pairs_tree L HL add ts E) as (t & -> & P). cbn [bind]. rewrite sdp_tail_at by lia.
        destruct (tree_fold_flip (map w (seq k (n - k))) t) as (t' & -> & Q). exists t'. split; [|reflexivity]. now rewrite Q, P.
    Qed.

    Lemma sdp_four_tree fuel : forall k ts, n - k < fuel -> k <= n -> length ts = L ->
      dcovers ts k (sdp_four L add mul fma fuel h (padd p k) (padd q k) (n - k) (map (teval add) ts)).
    Proof.
      pose proof (HLpos L HL) as PL. induction fuel as [|fuel IH]; intros k ts F LE E; [lia|]. cbn [sdp_four].
      destruct (Nat.leb_spec (4 * L) (n - k)) as [B|_]; [|apply sdp_one_tree; lia].
      rewrite !padd_add, !Nat.mul_0_l, !Nat.add_0_r, !(vload_at L h p n u RU), !(vload_at L h q n v RV) by lia. cbn [bind].
      rewrite !map2_mul, (quads_eval L add w), map2_teval. replace (n - k - 4 * L) with (n - (k + 4 * L)) by lia.
      destruct (IH (k + 4 * L) (map2 Node ts (quads L w k))) as (t & P & Q);
        [lia|lia|rewrite map2_length, quads_length; lia|].
      exists t. split; [|exact Q].
      rewrite P, lv_node by (now rewrite quads_length). rewrite quads_leaves, <- app_assoc, <- map_app.
      rewrite (seq_split k (k + 4 * L) n) by lia. replace (k + 4 * L - k) with (4 * L) by lia. reflexivity.
    Qed.

    Lemma dot_go_at c : forall k acc, k + c = n ->
      dot_go addM mulM h (padd p k) 1 (padd q k) 1 c acc = Ok (fold_left add (map w (seq k c)) acc).
    Proof.
      induction c as [|c IH]; intros k acc E; cbn [dot_go seq map fold_left]; [reflexivity|].
      rewrite RU, RV by lia. cbn [bind]. rewrite !padd_add. replace (k + 1) with (S k) by lia. apply IH. lia.
    Qed.

    Lemma sdp_four_value : sdp_four L add mul fma (S n) h p q n (repeat zero L) = dot_go addM mulM h p 1 q 1 n zero.
    Proof.
      pose proof (sdp_four_tree (S n) 0 (repeat (Leaf zero) L)) as C. rewrite teval_repeat, !padd_0, Nat.sub_0_r in C.
      destruct C as (t & P & ->); [lia|lia|apply repeat_length|]. rewrite lv_repeat, Nat.sub_0_r in P.
      pose proof (dot_go_at n 0 zero eq_refl) as D. rewrite !padd_0 in D. rewrite D. f_equal. now apply (tree_value t L).
    Qed.
  End Dot.

  (** an element that cannot be read stops both *)
  Lemma sdp_tail_bad (h : heap T) p q n j : ld h (padd p j) = Oob \/ ld h (padd q j) = Oob -> forall k acc, k <= j < n ->
    sdp_tail fma h (padd p k) (padd q k) (n - k) acc = Oob.
  Proof.
    clear HL. intros E k. remember (n - k) as c. revert k Heqc. induction c as [|c IH]; intros k Q acc I; [lia|]. cbn [sdp_tail].
    pose proof (ld_not_Panic h (padd p k)) as N1. pose proof (ld_not_Panic h (padd q k)) as N2.
    destruct (ld h (padd p k)) eqn:E1; cbn [bind]; [|congruence|reflexivity].
    destruct (ld h (padd q k)) eqn:E2; cbn [bind]; [|congruence|reflexivity].
    rewrite !padd_add. apply IH; [lia|]. destruct (Nat.eq_dec k j) as [->|]; [destruct E; congruence|lia].
  Qed.
  Lemma dot_go_bad (h : heap T) p q n j : ld h (padd p j) = Oob \/ ld h (padd q j) = Oob -> forall k acc, k <= j < n ->
    dot_go addM mulM h (padd p k) 1 (padd q k) 1 (n - k) acc = Oob.
  Proof.
    clear HL. intros E k. remember (n - k) as c. revert k Heqc. induction c as [|c IH]; intros k Q acc I; [lia|]. cbn [dot_go].
    pose proof (ld_not_Panic h (padd p k)) as N1. pose proof (ld_not_Panic h (padd q k)) as N2.
    destruct (ld h (padd p k)) eqn:E1; cbn [bind]; [|congruence|reflexivity].
    destruct (ld h (padd q k)) eqn:E2; cbn [bind]; [|congruence|reflexivity].
    rewrite !padd_add. apply IH; [lia|]. destruct (Nat.eq_dec k j) as [->|]; [destruct E; congruence|lia].
  Qed.
  Lemma vmuladd_length (a b c : list T) : length (vmuladd fma a b c) = Nat.min (length a) (Nat.min (length b) (length c)).
  Proof. unfold vmuladd. now rewrite map2_length, combine_length. Qed.

  Lemma two_bad (h : heap T) p q k j a b : k <= j < k + L -> ld h (padd p j) = Oob \/ ld h (padd q j) = Oob ->
    vload L h (Mem (padd p k)) = Ok a -> vload L h (Mem (padd q k)) = Ok b -> False.
  Proof.
    intros I [E|E] A B; [rewrite (vload_bad L HL h p k j) in A by auto|rewrite (vload_bad L HL h q k j) in B by auto]; discriminate.
  Qed.

  Lemma sdp_one_bad (h : heap T) p q n j : ld h (padd p j) = Oob \/ ld h (padd q j) = Oob ->
    forall fuel k acc, k <= j < n -> n - k < fuel -> length acc = L ->
    sdp_one L add fma fuel h (padd p k) (padd q k) (n - k) acc = Oob.
  Proof.
    intros E. pose proof (HLpos L HL) as PL. induction fuel as [|fuel IH]; intros k acc I F LA; [lia|]. cbn [sdp_one].
    destruct (Nat.leb_spec L (n - k)) as [B|_].
    - destruct (vload L h (Mem (padd p k))) as [a| |] eqn:V; [|now destruct (vload_not_Panic L h _ V)|reflexivity]. cbn [bind].
      destruct (vload L h (Mem (padd q k))) as [b| |] eqn:W; [|now destruct (vload_not_Panic L h _ W)|reflexivity]. cbn [bind].
      destruct (Nat.lt_ge_cases j (k + L)) as [LT|GE]; [destruct (two_bad h p q k j a b ltac:(lia) E V W)|].
      rewrite !padd_add. replace (n - k - L) with (n - (k + L)) by lia. apply IH; [lia|lia|].
      rewrite vmuladd_length, (vload_length L h _ _ V), (vload_length L h _ _ W). lia.
    - pose proof (hor_pairs_not_Panic L HL add acc LA). destruct (hor_pairs add acc); cbn [bind]; [|congruence|reflexivity].
      now apply sdp_tail_bad with (j := j).
  Qed.

  Lemma sdp_four_bad (h : heap T) p q n j : ld h (padd p j) = Oob \/ ld h (padd q j) = Oob ->
    forall fuel k acc, k <= j < n -> n - k < fuel -> length acc = L ->
    sdp_four L add mul fma fuel h (padd p k) (padd q k) (n - k) acc = Oob.
  Proof.
    intros E. pose proof (HLpos L HL) as PL. induction fuel as [|fuel IH]; intros k acc I F LA; [lia|]. cbn [sdp_four].
    destruct (Nat.leb_spec (4 * L) (n - k)) as [B|_]; [|apply (sdp_one_bad h p q n j); auto; lia].
    rewrite !padd_add.
    destruct (vload L h (Mem (padd p (k + 0 * L)))) as [a0| |] eqn:A0; [|now destruct (vload_not_Panic L h _ A0)|reflexivity]. cbn [bind].
    destruct (vload L h (Mem (padd q (k + 0 * L)))) as [b0| |] eqn:B0; [|now destruct (vload_not_Panic L h _ B0)|reflexivity]. cbn [bind].
    destruct (vload L h (Mem (padd p (k + 1 * L)))) as [a1| |] eqn:A1; [|now destruct (vload_not_Panic L h _ A1)|reflexivity]. cbn [bind].
    destruct (vload L h (Mem (padd q (k + 1 * L)))) as [b1| |] eqn:B1; [|now destruct (vload_not_Panic L h _ B1)|reflexivity]. cbn [bind].
    destruct (vload L h (Mem (padd p (k + 2 * L)))) as [a2| |] eqn:A2; [|now destruct (vload_not_Panic L h _ A2)|reflexivity]. cbn [bind].
    destruct (vload L h (Mem (padd q (k + 2 * L)))) as [b2| |] eqn:B2; [|now destruct (vload_not_Panic L h _ B2)|reflexivity]. cbn [bind].
    destruct (vload L h (Mem (padd p (k + 3 * L)))) as [a3| |] eqn:A3; [|now destruct (vload_not_Panic L h _ A3)|reflexivity]. cbn [bind].
    destruct (vload L h (Mem (padd q (k + 3 * L)))) as [b3| |] eqn:B3; [|now destruct (vload_not_Panic L h _ B3)|reflexivity]. cbn [bind].
    destruct (Nat.lt_ge_cases j (k + 4 * L)) as [LT|GE].
    - exfalso. destruct (Nat.lt_ge_cases j (k + 1 * L)); [now apply (two_bad h p q (k + 0 * L) j a0 b0); auto; lia|].
      destruct (Nat.lt_ge_cases j (k + 2 * L)); [now apply (two_bad h p q (k + 1 * L) j a1 b1); auto; lia|].
      destruct (Nat.lt_ge_cases j (k + 3 * L)); [now apply (two_bad h p q (k + 2 * L) j a2 b2); auto; lia|].
      now apply (two_bad h p q (k + 3 * L) j a3 b3); auto; lia.
    - apply (vload_length L) in A0, A1, A2, A3, B0, B1, B2, B3. replace (n - k - 4 * L) with (n - (k + 4 * L)) by lia. apply IH; [lia|lia|].
      rewrite !map2_length, A0, A1, A2, A3, B0, B1, B2, B3. lia.
  Qed.

  Lemma sdp_four_dot (h : heap T) p q n :
    sdp_four L add mul fma (S n) h p q n (repeat zero L) = dot_go addM mulM h p 1 q 1 n zero.
  Proof.
    assert (G : (exists j, j < n /\ (ld h (padd p j) = Oob \/ ld h (padd q j) = Oob)) \/
      (exists u v, (forall i, i < n -> ld h (padd p i) = Ok (u i)) /\ (forall i, i < n -> ld h (padd q i) = Ok (v i)))).
    { destruct (reads_dec h p 1 n zero) as [(u & RU)|(j & J & E)]; [|left; exists j; split; [lia|left; now rewrite Nat.mul_1_r in E]].
      destruct (reads_dec h q 1 n zero) as [(v & RV)|(j & J & E)]; [|left; exists j; split; [lia|right; now rewrite Nat.mul_1_r in E]].
      right. exists u, v. split; intros i I; [rewrite <- (RU i I)|rewrite <- (RV i I)]; now rewrite Nat.mul_1_r. }
    destruct G as [(j & J & E)|(u & v & RU & RV)]; [|now apply (sdp_four_value h p q n u v)].
    pose proof (sdp_four_bad h p q n j E (S n) 0 (repeat zero L)) as B1. pose proof (dot_go_bad h p q n j E 0 zero) as B2.
    rewrite !padd_0, Nat.sub_0_r in B1, B2. rewrite B1, B2; auto; try lia. apply repeat_length.
  Qed.

  Lemma sdot_eq (h : heap T) p q dst n : sdot L zero add mul fma h p q dst n = strided_dot zero addM mulM h p 1 q 1 dst n.
  Proof. unfold sdot, strided_dot, add_to. rewrite sdp_four_dot. reflexivity. Qed.

  (** ** the kernel tables and the loops *)
  Lemma ssop_two_eq h p0 s0 p1 s1 dst ds n : fst p0 <> fst dst -> fst p1 <> fst dst ->
    ssop_two L zero one add mul fma h p0 s0 p1 s1 dst ds n = sop_two zero one addM mulM fmaM h p0 s0 p1 s1 dst ds n.
  Proof.
    intros N0 N1. unfold ssop_two, sop_two.
    destruct (Nat.eqb_spec s0 0), (Nat.eqb_spec s0 1), (Nat.eqb_spec s1 0), (Nat.eqb_spec s1 1), (Nat.eqb_spec ds 0), (Nat.eqb_spec ds 1);
      cbn [Nat.add]; try lia; try reflexivity;
      first [apply ssop_scaled_eq | apply (ssop_muladd_eq L HL fma); assumption | apply bind_ext; intros; apply sdot_eq].
  Qed.

  Lemma ssop_fixed_eq h ps ss dst ds n : Forall (fun p => fst p <> fst dst) ps ->
    ssop_fixed L zero one add mul fma h ps ss dst ds n = sop_fixed zero one addM mulM fmaM h ps ss dst ds n.
  Proof.
    intros F. unfold ssop_fixed, sop_fixed. destruct ps as [|p0 [|p1 [|p2 ps]]]; try reflexivity.
    destruct ss as [|s0 [|s1 [|s2 ss]]]; try reflexivity. inversion F as [|? ? F0 F']; subst. inversion F'; subst. now apply ssop_two_eq.
  Qed.

  Lemma padds_blocks ps : forall os b, Forall (fun p => fst p <> b) ps -> Forall (fun p => fst p <> b) (padds ps os).
  Proof.
    clear. induction ps as [|p ps IH]; intros [|o os] b F; cbn [padds]; auto. inversion F; subst. constructor; [exact H1|]. now apply IH.
  Qed.

  Lemma call_sop_eq h bases dst offs inner n : Forall (fun p => fst p <> fst dst) bases ->
    call_sop (ssop_fixed L zero one add mul fma) h bases dst offs inner n =
    call_sop (sop_fixed zero one addM mulM fmaM) h bases dst offs inner n.
  Proof. intros F. unfold call_sop. apply ssop_fixed_eq. cbn [padd fst]. now apply padds_blocks. Qed.

  Lemma for_each_ext' {A S} (f g : A -> S -> res S) l : (forall x s, f x s = g x s) -> forall s, for_each f l s = for_each g l s.
  Proof. clear. intros E. induction l as [|x l IH]; intros s; cbn [for_each]; [reflexivity|]. rewrite E. apply bind_ext. intros s' _. apply IH. Qed.

  Lemma srun_einsum_eq h bases strides sh dst : Forall (fun p => fst p <> fst dst) bases ->
    srun_einsum L zero one add mul fma h bases strides sh dst = run_einsum zero one addM mulM fmaM h bases strides sh dst.
  Proof.
    intros F. unfold srun_einsum, run_einsum, ptr in *. destruct ((length bases =? 1) || (length bases =? 2)); [|reflexivity].
    destruct strides as [|d0 [|d1 [|d2 [|d3 strides]]]]; try reflexivity.
    - destruct sh as [|n0 [|n1 [|n2 sh]]]; try reflexivity. unfold seinsum_2labels, einsum_2labels.
      apply bind_ext. intros _ _. apply bind_ext. intros _ _. apply for_each_ext'. intros i h'. now apply call_sop_eq.
    - destruct sh as [|n0 [|n1 [|n2 [|n3 sh]]]]; try reflexivity. unfold seinsum_3labels, einsum_3labels.
      apply bind_ext. intros _ _. apply bind_ext. intros _ _. apply bind_ext. intros _ _. apply for_each_ext'. intros i h'.
      apply for_each_ext'. intros j h''. now apply call_sop_eq.
  Qed.

  Lemma snd_einsum_eq (h : heap T) ops subs out : Forall (fun a => a_blk a < length h) ops ->
    snd_einsum L zero one add mul fma h ops subs out = nd_einsum zero one addM mulM fmaM h ops subs out.
  Proof.
    intros F. unfold snd_einsum, nd_einsum. apply bind_ext. intros [[strides sh] osh] _. unfold alloc.
    rewrite srun_einsum_eq; [reflexivity|]. cbn [fst]. apply Forall_forall. intros p I. apply in_map_iff in I as (a & <- & I).
    rewrite Forall_forall in F. specialize (F a I). cbn [fst a_ptr]. lia.
  Qed.

  Lemma seinsum_into_ptr_eq (h : heap T) ops subs out rst dst : Forall (fun a => a_blk a <> fst dst) ops ->
    seinsum_into_ptr L zero one add mul fma h ops subs out rst dst = einsum_into_ptr zero one addM mulM fmaM h ops subs out rst dst.
  Proof.
    intros F. unfold seinsum_into_ptr, einsum_into_ptr. apply bind_ext. intros [[strides sh] osh] _.
    apply bind_ext. intros _ _. apply bind_ext. intros h1 _. apply srun_einsum_eq.
    apply Forall_forall. intros p I. apply in_map_iff in I as (a & <- & I). rewrite Forall_forall in F. exact (F a I).
  Qed.

  Lemma snd_matmul_eq (h : heap T) a b : a_blk a < length h -> a_blk b < length h ->
    snd_matmul L zero one add mul fma h a b = nd_matmul zero one addM mulM fmaM h a b.
  Proof.
    intros A B. unfold snd_matmul, nd_matmul. destruct (a_shape a) as [|n [|k [|? ?]]]; try reflexivity.
    destruct (a_shape b) as [|k' [|m [|? ?]]]; try reflexivity. apply bind_ext. intros _ _.
    unfold nd_full. destruct (guard _); cbn [bind]; [|reflexivity|reflexivity]. unfold from_buffer, alloc.
    unfold smatrix_matrix, matrix_matrix. rewrite seinsum_into_ptr_eq; [reflexivity|].
    repeat constructor; cbn [a_ptr fresh_arr a_blk a_off fst]; lia.
  Qed.

  Lemma sbmm_go_eq n : forall (h : heap T) a b sa sb rst rs dst, a_blk a <> fst dst -> a_blk b <> fst dst ->
    sbmm_go L zero one add mul fma h a b sa sb rst rs dst n = bmm_go zero one addM mulM fmaM h a b sa sb rst rs dst n.
  Proof.
    induction n as [|n IH]; intros h a b sa sb rst rs dst A B; cbn [sbmm_go bmm_go]; [reflexivity|].
    unfold smatrix_matrix, matrix_matrix. rewrite seinsum_into_ptr_eq by (repeat constructor; assumption).
    apply bind_ext. intros h' _. apply IH; assumption.
  Qed.

  Lemma bind_inv {A B} (m : res A) (k : A -> res B) r : bind m k = Ok r -> exists a, m = Ok a /\ k a = Ok r.
  Proof. destruct m; cbn; intros; try discriminate. eauto. Qed.

  Lemma slice_blk a a' : nd_slice_along a 0 (IUsize 0) = Ok a' -> a_blk a' = a_blk a.
  Proof.
    unfold nd_slice_along. intros H. repeat (apply bind_inv in H as (? & _ & H)).
    repeat match type of H with (let '(_, _) := ?x in _) = _ => destruct x end.
    repeat (apply bind_inv in H as (? & _ & H)). injection H as <-. reflexivity.
  Qed.

  Lemma snd_bmm_eq (h : heap T) a b : a_blk a < length h -> a_blk b < length h ->
    snd_bmm L zero one add mul fma h a b = nd_bmm zero one addM mulM fmaM h a b.
  Proof.
    intros A B. unfold snd_bmm, nd_bmm. destruct (a_shape a) as [|n [|i [|? [|? ?]]]]; try reflexivity.
    destruct (a_shape b) as [|n' [|? [|k [|? ?]]]]; try reflexivity. apply bind_ext. intros _ _.
    unfold nd_full. destruct (guard _); cbn [bind]; [|reflexivity|reflexivity]. unfold from_buffer, alloc.
    apply bind_ext. intros la HA. apply bind_ext. intros lb HB. do 3 (apply bind_ext; intros ? _).
    rewrite sbmm_go_eq; [reflexivity| |]; cbn [a_ptr fresh_arr a_blk a_off fst];
      [rewrite (slice_blk _ _ HA)|rewrite (slice_blk _ _ HB)]; lia.
  Qed.
End Csr.
