(** SimdFacts.v: the vectorised elementwise kernels compute what the portable loops compute
    when no operand element is written before it is read. *)
From Coq Require Import List Arith Lia Bool.
From Verif Require Import Base Spec Layout SpecFacts LayoutFacts Views ViewsFacts ViewsFacts2 ViewsFacts3 Kernels HeapFacts KernelFacts OpFacts Simd.
Import ListNotations.
Open Scope res_scope.

Lemma bind_not_Panic {A B} (m : res A) (k : A -> res B) : m <> Panic -> (forall x, k x <> Panic) -> bind m k <> Panic.
Proof. destruct m; cbn [bind]; auto; congruence. Qed.

Lemma Ok_not_Panic {A} (x : A) : Ok x <> Panic.
Proof. discriminate. Qed.

Lemma mapM_not_Panic {A B} (f : A -> res B) l : (forall x, In x l -> f x <> Panic) -> mapM f l <> Panic.
Proof.
  induction l as [|x l IH]; intros H; cbn [mapM]; [discriminate|].
  apply bind_not_Panic; [apply H; cbn; auto|]. intros y. apply bind_not_Panic; [apply IH; intros; apply H; cbn; auto|discriminate].
Qed.

(** two results that are never panics may be computed in either order *)
Lemma bind_swap {A B C} (m1 : res A) (m2 : res B) (k : A -> B -> res C) : m1 <> Panic -> m2 <> Panic ->
  (x <- m1 ;; y <- m2 ;; k x y) = (y <- m2 ;; x <- m1 ;; k x y).
Proof. destruct m1, m2; cbn [bind]; congruence. Qed.

Lemma mapM_pair {A B C D} (r1 : A -> res B) (r2 : A -> res C) (f : B -> C -> D) l :
  (forall x, r1 x <> Panic) -> (forall x, r2 x <> Panic) ->
  mapM (fun x => a <- r1 x ;; b <- r2 x ;; Ok (f a b)) l =
  (xs <- mapM r1 l ;; ys <- mapM r2 l ;; Ok (map2 f xs ys)).
Proof.
  intros N1 N2. induction l as [|x l IH]; cbn [mapM bind map2]; [reflexivity|]. rewrite IH. clear IH.
  pose proof (mapM_not_Panic r1 l (fun x _ => N1 x)) as M1. pose proof (mapM_not_Panic r2 l (fun x _ => N2 x)) as M2.
  specialize (N1 x). specialize (N2 x).
  destruct (r1 x), (r2 x), (mapM r1 l), (mapM r2 l); cbn [bind map2]; congruence.
Qed.

Lemma seq_add a n : seq a n = map (Nat.add a) (seq 0 n).
Proof.
  enough (G : forall z, seq (a + z) n = map (Nat.add a) (seq z n)) by (rewrite <- (Nat.add_0_r a) at 1; apply G).
  induction n as [|n IH]; intros z; cbn [seq map]; [reflexivity|]. f_equal. rewrite <- IH. f_equal. lia.
Qed.

Lemma padd_0 p : padd p 0 = p.
Proof. destruct p; unfold padd; cbn [fst snd]. now rewrite Nat.add_0_r. Qed.
Lemma padd_add p a b : padd (padd p a) b = padd p (a + b).
Proof. destruct p; unfold padd; cbn [fst snd]. now rewrite Nat.add_assoc. Qed.
Lemma padd_inj p a b : padd p a = padd p b -> a = b.
Proof. destruct p; unfold padd; cbn [fst snd]. intros E. injection E. lia. Qed.

Lemma ld_not_Panic {T} (h : heap T) p : ld h p <> Panic.
Proof. apply load_not_panic. Qed.
Lemma st_not_Panic {T} (h : heap T) p v : st h p v <> Panic.
Proof. apply store_not_panic. Qed.
Lemma src_ld_not_Panic {T} (h : heap T) s : src_ld h s <> Panic.
Proof. destruct s; cbn [src_ld]; [apply load_not_panic|discriminate]. Qed.

Lemma ld_st_other {T} (h h' : heap T) p v q : st h p v = Ok h' -> q <> p -> ld h' q = ld h q.
Proof. destruct p, q. unfold st, ld. cbn [fst snd]. intros E N. eapply load_store_other; eauto. Qed.
Lemma src_ld_st_other {T} (h h' : heap T) p v s : st h p v = Ok h' -> s <> Mem p -> src_ld h' s = src_ld h s.
Proof. destruct s as [q|c]; cbn [src_ld]; auto. intros E N. eapply ld_st_other; eauto. congruence. Qed.

Section Blk.
  Context {T : Type}.

  Lemma loop_app (ops1 : list (heap T -> res T)) : forall ops2 h dst,
    loop h (ops1 ++ ops2) dst = (h' <- loop h ops1 dst ;; loop h' ops2 (padd dst (length ops1))).
  Proof.
    induction ops1 as [|o ops1 IH]; intros ops2 h dst; cbn [app loop length]; [now rewrite padd_0|].
    rewrite bind_assoc. apply bind_ext. intros v _. rewrite bind_assoc. apply bind_ext. intros h' _.
    rewrite IH. now rewrite padd_add.
  Qed.

  Lemma loop_frame (ops : list (heap T -> res T)) : forall h dst h', loop h ops dst = Ok h' ->
    forall s, (forall i, i < length ops -> s <> Mem (padd dst i)) -> src_ld h' s = src_ld h s.
  Proof.
    induction ops as [|o ops IH]; intros h dst h' E s N; cbn [loop length] in *.
    - injection E as <-. reflexivity.
    - apply bind_Ok_inv in E as (v & _ & E). apply bind_Ok_inv in E as (h1 & E1 & E).
      rewrite (IH _ _ _ E s).
      + eapply src_ld_st_other; eauto. rewrite <- (padd_0 dst). apply N. lia.
      + intros i I. rewrite padd_add. apply N. lia.
  Qed.

  Lemma vstore_app vs1 : forall vs2 (h : heap T) p,
    vstore h p (vs1 ++ vs2) = (h' <- vstore h p vs1 ;; vstore h' (padd p (length vs1)) vs2).
  Proof.
    induction vs1 as [|v vs1 IH]; intros vs2 h p; cbn [app vstore length]; [now rewrite padd_0|].
    rewrite bind_assoc. apply bind_ext. intros h' _. rewrite IH. now rewrite padd_add.
  Qed.

  Lemma loop_map_ext {A} (g1 g2 : A -> heap T -> res T) l h dst : (forall x h, g1 x h = g2 x h) ->
    loop h (map g1 l) dst = loop h (map g2 l) dst.
  Proof. intros E. apply loop_ext. induction l as [|x l IH]; cbn [map]; constructor; auto. Qed.

  (** reading everything first and then storing is the loop, without feedback *)
  Lemma block_loop (ops : list (heap T -> res T)) : forall h dst,
    (forall o, In o ops -> forall h, o h <> Panic) ->
    (forall k o, nth_error ops k = Some o -> forall i v h h', i < k -> st h (padd dst i) v = Ok h' -> o h' = o h) ->
    (vs <- mapM (fun o => o h) ops ;; vstore h dst vs) = loop h ops dst.
  Proof.
    induction ops as [|o ops IH]; intros h dst NP NF; cbn [mapM loop]; [reflexivity|].
    rewrite bind_assoc. apply bind_ext. intros v _. rewrite bind_assoc. cbn [bind vstore].
    destruct (st h dst v) as [h'| |] eqn:E; cbn [bind].
    - rewrite <- IH.
      + rewrite (mapM_ext (fun o => o h) (fun o => o h')); [reflexivity|].
        intros o' I. apply In_nth_error in I as (k & I). symmetry. eapply (NF (S k)) with (i := 0); eauto; [lia|].
        rewrite padd_0. exact E.
      + intros o' I. apply NP. cbn; auto.
      + intros k o' I i v' h1 h2 LT E2. eapply (NF (S k)) with (i := S i); eauto; [lia|]. rewrite padd_add in E2. exact E2.
    - destruct (st_not_Panic _ _ _ E).
    - pose proof (mapM_not_Panic (fun o => o h) ops (fun o' I => NP o' (or_intror I) h)) as M.
      destruct (mapM (fun o => o h) ops); cbn [bind]; congruence.
  Qed.
End Blk.

Section Vec.
  Context {T : Type}.
  Variable L : nat.
  Hypothesis HL : L = 1 \/ L = 2 \/ L = 4.

  (** where the k-th element of an operand lies *)
  Definition obase (o : opnd T) : src T := match o with OConst _ p => p | OUnit p => p | OStride p _ => p end.
  Definition ostep (o : opnd T) : nat := match o with OConst _ _ => 0 | OUnit _ => 1 | OStride _ s => s end.
  Definition oat (o : opnd T) (k : nat) : src T := src_add (obase o) (k * ostep o).
  (** the register of a constant operand holds what its pointer points to *)
  Definition ogood (h : heap T) (o : opnd T) : Prop := match o with OConst v p => src_ld h p = Ok v | _ => True end.

  Lemma vgather_eq (h : heap T) p s : vgather L h p s = mapM (fun i => src_ld h (src_add p (i * s))) (seq 0 L).
  Proof.
    destruct HL as [-> | [-> | ->]]; cbv [vgather Nat.eqb]; cbn [seq mapM].
    - rewrite src_add_0. destruct (src_ld h p); reflexivity.
    - destruct (src_ld h (src_add p (0 * s))); cbn [bind]; [|reflexivity..].
      destruct (src_ld h (src_add p (1 * s))); reflexivity.
    - destruct (src_ld h (src_add p (0 * s))); cbn [bind]; [|reflexivity..].
      destruct (src_ld h (src_add p (1 * s))); cbn [bind]; [|reflexivity..].
      destruct (src_ld h (src_add p (2 * s))); cbn [bind]; [|reflexivity..].
      destruct (src_ld h (src_add p (3 * s))); reflexivity.
  Qed.

  Lemma mapM_const {A B} (v : B) (l : list A) : mapM (fun _ => Ok v) l = Ok (repeat v (length l)).
  Proof. induction l as [|x l IH]; cbn [mapM bind repeat length]; [reflexivity|]. now rewrite IH. Qed.

  Lemma ovec_eq h o k : ogood h o -> ovec L h o k = mapM (fun i => src_ld h (oat o i)) (seq (k * L) L).
  Proof.
    intros G. assert (SH : forall g : nat -> res T, mapM g (seq (k * L) L) = mapM (fun i => g (k * L + i)) (seq 0 L)).
    { intros g. rewrite (seq_add (k * L) L). apply mapM_map. }
    rewrite SH. clear SH. destruct o as [v p|p|p s]; cbn [ovec]; unfold oat; cbn [obase ostep].
    - cbn [ogood] in G. rewrite (mapM_ext _ (fun _ => Ok v)).
      + now rewrite mapM_const, seq_length.
      + intros i _. now rewrite Nat.mul_0_r, src_add_0.
    - unfold vload. apply mapM_ext. intros i _. rewrite src_add_add. do 2 f_equal. lia.
    - rewrite vgather_eq. apply mapM_ext. intros i _. rewrite src_add_add. do 2 f_equal. lia.
  Qed.

  Lemma oat_next4 o k : oat (onext4 L o) k = oat o (4 * L + k).
  Proof.
    destruct o as [v p|p|p s]; unfold oat; cbn [onext4 obase ostep]; rewrite ?src_add_add; f_equal; lia.
  Qed.
  Lemma oat_next1 (o : opnd T) k : oat (onext1 o) k = oat o (S k).
  Proof. destruct o as [v p|p|p s]; unfold oat; cbn [onext1 obase ostep]; rewrite ?src_add_add; f_equal; lia. Qed.
  Lemma oelt_eq (h : heap T) o : oelt h o = src_ld h (oat o 0).
  Proof. destruct o; unfold oat; cbn [oelt obase ostep]; now rewrite src_add_0. Qed.

  Lemma ogood_oat (h : heap T) o v p : o = OConst v p -> forall k, oat o k = p.
  Proof. intros -> k. unfold oat. cbn [obase ostep]. now rewrite Nat.mul_0_r, src_add_0. Qed.

  (** no operand element is one of the cells written before its turn *)
  Definition ofree (o : opnd T) (dst : ptr) (count : nat) : Prop :=
    forall i j, i < j < count -> oat o j <> Mem (padd dst i).

  Lemma map_seq_shift {A} (g : nat -> A) a n : map g (seq a n) = map (fun i => g (a + i)) (seq 0 n).
  Proof. rewrite seq_add, map_map. reflexivity. Qed.

  Variable f : T -> T -> T.
  Definition ocell (a b : opnd T) (k : nat) : heap T -> res T :=
    fun h => x <- src_ld h (oat a k) ;; y <- src_ld h (oat b k) ;; Ok (f x y).

  Lemma ocell_not_Panic a b k h : ocell a b k h <> Panic.
  Proof. repeat (apply bind_not_Panic; [apply src_ld_not_Panic|intros]). discriminate. Qed.

  Lemma simd_tail_loop count : forall h a b dst,
    simd_tail f h a b dst count = loop h (map (ocell a b) (seq 0 count)) dst.
  Proof.
    induction count as [|c IH]; intros h a b dst; [reflexivity|]. cbn [simd_tail seq map loop].
    unfold ocell at 1. rewrite !oelt_eq, !bind_assoc. apply bind_ext. intros x _. rewrite !bind_assoc. apply bind_ext.
    intros y _. cbn [bind]. apply bind_ext. intros h' _. rewrite IH. rewrite <- seq_shift, map_map.
    apply loop_map_ext. intros k h0. unfold ocell. now rewrite !oat_next1.
  Qed.

  Lemma map2_app {A B C} (g : A -> B -> C) l1 : forall l2 r1 r2, length l1 = length l2 ->
    map2 g (l1 ++ r1) (l2 ++ r2) = map2 g l1 l2 ++ map2 g r1 r2.
  Proof. induction l1 as [|x l1 IH]; intros [|y l2] r1 r2 E; cbn in E; try discriminate; [reflexivity|]. cbn. f_equal. apply IH. lia. Qed.

  Lemma map2_length {A B C} (g : A -> B -> C) l1 : forall l2, length (map2 g l1 l2) = Nat.min (length l1) (length l2).
  Proof. induction l1 as [|x l1 IH]; intros [|y l2]; cbn; auto. Qed.

  Lemma quad n : seq 0 (4 * n) = seq (0 * n) n ++ seq (1 * n) n ++ seq (2 * n) n ++ seq (3 * n) n.
  Proof.
    clear. replace (4 * n) with (n + (n + (n + n))) by lia. rewrite !seq_app.
    replace (3 * n) with (0 + n + n + n) by lia. replace (2 * n) with (0 + n + n) by lia.
    replace (1 * n) with (0 + n) by lia. reflexivity.
  Qed.

  Lemma block_eq h a b dst : ogood h a -> ogood h b -> ofree a dst (4 * L) -> ofree b dst (4 * L) ->
    forall k : heap T -> res (heap T),
    (a0 <- ovec L h a 0 ;; b0 <- ovec L h b 0 ;;
     a1 <- ovec L h a 1 ;; b1 <- ovec L h b 1 ;;
     a2 <- ovec L h a 2 ;; b2 <- ovec L h b 2 ;;
     a3 <- ovec L h a 3 ;; b3 <- ovec L h b 3 ;;
     h0 <- vstore h (padd dst (0 * L)) (map2 f a0 b0) ;;
     h1 <- vstore h0 (padd dst (1 * L)) (map2 f a1 b1) ;;
     h2 <- vstore h1 (padd dst (2 * L)) (map2 f a2 b2) ;;
     h3 <- vstore h2 (padd dst (3 * L)) (map2 f a3 b3) ;; k h3) =
    (h3 <- loop h (map (ocell a b) (seq 0 (4 * L))) dst ;; k h3).
  Proof.
    intros Ga Gb Fa Fb k. rewrite <- block_loop.
    2:{ intros o I. apply in_map_iff in I as (i & <- & _). apply ocell_not_Panic. }
    2:{ intros j o E i v h1 h2 LT ST. 
        assert (J : j < 4 * L).
        { assert (NN : nth_error (map (ocell a b) (seq 0 (4 * L))) j <> None) by congruence.
          apply nth_error_Some in NN. now rewrite map_length, seq_length in NN. }
        rewrite nth_error_map, nth_error_seq in E by exact J. injection E as <-. unfold ocell. cbn [Nat.add].
        now rewrite (src_ld_st_other _ _ _ _ (oat a j) ST (Fa i j (conj LT J))), (src_ld_st_other _ _ _ _ (oat b j) ST (Fb i j (conj LT J))). }
    rewrite mapM_map. unfold ocell.
    rewrite (mapM_pair (fun i => src_ld h (oat a i)) (fun i => src_ld h (oat b i))) by (intros; apply src_ld_not_Panic).
    assert (NA : forall l, mapM (fun i => src_ld h (oat a i)) l <> Panic) by (intros; apply mapM_not_Panic; intros; apply src_ld_not_Panic).
    assert (NB : forall l, mapM (fun i => src_ld h (oat b i)) l <> Panic) by (intros; apply mapM_not_Panic; intros; apply src_ld_not_Panic).
    assert (LA : forall n xs, mapM (fun i => src_ld h (oat a i)) (seq n L) = Ok xs -> length xs = L).
    { intros n xs E. apply mapM_length in E. now rewrite seq_length in E. }
    assert (LB : forall n xs, mapM (fun i => src_ld h (oat b i)) (seq n L) = Ok xs -> length xs = L).
    { intros n xs E. apply mapM_length in E. now rewrite seq_length in E. }
    rewrite quad, !mapM_app, !(ovec_eq h a) by exact Ga. rewrite !(ovec_eq h b) by exact Gb.
    destruct (mapM (fun i => src_ld h (oat a i)) (seq (0 * L) L)) as [a0| |] eqn:E0; [|now destruct (NA _ E0)|reflexivity].
    destruct (mapM (fun i => src_ld h (oat b i)) (seq (0 * L) L)) as [b0| |] eqn:F0; [|now destruct (NB _ F0)|];
    (destruct (mapM (fun i => src_ld h (oat a i)) (seq (1 * L) L)) as [a1| |] eqn:E1; [|now destruct (NA _ E1)|reflexivity]);
    (destruct (mapM (fun i => src_ld h (oat a i)) (seq (2 * L) L)) as [a2| |] eqn:E2; [|now destruct (NA _ E2)|]);
    (destruct (mapM (fun i => src_ld h (oat a i)) (seq (3 * L) L)) as [a3| |] eqn:E3; [|now destruct (NA _ E3)|]);
    try reflexivity;
    (destruct (mapM (fun i => src_ld h (oat b i)) (seq (1 * L) L)) as [b1| |] eqn:F1; [|now destruct (NB _ F1)|]); try reflexivity;
    (destruct (mapM (fun i => src_ld h (oat b i)) (seq (2 * L) L)) as [b2| |] eqn:F2; [|now destruct (NB _ F2)|]); try reflexivity;
    (destruct (mapM (fun i => src_ld h (oat b i)) (seq (3 * L) L)) as [b3| |] eqn:F3; [|now destruct (NB _ F3)|]); try reflexivity.
    cbn [bind].
    apply LA in E0, E1, E2, E3. apply LB in F0, F1, F2, F3.
    rewrite !map2_app by congruence.
    rewrite vstore_app, map2_length, E0, F0, Nat.min_id, bind_assoc.
    replace (padd dst (0 * L)) with dst by (symmetry; apply padd_0). apply bind_ext. intros h0 _.
    rewrite vstore_app, map2_length, E1, F1, Nat.min_id, bind_assoc, padd_add.
    replace (1 * L) with L by lia. apply bind_ext. intros h1 _.
    rewrite vstore_app, map2_length, E2, F2, Nat.min_id, bind_assoc, padd_add.
    replace (L + L) with (2 * L) by lia. apply bind_ext. intros h2 _.
    replace (2 * L + L) with (3 * L) by lia. reflexivity.
  Qed.

  Lemma simd_main_loop fuel : forall h a b dst count, count < fuel ->
    (0 < count -> ogood h a) -> (0 < count -> ogood h b) -> ofree a dst count -> ofree b dst count ->
    simd_main L f fuel h a b dst count = loop h (map (ocell a b) (seq 0 count)) dst.
  Proof.
    assert (PL : 0 < L) by (destruct HL as [-> | [-> | ->]]; lia).
    induction fuel as [|fuel IH]; intros h a b dst count LT Ga Gb Fa Fb; [lia|]. cbn [simd_main].
    destruct (Nat.leb_spec (4 * L) count) as [LE|_]; [|apply simd_tail_loop].
    rewrite block_eq; [|apply Ga; lia|apply Gb; lia|intros i j I; apply Fa; lia|intros i j I; apply Fb; lia].
    set (r := count - 4 * L). replace count with (4 * L + r) at 1 by (unfold r; lia).
    rewrite seq_app, map_app, loop_app, map_length, seq_length. apply bind_ext. intros h' E.
    assert (KEEP : forall o, (0 < count -> ogood h o) -> ofree o dst count -> 0 < r -> ogood h' (onext4 L o)).
    { intros o G F R. destruct o as [v p|p|p s]; cbn [onext4 ogood]; auto. cbn [ogood] in G. rewrite <- (G ltac:(lia)).
      eapply loop_frame; [exact E|]. intros i I. rewrite map_length, seq_length in I.
      rewrite <- (ogood_oat h (OConst v p) v p eq_refl (4 * L)). apply F. unfold r in R. lia. }
    assert (SHF : forall o, ofree o dst count -> ofree (onext4 L o) (padd dst (4 * L)) r).
    { intros o F i j I. rewrite oat_next4, padd_add. apply F. unfold r in I. lia. }
    rewrite IH; [|unfold r; lia|now apply KEEP|now apply KEEP|now apply SHF|now apply SHF].
    cbn [Nat.add]. rewrite (map_seq_shift (ocell a b) (4 * L) r).
    apply loop_map_ext. intros k h0. unfold ocell. now rewrite !oat_next4.
  Qed.

  Lemma ocell_cell2 h a b dst n : loop h (map (ocell a b) (seq 0 n)) dst =
    loop h (map (cell2 (fun x y => Ok (f x y)) (obase a) (obase b)) (combine (strided n (ostep a)) (strided n (ostep b)))) dst.
  Proof.
    f_equal. unfold strided. rewrite combine_map_same, map_map. reflexivity.
  Qed.

  Definition sfree (s : src T) (st : nat) (dst : ptr) (n : nat) : Prop :=
    forall i j, i < j < n -> src_add s (j * st) <> Mem (padd dst i).

  Notation pf := (fun x y => Ok (f x y)).
  Lemma simd_main_nn h a b dst n : (0 < n -> ogood h a) -> (0 < n -> ogood h b) ->
    sfree (obase a) (ostep a) dst n -> sfree (obase b) (ostep b) dst n ->
    simd_main L f (S n) h a b dst n = k_nn pf h (obase a) (ostep a) (obase b) (ostep b) dst n.
  Proof.
    intros Ga Gb Fa Fb. rewrite simd_main_loop; auto. now rewrite ocell_cell2, k_nn_loop.
  Qed.

  (** the eight kernels *)
  Lemma const_load (h : heap T) s n (K : T -> res (heap T)) r :
    0 < n -> (forall x, src_ld h s = Ok x -> K x = r) -> (src_ld h s = Oob -> Oob = r) -> (x <- src_ld h s ;; K x) = r.
  Proof. intros P H1 H2. destruct (src_ld h s) eqn:E; cbn [bind]; auto. now destruct (src_ld_not_Panic h s). Qed.

  Lemma simd_1_1_eq h p q dst n : sfree p 1 dst n -> sfree q 1 dst n ->
    simd_1_1 L f h p q dst n = k_nn pf h p 1 q 1 dst n.
  Proof. intros. unfold simd_1_1. now rewrite simd_main_nn by (cbn; auto). Qed.
  Lemma simd_n_1_eq h p s q dst n : sfree p s dst n -> sfree q 1 dst n ->
    simd_n_1 L f h p s q dst n = k_nn pf h p s q 1 dst n.
  Proof. intros. unfold simd_n_1. now rewrite simd_main_nn by (cbn; auto). Qed.
  Lemma simd_1_n_eq h p q t dst n : sfree p 1 dst n -> sfree q t dst n ->
    simd_1_n L f h p q t dst n = k_nn pf h p 1 q t dst n.
  Proof. intros. unfold simd_1_n. now rewrite simd_main_nn by (cbn; auto). Qed.
  Lemma simd_n_n_eq h p s q t dst n : sfree p s dst n -> sfree q t dst n ->
    simd_n_n L f h p s q t dst n = k_nn pf h p s q t dst n.
  Proof. intros. unfold simd_n_n. now rewrite simd_main_nn by (cbn; auto). Qed.
  Lemma simd_0_n_eq h p q t dst n : 0 < n -> sfree p 0 dst n -> sfree q t dst n ->
    simd_0_n L f h p q t dst n = k_nn pf h p 0 q t dst n.
  Proof.
    intros P A B. unfold simd_0_n. apply const_load with (n := n); [exact P|intros x E|intros E].
    - now rewrite simd_main_nn by (cbn; auto).
    - destruct n; [lia|]. cbn [k_nn]. now rewrite E.
  Qed.
  Lemma simd_0_1_eq h p q dst n : 0 < n -> sfree p 0 dst n -> sfree q 1 dst n ->
    simd_0_1 L f h p q dst n = k_nn pf h p 0 q 1 dst n.
  Proof.
    intros P A B. unfold simd_0_1. apply const_load with (n := n); [exact P|intros x E|intros E].
    - now rewrite simd_main_nn by (cbn; auto).
    - destruct n; [lia|]. cbn [k_nn]. now rewrite E.
  Qed.
  Lemma simd_n_0_eq h p s q dst n : 0 < n -> sfree p s dst n -> sfree q 0 dst n ->
    simd_n_0 L f h p s q dst n = k_nn pf h p s q 0 dst n.
  Proof.
    intros P A B. unfold simd_n_0. apply const_load with (n := n); [exact P|intros x E|intros E].
    - now rewrite simd_main_nn by (cbn; auto).
    - destruct n; [lia|]. cbn [k_nn]. rewrite E. pose proof (src_ld_not_Panic h p). destruct (src_ld h p); cbn [bind]; congruence.
  Qed.
  Lemma simd_1_0_eq h p q dst n : 0 < n -> sfree p 1 dst n -> sfree q 0 dst n ->
    simd_1_0 L f h p q dst n = k_nn pf h p 1 q 0 dst n.
  Proof.
    intros P A B. unfold simd_1_0. apply const_load with (n := n); [exact P|intros x E|intros E].
    - now rewrite simd_main_nn by (cbn; auto).
    - destruct n; [lia|]. cbn [k_nn]. rewrite E. pose proof (src_ld_not_Panic h p). destruct (src_ld h p); cbn [bind]; congruence.
  Qed.
End Vec.

(** ** The dispatch functions *)
Lemma collapse_last sh st n s : length sh = length st -> collapse sh st = ([n], [s]) ->
  offsets sh st = strided n s /\ n = prod sh.
Proof.
  intros E C. split; [now apply collapse_one|]. rewrite <- (collapse_prod _ _ _ _ E C). cbn. lia.
Qed.

Section Disp.
  Context {T : Type}.
  Variable L : nat.
  Hypothesis HL : L = 1 \/ L = 2 \/ L = 4.

  (** no element of the operand is a destination cell of an earlier step *)
  Definition kfree (p : ptr) (offs : list nat) (dst : ptr) : Prop :=
    forall i j x, i < j -> nth_error offs j = Some x -> padd p x <> padd dst i.

  Lemma kfree_sfree p dst n s : kfree p (strided n s) dst -> @sfree T (Mem p) s dst n.
  Proof.
    intros F i j (LT & J) E. apply (F i j (j * s) LT); [|cbn [src_add] in E; congruence].
    unfold strided. now rewrite nth_error_map, nth_error_seq by exact J.
  Qed.

  Lemma sfree_val (c : T) s dst n : sfree (Val c) s dst n.
  Proof. intros i j _. cbn [src_add]. discriminate. Qed.

  Variable f : T -> T -> T.
  Notation pf := (fun x y => Ok (f x y)).

  Lemma sk_binary_eq h lhs ls rhs rs dst shape :
    length ls = length shape -> length rs = length shape -> 0 < prod shape ->
    kfree lhs (offsets shape ls) dst -> kfree rhs (offsets shape rs) dst ->
    sk_binary L f h lhs ls rhs rs dst shape = k_binary pf h lhs ls rhs rs dst shape.
  Proof.
    intros L1 L2 P Fl Fr. unfold sk_binary, k_binary.
    destruct ((length ls =? 0) && (length rs =? 0)); [reflexivity|].
    destruct (collapse shape ls) as [lsh lst] eqn:CL. destruct (collapse shape rs) as [rsh rst] eqn:CR.
    destruct (last_of lst) as [li| |] eqn:ELI; cbn [bind]; [|reflexivity..].
    destruct (last_of rst) as [ri| |] eqn:ERI; cbn [bind]; [|reflexivity..].
    destruct (vget lsh 0) as [ln| |] eqn:ELN; cbn [bind]; [|reflexivity..].
    destruct (vget rsh 0) as [rn| |] eqn:ERN; cbn [bind]; [|reflexivity..].
    destruct (length lsh =? 1) eqn:D1; cbn [andb]; [|reflexivity].
    destruct (length rsh =? 1) eqn:D2; cbn [andb]; [|reflexivity].
    apply len1 in D1 as (n & ->). apply len1 in D2 as (m & ->).
    pose proof (collapse_offsets _ _ _ _ (eq_sym L1) CL) as (_ & LL & _).
    pose proof (collapse_offsets _ _ _ _ (eq_sym L2) CR) as (_ & LR & _).
    destruct lst as [|s [|]]; try discriminate LL. destruct rst as [|t [|]]; try discriminate LR.
    cbv in ELI, ERI, ELN, ERN. injection ELI as <-. injection ERI as <-. injection ELN as <-. injection ERN as <-.
    destruct (collapse_last _ _ _ _ (eq_sym L1) CL) as (O1 & ->). destruct (collapse_last _ _ _ _ (eq_sym L2) CR) as (O2 & ->).
    rewrite O1 in Fl. rewrite O2 in Fr. apply kfree_sfree in Fl, Fr.
    destruct (Nat.eqb_spec t 0) as [->|NT].
    - destruct (Nat.eqb_spec s 1) as [->|NS]; [apply simd_1_0_eq|apply simd_n_0_eq]; auto.
    - destruct (Nat.eqb_spec s 0) as [->|NS].
      + destruct (Nat.eqb_spec t 1) as [->|]; [apply simd_0_1_eq|apply simd_0_n_eq]; auto.
      + destruct (Nat.eqb_spec s 1) as [->|], (Nat.eqb_spec t 1) as [->|]; cbn [andb];
          [apply simd_1_1_eq|apply simd_1_n_eq|apply simd_n_1_eq|apply simd_n_n_eq]; auto.
  Qed.

  Lemma sk_scalar_eq h lhs lsh ls c dst :
    length ls = length lsh -> 0 < prod lsh -> kfree lhs (offsets lsh ls) dst ->
    sk_scalar L f h lhs lsh ls c dst = k_scalar pf h lhs lsh ls c dst.
  Proof.
    intros L1 P F. unfold sk_scalar, k_scalar. destruct ls as [|s0 ls0]; [reflexivity|].
    destruct (collapse lsh (s0 :: ls0)) as [sh str] eqn:C.
    destruct (last_of str) as [i| |] eqn:EI; cbn [bind]; [|reflexivity..].
    destruct (length sh =? 1) eqn:D; [|reflexivity]. apply len1 in D as (n & ->).
    pose proof (collapse_offsets _ _ _ _ (eq_sym L1) C) as (_ & LL & _). destruct str as [|s [|]]; try discriminate LL.
    cbv in EI. injection EI as <-. cbn [vget nth_error bind].
    destruct (collapse_last _ _ _ _ (eq_sym L1) C) as (O & ->). rewrite O in F. apply kfree_sfree in F.
    destruct (Nat.eqb_spec s 1) as [->|]; [apply simd_1_0_eq|apply simd_n_0_eq]; auto; apply sfree_val.
  Qed.

  (** negation is the binary loop that ignores its second operand *)
  Variable g : T -> T.
  Lemma simd_neg_tail_bin c0 count : forall h a dst,
    simd_neg_tail g h a dst count = simd_tail (fun x _ => g x) h a (OConst c0 (Val c0)) dst count.
  Proof.
    induction count as [|c IH]; intros h a dst; cbn [simd_neg_tail simd_tail oelt src_ld bind onext1]; [reflexivity|].
    apply bind_ext. intros x _. apply bind_ext. intros h' _. apply IH.
  Qed.
  Lemma map2_const c0 l n : length l = n -> map2 (fun x (_ : T) => g x) l (repeat c0 n) = map g l.
  Proof. revert n; induction l as [|x l IH]; intros [|n] E; try discriminate; [reflexivity|]. cbn. f_equal. apply IH. now injection E. Qed.
  Lemma ovec_length h o k v : @ovec T L h o k = Ok v -> length v = L.
  Proof.
    destruct o as [c p|p|p s]; cbn [ovec]; intros E.
    - injection E as <-. apply repeat_length.
    - apply mapM_length in E. now rewrite seq_length in E.
    - rewrite vgather_eq in E by exact HL. apply mapM_length in E. now rewrite seq_length in E.
  Qed.
  Lemma simd_neg_bin c0 fuel : forall h a dst count,
    simd_neg L g fuel h a dst count = simd_main L (fun x _ => g x) fuel h a (OConst c0 (Val c0)) dst count.
  Proof.
    induction fuel as [|fuel IH]; intros h a dst count; cbn [simd_neg simd_main]; destruct (4 * L <=? count); auto using simd_neg_tail_bin.
    cbn [ovec bind onext4].
    apply bind_ext. intros a0 E0. apply bind_ext. intros a1 E1. apply bind_ext. intros a2 E2. apply bind_ext. intros a3 E3.
    apply ovec_length in E0, E1, E2, E3. rewrite !map2_const by assumption.
    apply bind_ext. intros h0 _. apply bind_ext. intros h1 _. apply bind_ext. intros h2 _. apply bind_ext. intros h3 _. apply IH.
  Qed.
  Lemma k_un_bin c0 count : forall h p s dst,
    k_un (fun x => Ok (g x)) h p s dst count = k_nn (fun x _ => Ok (g x)) h (Mem p) s (Val c0) 0 dst count.
  Proof.
    induction count as [|c IH]; intros h p s dst; cbn [k_un k_nn src_ld src_add bind]; [reflexivity|].
    apply bind_ext. intros x _. apply bind_ext. intros h' _. apply IH.
  Qed.
End Disp.

Section Disp2.
  Context {T : Type}.
  Variable L : nat.
  Hypothesis HL : L = 1 \/ L = 2 \/ L = 4.
  Variable g : T -> T.

  Lemma simd_neg_eq (c0 : T) h o dst n : (match o with OConst _ _ => False | _ => True end) ->
    (exists p, obase o = Mem p) -> sfree (obase o) (ostep o) dst n ->
    forall p, obase o = Mem p ->
    simd_neg L g (S n) h o dst n = k_un (fun x => Ok (g x)) h p (ostep o) dst n.
  Proof.
    intros NC _ F p E. rewrite (simd_neg_bin L HL g c0), simd_main_nn; auto.
    - rewrite (k_un_bin g c0). cbn [obase ostep]. now rewrite E.
    - destruct o; try contradiction; cbn; auto.
    - cbn. auto.
    - apply sfree_val.
  Qed.

  Lemma sk_unary_eq h p shape stride dst :
    length stride = length shape -> 0 < prod shape -> kfree p (offsets shape stride) dst ->
    sk_unary L g h p shape stride dst = k_unary (fun x => Ok (g x)) h p shape stride dst.
  Proof.
    intros L1 P F. unfold sk_unary, k_unary. destruct shape as [|n0 sh0]; [reflexivity|]. set (shape := n0 :: sh0) in *.
    destruct (collapse shape stride) as [sh str] eqn:C.
    destruct (length sh =? 1) eqn:D; [|reflexivity]. apply len1 in D as (n & ->).
    pose proof (collapse_offsets _ _ _ _ (eq_sym L1) C) as (_ & LL & _). destruct str as [|s [|]]; try discriminate LL.
    cbn [vget nth_error bind].
    destruct (collapse_last _ _ _ _ (eq_sym L1) C) as (O & ->). rewrite O in F. apply (@kfree_sfree T) in F.
    destruct (ld h p) as [c0| |] eqn:E0.
    - destruct (Nat.eqb_spec s 0) as [->|]; [|destruct (Nat.eqb_spec s 1) as [->|]];
        apply (simd_neg_eq c0); cbn; eauto.
    - now destruct (ld_not_Panic h p).
    - (* the first element cannot be read: neither kernel gets past it *)
      assert (K : forall n, 0 < n -> k_un (fun x => Ok (g x)) h p s dst n = Oob).
      { intros [|n] LT; [lia|]. cbn [k_un]. now rewrite E0. }
      assert (PL : 0 < L) by (destruct HL as [-> | [-> | ->]]; lia).
      assert (V : forall o, o = OStride (Mem p) s \/ o = OUnit (Mem p) -> ovec L h o 0 = Oob).
      { intros o H. rewrite ovec_eq; [|exact HL|destruct H as [-> | ->]; exact I]. destruct L as [|l]; [lia|]. cbn [Nat.mul seq mapM].
        destruct H as [-> | ->]; unfold oat; cbn [obase ostep]; rewrite src_add_0; cbn [src_ld]; now rewrite E0. }
      assert (N : forall o, o = OStride (Mem p) s \/ o = OUnit (Mem p) -> simd_neg L g (S (prod shape)) h o dst (prod shape) = Oob).
      { intros o H. cbn [simd_neg]. rewrite (V o H). destruct (4 * L <=? prod shape); [reflexivity|].
        destruct (prod shape) as [|n]; [lia|]. cbn [simd_neg_tail].
        destruct H as [-> | ->]; cbn [oelt src_ld]; now rewrite E0. }
      destruct (Nat.eqb_spec s 0) as [->|]; [|destruct (Nat.eqb_spec s 1) as [->|]]; rewrite K by exact P; apply N; auto.
  Qed.
End Disp2.
