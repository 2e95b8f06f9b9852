(** SimdAssign.v: the values written by the vectorised loop when operands and destination share
    memory. *)
From Coq Require Import List Arith Lia Bool ZArith.
From Verif Require Import Base Spec Layout SpecFacts LayoutFacts Views ViewsFacts ViewsFacts2 ViewsFacts3 Kernels Access HeapFacts KernelFacts OpFacts
  Chain ChainFacts PropsOps PropsAssign PropsAssign2 Simd SimdFacts.
Import ListNotations.
Open Scope res_scope.

(** how many of [n] elements the unrolled loop treats, in blocks of 4L *)
Definition unrolled (L n : nat) : nat := n / (4 * L) * (4 * L).
(** how many writes come before the loads for the k-th element: those of the earlier blocks, or in
    the scalar loop at the end all earlier ones *)
Definition sight (L n k : nat) : nat := if k <? unrolled L n then k / (4 * L) * (4 * L) else k.

Lemma unrolled_small L n : n < 4 * L -> unrolled L n = 0.
Proof. intros H. unfold unrolled. now rewrite Nat.div_small. Qed.
Lemma unrolled_step L n : 0 < L -> 4 * L <= n -> unrolled L n = 4 * L + unrolled L (n - 4 * L).
Proof.
  intros P H. unfold unrolled. replace n with (n - 4 * L + 1 * (4 * L)) at 1 by lia. rewrite Nat.div_add by lia. lia.
Qed.
Lemma sight_first L n k : 4 * L <= n -> 0 < L -> k < 4 * L -> sight L n k = 0.
Proof.
  intros H P K. unfold sight. rewrite (unrolled_step L n P H), (proj2 (Nat.ltb_lt _ _)) by lia. now rewrite Nat.div_small.
Qed.
Lemma sight_step L n k : 4 * L <= n -> 0 < L -> sight L n (4 * L + k) = 4 * L + sight L (n - 4 * L) k.
Proof.
  intros H P. unfold sight. rewrite (unrolled_step L n P H).
  destruct (Nat.ltb_spec k (unrolled L (n - 4 * L))).
  - rewrite (proj2 (Nat.ltb_lt _ _)) by lia. replace (4 * L + k) with (k + 1 * (4 * L)) by lia. rewrite Nat.div_add by lia. lia.
  - rewrite (proj2 (Nat.ltb_ge _ _)) by lia. reflexivity.
Qed.
Lemma sight_small L n k : n < 4 * L -> sight L n k = k.
Proof. intros H. unfold sight. rewrite unrolled_small by exact H. reflexivity. Qed.
Lemma sight_le L n k : 0 < L -> sight L n k <= k.
Proof. intros P. unfold sight. destruct (_ <? _); [|lia]. rewrite Nat.mul_comm. apply Nat.mul_div_le. lia. Qed.

Section Main.
  Context {T : Type}.
  Variable L : nat.
  Hypothesis HL : L = 1 \/ L = 2 \/ L = 4.
  Variable f : T -> T -> T.

  Lemma L_pos : 0 < L.
  Proof. destruct HL as [-> | [-> | ->]]; lia. Qed.

  (** what the i-th lane of a block holds *)
  Definition oval (o : opnd T) (h : heap T) (i : nat) : res T := match o with OConst v _ => Ok v | _ => src_ld h (oat o i) end.

  Lemma ovec_oval h o k : ovec L h o k = mapM (oval o h) (seq (k * L) L).
  Proof.
    destruct o as [v p|p|p s].
    - cbn [ovec oval]. change (oval (OConst v p) h) with (fun _ : nat => @Ok T v). now rewrite mapM_const, seq_length.
    - apply (ovec_eq L HL h (OUnit p) k I).
    - apply (ovec_eq L HL h (OStride p s) k I).
  Qed.

  Lemma mapM_ok {A B} (g : A -> res B) l : (forall x, In x l -> exists v, g x = Ok v) -> exists vs, mapM g l = Ok vs.
  Proof.
    induction l as [|x l IH]; intros H; [exists []; reflexivity|]. destruct (H x (or_introl eq_refl)) as (v & E).
    destruct IH as (vs & EV); [intros y I; apply H; now right|]. exists (v :: vs). cbn [mapM]. now rewrite E, EV.
  Qed.

  Lemma quads (g : nat -> res T) xs : mapM g (seq 0 (4 * L)) = Ok xs -> exists x0 x1 x2 x3,
    mapM g (seq (0 * L) L) = Ok x0 /\ mapM g (seq (1 * L) L) = Ok x1 /\ mapM g (seq (2 * L) L) = Ok x2 /\ mapM g (seq (3 * L) L) = Ok x3 /\
    xs = x0 ++ x1 ++ x2 ++ x3 /\ length x0 = L /\ length x1 = L /\ length x2 = L /\ length x3 = L.
  Proof.
    rewrite quad, !mapM_app. intros E. apply bind_Ok_inv in E as (x0 & E0 & E). apply bind_Ok_inv in E as (y & EY & E). injection E as <-.
    apply bind_Ok_inv in EY as (x1 & E1 & E). apply bind_Ok_inv in E as (y' & EY & E). injection E as <-.
    apply bind_Ok_inv in EY as (x2 & E2 & E). apply bind_Ok_inv in E as (x3 & E3 & E). injection E as <-.
    exists x0, x1, x2, x3. rewrite E0, E1, E2, E3. apply mapM_length in E0, E1, E2, E3. rewrite seq_length in *. repeat (split; [auto|]). auto.
  Qed.

  Lemma block_store h a b dst xs ys (k : heap T -> res (heap T)) :
    mapM (oval a h) (seq 0 (4 * L)) = Ok xs -> mapM (oval b h) (seq 0 (4 * L)) = Ok ys ->
    (a0 <- ovec L h a 0 ;; b0 <- ovec L h b 0 ;;
     a1 <- ovec L h a 1 ;; b1 <- ovec L h b 1 ;;
     a2 <- ovec L h a 2 ;; b2 <- ovec L h b 2 ;;
     a3 <- ovec L h a 3 ;; b3 <- ovec L h b 3 ;;
     h0 <- vstore h (padd dst (0 * L)) (map2 f a0 b0) ;;
     h1 <- vstore h0 (padd dst (1 * L)) (map2 f a1 b1) ;;
     h2 <- vstore h1 (padd dst (2 * L)) (map2 f a2 b2) ;;
     h3 <- vstore h2 (padd dst (3 * L)) (map2 f a3 b3) ;; k h3) =
    (h3 <- vstore h dst (map2 f xs ys) ;; k h3).
  Proof.
    intros EA EB. destruct (quads _ _ EA) as (x0 & x1 & x2 & x3 & A0 & A1 & A2 & A3 & -> & LA0 & LA1 & LA2 & LA3).
    destruct (quads _ _ EB) as (y0 & y1 & y2 & y3 & B0 & B1 & B2 & B3 & -> & LB0 & LB1 & LB2 & LB3).
    rewrite !ovec_oval, A0, A1, A2, A3, B0, B1, B2, B3. cbn [bind].
    rewrite !(map2_app L HL) by congruence.
    assert (M : forall l r, length l = L -> length r = L -> length (map2 f l r) = L) by (intros l r E1 E2; rewrite map2_length, E1, E2; lia).
    rewrite Nat.mul_0_l, padd_0, vstore_app, bind_assoc. apply bind_ext. intros h0 _. rewrite (M x0 y0) by assumption.
    rewrite Nat.mul_1_l, vstore_app, bind_assoc. apply bind_ext. intros h1 _. rewrite (M x1 y1) by assumption.
    rewrite padd_add, vstore_app, bind_assoc. replace (2 * L) with (L + L) by lia. apply bind_ext. intros h2 _. rewrite (M x2 y2) by assumption.
    rewrite padd_add. replace (3 * L) with (L + L + L) by lia. reflexivity.
  Qed.

  Lemma vstore_patched (h : heap T) b0 o0 vs : forall h1 pre, patched h h1 b0 o0 pre ->
    (forall i, i < length vs -> exists v, load h b0 (o0 + length pre + i) = Ok v) ->
    exists h2, vstore h1 (b0, o0 + length pre) vs = Ok h2 /\ patched h h2 b0 o0 (pre ++ vs).
  Proof.
    induction vs as [|v vs IH]; intros h1 pre P V; cbn [vstore].
    - exists h1. now rewrite app_nil_r.
    - destruct (V 0 ltac:(cbn; lia)) as (x & EX). rewrite Nat.add_0_r in EX.
      destruct (now_loaded h b0 o0 pre b0 (o0 + length pre) (ex_intro _ x EX)) as (x' & EX'). destruct P as [PL PP]. rewrite <- PP in EX'.
      destruct (store_ok h1 b0 (o0 + length pre) v x' EX') as (h2 & ES). unfold st. cbn [fst snd]. rewrite ES. cbn [bind].
      pose proof (patched_snoc h h1 h2 b0 o0 pre v (conj PL PP) ES) as P2.
      assert (LL : length (pre ++ [v]) = S (length pre)) by (rewrite app_length; cbn; lia).
      destruct (IH h2 (pre ++ [v]) P2) as (h3 & E3 & P3).
      + intros i I. rewrite LL. replace (o0 + S (length pre) + i) with (o0 + length pre + S i) by lia. apply V. cbn; lia.
      + exists h3. rewrite LL, <- app_assoc in *. unfold padd. cbn [fst snd app] in *. replace (o0 + length pre + 1) with (o0 + S (length pre)) by lia. auto.
  Qed.

  (** what a source holds after the writes [ws] *)
  Definition snow (h : heap T) (b0 o0 : nat) (ws : list T) (s : src T) : res T :=
    match s with Mem p => now h b0 o0 ws (fst p) (snd p) | Val v => Ok v end.
  Lemma snow_patched h h1 b0 o0 ws s : patched h h1 b0 o0 ws -> src_ld h1 s = snow h b0 o0 ws s.
  Proof. intros [_ P]. destruct s as [[b o]|v]; [apply P|reflexivity]. Qed.
  Lemma snow_loaded h b0 o0 ws s : (exists v, src_ld h s = Ok v) -> exists v, snow h b0 o0 ws s = Ok v.
  Proof. destruct s as [[b o]|v]; intros E; [now apply now_loaded|exists v; reflexivity]. Qed.

  (** what the k-th of [n] turns reads from an operand *)
  Definition rd (h : heap T) (b0 o0 : nat) (n : nat) (o : opnd T) (pre ws : list T) (k : nat) : res T :=
    match o with
    | OConst v p => if k <? unrolled L n then Ok v else snow h b0 o0 (pre ++ firstn (sight L n k) ws) p
    | _ => snow h b0 o0 (pre ++ firstn (sight L n k) ws) (oat o k)
    end.

  Lemma map2_nth {A B C} (g : A -> B -> C) l1 : forall l2 k v, nth_error (map2 g l1 l2) k = Some v ->
    exists x y, nth_error l1 k = Some x /\ nth_error l2 k = Some y /\ v = g x y.
  Proof.
    induction l1 as [|x l1 IH]; intros [|y l2] [|k] v E; cbn in E; try discriminate.
    - injection E as <-. exists x, y; auto.
    - cbn. now apply IH.
  Qed.

  Lemma main_history fuel : forall (h h1 : heap T) a b b0 o0 pre count, count < fuel ->
    patched h h1 b0 o0 pre ->
    (forall i, i < count -> exists v, load h b0 (o0 + length pre + i) = Ok v) ->
    (forall i, i < count -> exists v, src_ld h (oat a i) = Ok v) ->
    (forall i, i < count -> exists v, src_ld h (oat b i) = Ok v) ->
    exists ws h', length ws = count /\
      (forall k v, nth_error ws k = Some v -> (x <- rd h b0 o0 count a pre ws k ;; y <- rd h b0 o0 count b pre ws k ;; Ok (f x y)) = Ok v) /\
      simd_main L f fuel h1 a b (b0, o0 + length pre) count = Ok h' /\ patched h h' b0 o0 (pre ++ ws).
  Proof.
    pose proof L_pos as LP. induction fuel as [|fuel IH]; intros h h1 a b b0 o0 pre count FU P V Va Vb; [lia|].
    cbn [simd_main]. destruct (Nat.leb_spec (4 * L) count) as [LE|GT].
    - assert (OK : forall o, (forall i, i < count -> exists v, src_ld h (oat o i) = Ok v) -> exists xs, mapM (oval o h1) (seq 0 (4 * L)) = Ok xs).
      { intros o Vo. apply mapM_ok. intros i I. apply in_seq in I. unfold oval. 
        assert (W : exists v, src_ld h1 (oat o i) = Ok v) by (rewrite (snow_patched _ _ _ _ _ _ P); apply snow_loaded, Vo; lia).
        destruct o; eauto. }
      destruct (OK a Va) as (xs & EA). destruct (OK b Vb) as (ys & EB). rewrite (block_store h1 a b _ xs ys _ EA EB).
      pose proof (mapM_length _ _ _ EA) as LX. pose proof (mapM_length _ _ _ EB) as LY. rewrite seq_length in LX, LY.
      set (vs := map2 f xs ys). assert (LV : length vs = 4 * L) by (unfold vs; rewrite map2_length, LX, LY; lia).
      destruct (vstore_patched h b0 o0 vs h1 pre P) as (h2 & E2 & P2); [intros i I; apply V; lia|]. rewrite E2. cbn [bind].
      assert (LL : length (pre ++ vs) = length pre + 4 * L) by (rewrite app_length; lia).
      destruct (IH h h2 (onext4 L a) (onext4 L b) b0 o0 (pre ++ vs) (count - 4 * L)) as (ws & h3 & LW & HW & E3 & P3).
      + lia.
      + exact P2.
      + intros i I. rewrite LL. replace (o0 + (length pre + 4 * L) + i) with (o0 + length pre + (4 * L + i)) by lia. apply V. lia.
      + intros i I. rewrite (oat_next4 L HL). apply Va. lia.
      + intros i I. rewrite (oat_next4 L HL). apply Vb. lia.
      + exists (vs ++ ws), h3. split; [rewrite app_length; lia|]. split; [|split].
        * intros k v N. destruct (Nat.lt_ge_cases k (4 * L)) as [K|K].
          { rewrite nth_error_app1 in N by lia. unfold vs in N. apply map2_nth in N as (x & y & NX & NY & ->).
            assert (R : forall o zs z, mapM (oval o h1) (seq 0 (4 * L)) = Ok zs -> nth_error zs k = Some z -> rd h b0 o0 count o pre (vs ++ ws) k = Ok z).
            { intros o zs z EZ NZ. assert (NS : nth_error (seq 0 (4 * L)) k = Some k) by (rewrite nth_error_seq by exact K; reflexivity).
              destruct (vs_nth _ _ _ _ _ EZ NS) as (z' & NZ' & EO). rewrite NZ in NZ'. injection NZ' as <-.
              unfold rd. rewrite (sight_first L count k LE LP K). cbn [firstn]. rewrite app_nil_r. 
              rewrite (proj2 (Nat.ltb_lt k (unrolled L count))) by (rewrite (unrolled_step L count LP LE); lia).
              destruct o; cbn [oval] in EO; [exact EO|rewrite <- (snow_patched _ _ _ _ _ _ P); exact EO..]. }
            rewrite (R a xs x EA NX), (R b ys y EB NY). reflexivity. }
          { rewrite nth_error_app2 in N by lia. specialize (HW _ _ N). rewrite LV in HW.
            assert (R : forall o, rd h b0 o0 (count - 4 * L) (onext4 L o) (pre ++ vs) ws (k - 4 * L) = rd h b0 o0 count o pre (vs ++ ws) k).
            { intros o. assert (K4 : k = 4 * L + (k - 4 * L)) by lia.
              assert (S4 : pre ++ firstn (sight L count k) (vs ++ ws) = (pre ++ vs) ++ firstn (sight L (count - 4 * L) (k - 4 * L)) ws).
              { rewrite K4 at 1. rewrite (sight_step L count _ LE LP), firstn_app, LV, firstn_all2 by lia.
                replace (4 * L + sight L (count - 4 * L) (k - 4 * L) - 4 * L) with (sight L (count - 4 * L) (k - 4 * L)) by lia. now rewrite app_assoc. }
              assert (U : (k - 4 * L <? unrolled L (count - 4 * L)) = (k <? unrolled L count)).
              { rewrite (unrolled_step L count LP LE). destruct (Nat.ltb_spec (k - 4 * L) (unrolled L (count - 4 * L))), (Nat.ltb_spec k (4 * L + unrolled L (count - 4 * L))); auto; lia. }
              assert (OT : oat (onext4 L o) (k - 4 * L) = oat o k) by (rewrite (oat_next4 L HL); f_equal; lia).
              unfold rd. destruct o as [c p|p|p s]; cbn [onext4] in *.
              - now rewrite S4, U.
              - now rewrite S4, OT.
              - now rewrite S4, OT. }
            now rewrite !R in HW. }
        * rewrite <- E3, LL. unfold padd. cbn [fst snd]. do 2 f_equal. lia.
        * now rewrite app_assoc.
    - rewrite simd_tail_loop.
      destruct (loop_history (map (ocell f a b) (seq 0 count))
        (fun ws m => x <- snow h b0 o0 ws (oat a (m - length pre)) ;; y <- snow h b0 o0 ws (oat b (m - length pre)) ;; Ok (f x y)) h h1 b0 o0 pre P) as (ws & LW & HW & R).
      + intros i I. rewrite map_length, seq_length in I. now apply V.
      + intros k op E h2 ws LE P2. assert (K : k < count).
        { assert (NN : nth_error (map (ocell f a b) (seq 0 count)) k <> None) by congruence. apply nth_error_Some in NN. now rewrite map_length, seq_length in NN. }
        rewrite nth_error_map, nth_error_seq in E by exact K. injection E as <-. unfold ocell.
        rewrite !(snow_patched _ _ _ _ _ _ P2). replace (length pre + k - length pre) with k by lia. reflexivity.
      + rewrite map_length, seq_length in *. destruct R as [(LE & h' & E & P')|(LT & NO & _)].
        * exists ws, h'. split; [exact LE|]. split; [|auto]. intros k v N. specialize (HW k v N). replace (length pre + k - length pre) with k in HW by lia.
          assert (R : forall o, rd h b0 o0 count o pre ws k = snow h b0 o0 (pre ++ firstn k ws) (oat o k)).
          { intros o. unfold rd. rewrite (sight_small L count k GT), (unrolled_small L count GT). cbn [Nat.ltb Nat.leb].
            destruct o as [c p|p|p s]; [|reflexivity..]. unfold oat. cbn [obase ostep]. now rewrite Nat.mul_0_r, src_add_0. }
          now rewrite !R.
        * exfalso. replace (length pre + length ws - length pre) with (length ws) in NO by lia.
          destruct (snow_loaded h b0 o0 (pre ++ ws) (oat a (length ws)) (Va _ LT)) as (x & EX).
          destruct (snow_loaded h b0 o0 (pre ++ ws) (oat b (length ws)) (Vb _ LT)) as (y & EY).
          apply (NO (f x y)). now rewrite EX, EY.
  Qed.
End Main.
