(** PropsSimdPointers.v: C95.  The vectorised kernels under the rule of Rust for moving pointers: on
    which arrays an accepted operation is undefined, exactly. *)
From Coq Require Import List Arith Lia Bool ZArith.
From Verif Require Import Base Spec Layout SpecFacts LayoutFacts Views ViewsFacts ViewsFacts2 ViewsFacts3 Kernels Access HeapFacts KernelFacts OpFacts
  Reduce Einsum Chain ChainFacts PropsOps PropsBcast Pointers PointersFacts PropsPointers Simd SimdFacts PropsSimd PropsSimdBcast SimdSop SimdPointers.
Import ListNotations.
Open Scope res_scope.

Section Loops.
  Context {T : Type}.
  Variable L : nat.
  Hypothesis HL : L = 2 \/ L = 4.
  Implicit Types (h : heap T) (p : ptr) (o : opnd T).

  Let HL3 : L = 1 \/ L = 2 \/ L = 4.
  Proof. destruct HL; auto. Qed.
  Let PL : 0 < L.
  Proof. destruct HL; lia. Qed.

  (** n moves of the operand end inside its allocation or one past it *)
  Definition olim h o (n : nat) : bool :=
    match o with OConst _ _ => true | OUnit p => slim h p 1 n | OStride p s => slim h p s n end.
  (** the operand is read at a place outside its allocation *)
  Definition odead h o : Prop :=
    match o with OConst _ _ => False | OUnit p => src_ld h p = Oob | OStride p _ => src_ld h p = Oob end.

  Lemma move_or_dead h (p : src T) n : src_move h p n = Ok (src_add p n) \/ (src_move h p n = Oob /\ src_ld h (src_add p n) = Oob).
  Proof.
    rewrite src_move_lim. destruct (slim h p n 1) eqn:E; [now left|right]. split; [reflexivity|].
    destruct (src_ld h (src_add p n)) eqn:K; [|exfalso; eapply sld_not_panic; eauto|reflexivity].
    apply sld_lim in K. congruence.
  Qed.
  Lemma omove4_cases h o : omove4 L h o = Ok (onext4 L o) \/ (omove4 L h o = Oob /\ odead h (onext4 L o)).
  Proof.
    destruct o as [v p|p|p s]; cbn [omove4 onext4 odead]; [now left| |].
    - destruct (move_or_dead h p (4 * L)) as [->|[-> D]]; cbn [bind]; auto.
    - destruct (move_or_dead h p (4 * s * L)) as [->|[-> D]]; cbn [bind]; auto.
  Qed.
  Lemma omove1_cases h o : omove1 h o = Ok (onext1 o) \/ (omove1 h o = Oob /\ odead h (onext1 o)).
  Proof.
    destruct o as [v p|p|p s]; cbn [omove1 onext1 odead]; [now left| |].
    - destruct (move_or_dead h p 1) as [->|[-> D]]; cbn [bind]; auto.
    - destruct (move_or_dead h p s) as [->|[-> D]]; cbn [bind]; auto.
  Qed.
  Lemma slim_one h (p : src T) s k : slim h p (k * s) 1 = slim h p s k.
  Proof.
    destruct p as [p|v]; cbn [slim]; [|reflexivity]. unfold lim. rewrite Nat.mul_1_l. cbn [Nat.eqb]. rewrite orb_false_r.
    destruct (Nat.eqb_spec (k * s) 0) as [E|E]; cbn [orb].
    - destruct (Nat.eqb_spec s 0); [reflexivity|]. destruct (Nat.eqb_spec k 0); [reflexivity|nia].
    - destruct (Nat.eqb_spec s 0); [nia|]. destruct (Nat.eqb_spec k 0); [nia|reflexivity].
  Qed.
  Lemma slim_jump h (p : src T) s k n : slim h (src_add p (k * s)) s (S n) = slim h p s (k + S n).
  Proof.
    destruct p as [p|v]; cbn [slim src_add]; [|reflexivity]. unfold lim. cbn [padd fst snd].
    destruct (Nat.eqb_spec s 0); cbn [orb]; [reflexivity|]. destruct (Nat.eqb_spec (k + S n) 0); [lia|]. cbn [Nat.eqb orb].
    now replace (snd p + k * s + S n * s) with (snd p + (k + S n) * s) by lia.
  Qed.
  Lemma omove4_lim h o : omove4 L h o = if olim h o (4 * L) then Ok (onext4 L o) else Oob.
  Proof.
    destruct o as [v p|p|p s]; cbn [omove4 onext4 olim]; [reflexivity| |]; rewrite src_move_lim.
    - rewrite <- (slim_one h p 1 (4 * L)), Nat.mul_1_r. now destruct (slim _ _ _ _).
    - replace (4 * s * L) with (4 * L * s) by lia. rewrite slim_one. now destruct (slim _ _ _ _).
  Qed.
  Lemma omove1_lim h o : omove1 h o = if olim h o 1 then Ok (onext1 o) else Oob.
  Proof. destruct o as [v p|p|p s]; cbn [omove1 onext1 olim]; [reflexivity| |]; rewrite src_move_lim; now destruct (slim _ _ _ _). Qed.
  Lemma olim_next4 h o n : olim h (onext4 L o) (S n) = olim h o (4 * L + S n).
  Proof.
    destruct o as [v p|p|p s]; cbn [onext4 olim]; [reflexivity| |].
    - rewrite <- slim_jump. now rewrite Nat.mul_1_r.
    - rewrite <- slim_jump. now replace (4 * s * L) with (4 * L * s) by lia.
  Qed.
  Lemma olim_next1 h o n : olim h (onext1 o) (S n) = olim h o (S (S n)).
  Proof. destruct o as [v p|p|p s]; cbn [onext1 olim]; [reflexivity| |]; apply slim_step. Qed.
  Lemma olim_size h h' o n : (forall b, size h' b = size h b) -> olim h' o n = olim h o n.
  Proof. intros E. destruct o; cbn [olim]; auto using slim_size. Qed.
  Lemma olim0 h o : olim h o 0 = true.
  Proof. destruct o; cbn [olim]; auto using slim0. Qed.

  Lemma src_add_0 (p : src T) : src_add p 0 = p.
  Proof. destruct p as [p|v]; cbn [src_add]; [now rewrite padd0|reflexivity]. Qed.
  Lemma mapM_oob {A B} (g : A -> res B) x l : g x = Oob -> mapM g (x :: l) = Oob.
  Proof. intros E. cbn [mapM]. now rewrite E. Qed.
  Lemma vload_dead h (p : src T) : src_ld h p = Oob -> vload L h p = Oob.
  Proof. intros E. unfold vload. destruct L as [|l]; [lia|]. cbn [seq]. apply mapM_oob. now rewrite src_add_0. Qed.
  Lemma vgather_dead h (p : src T) s : src_ld h p = Oob -> vgather L h p s = Oob.
  Proof. intros E. rewrite vgather_eq by exact HL3. destruct L as [|l]; [lia|]. cbn [seq]. apply mapM_oob. cbn [Nat.mul]. now rewrite src_add_0. Qed.
  Lemma ovec_dead h o : odead h o -> ovec L h o 0 = Oob.
  Proof.
    destruct o as [v p|p|p s]; cbn [odead ovec Nat.mul]; [contradiction| |]; rewrite src_add_0; [apply vload_dead|apply vgather_dead].
  Qed.
  Lemma oelt_dead h o : odead h o -> oelt h o = Oob.
  Proof. destruct o as [v p|p|p s]; cbn [odead oelt]; [contradiction| |]; auto. Qed.
  Lemma ovec_np h o k : ovec L h o k <> Panic.
  Proof.
    destruct o as [v p|p|p s]; cbn [ovec]; [discriminate| |].
    - apply mapM_not_Panic. intros; apply src_ld_not_Panic.
    - rewrite vgather_eq by exact HL3. apply mapM_not_Panic. intros; apply src_ld_not_Panic.
  Qed.
  Lemma oelt_np h o : oelt h o <> Panic.
  Proof. destruct o; cbn [oelt]; apply src_ld_not_Panic. Qed.

  (** what a successful vector store says about the allocation *)
  Lemma vstore_size vs : forall h p h', vstore h p vs = Ok h' -> forall b, size h' b = size h b.
  Proof.
    induction vs as [|v vs IH]; intros h p h'; cbn [vstore]; [intros [= <-]; reflexivity|].
    intros E b. apply bind_Ok_inv in E as (h1 & E1 & E). rewrite (IH _ _ _ E b). eapply st_size; eauto.
  Qed.
  Lemma vstore_end vs : forall h p h', vs <> [] -> vstore h p vs = Ok h' -> exists m, size h' (fst p) = Some m /\ snd p + length vs <= m.
  Proof.
    induction vs as [|v vs IH]; intros h p h' N E; [congruence|]. cbn [vstore] in E. apply bind_Ok_inv in E as (h1 & E1 & E). destruct vs as [|w vs].
    - cbn [vstore] in E. injection E as <-. destruct (store_load_ok _ _ _ _ _ E1) as (x & LD). change (ld h p = Ok x) in LD.
      destruct (ld_size _ _ _ LD) as (m & S & LT). exists m. rewrite (st_size _ _ _ _ E1). split; [exact S|]. cbn [length]. lia.
    - destruct (IH h1 (padd p 1) h' ltac:(discriminate) E) as (m & S & LE). exists m. split; [exact S|]. cbn [padd snd] in LE. cbn [length] in *. lia.
  Qed.
  Lemma vstore_move h p vs h' : length vs = L -> vstore h (padd p (3 * L)) vs = Ok h' -> move h' p (4 * L) = Ok (padd p (4 * L)).
  Proof.
    intros LV E. destruct (vstore_end vs h (padd p (3 * L)) h') as (m & S & LE); [destruct vs; [cbn in LV; lia|discriminate]|exact E|].
    cbn [padd fst snd] in *. rewrite move_size, S. rewrite (proj2 (Nat.leb_le _ _)) by lia. now rewrite orb_true_r.
  Qed.

  Section Bin.
    Variable f : T -> T -> T.

    Lemma tail_dead h o1 o2 dst c : odead h o1 \/ odead h o2 -> simd_tail f h o1 o2 dst (S c) = Oob.
    Proof.
      intros [D|D]; cbn [simd_tail]; rewrite ?(oelt_dead _ _ D); [reflexivity|].
      pose proof (oelt_np h o1). destruct (oelt h o1); cbn [bind]; congruence.
    Qed.
    Lemma main_dead fuel h o1 o2 dst c : odead h o1 \/ odead h o2 -> simd_main L f (S fuel) h o1 o2 dst (S c) = Oob.
    Proof.
      intros D. cbn [simd_main]. destruct (4 * L <=? S c); [|now apply tail_dead]. destruct D as [D|D]; rewrite (ovec_dead _ _ D); [reflexivity|].
      pose proof (ovec_np h o1 0). destruct (ovec L h o1 0); cbn [bind]; congruence.
    Qed.

    Lemma ps_tail_cut c : forall h o1 o2 dst, ps_tail f h o1 o2 dst c = cut (olim h o1 c && olim h o2 c) (simd_tail f h o1 o2 dst c).
    Proof.
      induction c as [|c IH]; intros h o1 o2 dst; [cbn [ps_tail simd_tail cut]; now rewrite !olim0|]. cbn [ps_tail simd_tail].
      destruct (oelt h o1) as [x| |]; cbn [bind cut]; try reflexivity. destruct (oelt h o2) as [y| |]; cbn [bind cut]; try reflexivity.
      destruct (st h dst (f x y)) as [h'| |] eqn:ES; cbn [bind cut]; try reflexivity.
      pose proof (st_size _ _ _ _ ES) as SZ. rewrite <- (olim_size h h' o1), <- (olim_size h h' o2) by exact SZ. rewrite (st_next _ _ _ _ ES).
      destruct c as [|c].
      - rewrite !omove1_lim. cbn [simd_tail cut]. destruct (olim h' o1 1), (olim h' o2 1); reflexivity.
      - rewrite <- !olim_next1. destruct (omove1_cases h' o1) as [->|[-> D1]]; cbn [bind]; [|now rewrite tail_dead by auto].
        destruct (omove1_cases h' o2) as [->|[-> D2]]; cbn [bind]; [|now rewrite tail_dead by auto]. apply IH.
    Qed.

    Lemma ps_main_cut fuel : forall h o1 o2 dst c, c < fuel ->
      ps_main L f fuel h o1 o2 dst c = cut (olim h o1 c && olim h o2 c) (simd_main L f fuel h o1 o2 dst c).
    Proof.
      induction fuel as [|fuel IH]; intros h o1 o2 dst c F; [lia|]. cbn [ps_main simd_main].
      destruct (Nat.leb_spec (4 * L) c) as [B|B]; [|apply ps_tail_cut].
      destruct (ovec L h o1 0) as [a0| |]; cbn [bind cut]; try reflexivity. destruct (ovec L h o2 0) as [b0| |]; cbn [bind cut]; try reflexivity.
      destruct (ovec L h o1 1) as [a1| |]; cbn [bind cut]; try reflexivity. destruct (ovec L h o2 1) as [b1| |]; cbn [bind cut]; try reflexivity.
      destruct (ovec L h o1 2) as [a2| |]; cbn [bind cut]; try reflexivity. destruct (ovec L h o2 2) as [b2| |]; cbn [bind cut]; try reflexivity.
      destruct (ovec L h o1 3) as [a3| |] eqn:EA; cbn [bind cut]; try reflexivity. destruct (ovec L h o2 3) as [b3| |] eqn:EB; cbn [bind cut]; try reflexivity.
      destruct (vstore h _ (map2 f a0 b0)) as [h0| |] eqn:E0; cbn [bind cut]; try reflexivity.
      destruct (vstore h0 _ (map2 f a1 b1)) as [h1| |] eqn:E1; cbn [bind cut]; try reflexivity.
      destruct (vstore h1 _ (map2 f a2 b2)) as [h2| |] eqn:E2; cbn [bind cut]; try reflexivity.
      destruct (vstore h2 _ (map2 f a3 b3)) as [h3| |] eqn:E3; cbn [bind cut]; try reflexivity.
      assert (SZ : forall b, size h3 b = size h b).
      { intros b. now rewrite (vstore_size _ _ _ _ E3), (vstore_size _ _ _ _ E2), (vstore_size _ _ _ _ E1), (vstore_size _ _ _ _ E0). }
      rewrite <- (olim_size h h3 o1), <- (olim_size h h3 o2) by exact SZ.
      assert (MV : move h3 dst (4 * L) = Ok (padd dst (4 * L))).
      { eapply vstore_move; [|exact E3]. rewrite map2_length, (ovec_length L HL3 _ _ _ _ EA), (ovec_length L HL3 _ _ _ _ EB). lia. }
      rewrite MV. destruct (c - 4 * L) as [|c'] eqn:EC.
      - assert (c = 4 * L) as -> by lia. rewrite !omove4_lim. destruct fuel as [|fuel]; [lia|]. cbn [ps_main simd_main].
        destruct (Nat.leb_spec (4 * L) 0); [lia|]. cbn [simd_tail ps_tail cut]. destruct (olim h3 o1 (4 * L)), (olim h3 o2 (4 * L)); reflexivity.
      - assert (c = 4 * L + S c') as -> by lia. rewrite <- !olim_next4. destruct fuel as [|fuel]; [lia|].
        destruct (omove4_cases h3 o1) as [->|[-> D1]]; cbn [bind]; [|now rewrite main_dead by auto].
        destruct (omove4_cases h3 o2) as [->|[-> D2]]; cbn [bind]; [|now rewrite main_dead by auto]. apply IH. lia.
    Qed.
  End Bin.

  Section Kernels.
    Variable f : T -> T -> T.

    Lemma ps_binary_cut h lp ls rp rs dst sh : length ls = length sh -> length rs = length sh ->
      ps_binary L f h lp ls rp rs dst sh = cut (edge h lp sh ls && edge h rp sh rs) (sk_binary L f h lp ls rp rs dst sh).
    Proof.
      intros L1 L2. unfold ps_binary, sk_binary, ps_n_0, ps_0_n, ps_n_n, simd_0_1, simd_1_0, simd_1_1, simd_n_0, simd_0_n, simd_n_1, simd_1_n, simd_n_n. destruct sh as [|n0 sh].
      { destruct ls, rs; try discriminate. cbn [length Nat.eqb andb]. unfold edge. cbn [collapse andb]. now rewrite cut_true. }
      destruct ((length ls =? 0) && (length rs =? 0)) eqn:Z; [apply andb_true_iff in Z as [Z _]; apply Nat.eqb_eq in Z; cbn [length] in L1; lia|].
      set (sh' := n0 :: sh) in *. assert (N : sh' <> []) by discriminate.
      destruct (collapse_straight sh' ls L1 N) as [[_ C1]|[_ C1]], (collapse_straight sh' rs L2 N) as [[_ C2]|[_ C2]].
      - rewrite (edge_one _ _ _ _ _ _ C1), (edge_one _ _ _ _ _ _ C2), C1, C2. cbn [last_of length csub Nat.ltb Nat.leb Nat.sub vget nth_error bind Nat.eqb andb].
        assert (KC : forall o1 o2, ps_main L f (S (prod sh')) h o1 o2 dst (prod sh') = cut (olim h o1 (prod sh') && olim h o2 (prod sh')) (simd_main L f (S (prod sh')) h o1 o2 dst (prod sh'))) by (intros; apply ps_main_cut; lia).
        destruct (Nat.eqb_spec (last rs 0) 0) as [E0|E0].
        { rewrite E0, lim_zero, andb_true_r. destruct (Nat.eqb_spec (last ls 0) 1) as [->|]; (destruct (src_ld h (Mem rp)) as [y| |]; cbn [bind cut]; [|reflexivity..]);
            rewrite KC; cbn [olim slim]; now rewrite andb_true_r. }
        destruct (Nat.eqb_spec (last ls 0) 0) as [E1|E1].
        { rewrite E1, lim_zero. cbn [andb]. destruct (Nat.eqb_spec (last rs 0) 1) as [->|]; (destruct (src_ld h (Mem lp)) as [y| |]; cbn [bind cut]; [|reflexivity..]);
            rewrite KC; reflexivity. }
        destruct (Nat.eqb_spec (last ls 0) 1) as [->|], (Nat.eqb_spec (last rs 0) 1) as [->|]; cbn [andb]; rewrite KC; reflexivity.
      - rewrite (edge_one _ _ _ _ _ _ C1), (edge_many _ _ _ _ C2), C1, andb_true_r. destruct (collapse sh' rs) as [rsh rst]. cbn [fst snd] in *.
        cbn [last_of length csub Nat.ltb Nat.leb Nat.sub vget nth_error bind Nat.eqb andb].
        destruct (last_of rst) as [ri| |]; cbn [bind cut]; try reflexivity. destruct (vget rsh 0) as [rn| |]; cbn [bind cut]; try reflexivity.
        apply Nat.eqb_neq in C2. rewrite C2. cbn [andb].
        destruct (Nat.eqb_spec (last ls 0) 0) as [E1|E1]; [rewrite E1|destruct (Nat.eqb_spec (last ls 0) 1) as [E2|E2]; [rewrite E2|]]; rewrite nx_cut; reflexivity.
      - rewrite (edge_one _ _ _ _ _ _ C2), (edge_many _ _ _ _ C1), C2. cbn [andb]. destruct (collapse sh' ls) as [lsh lst]. cbn [fst snd] in *.
        cbn [last_of length csub Nat.ltb Nat.leb Nat.sub vget nth_error bind Nat.eqb andb].
        change (csub (length [last rs 0]) 1) with (Ok 0).
        destruct (last_of lst) as [li| |]; cbn [bind cut]; try reflexivity. destruct (vget lsh 0) as [ln| |]; cbn [bind cut]; try reflexivity.
        apply Nat.eqb_neq in C1. rewrite C1. cbn [andb].
        destruct (Nat.eqb_spec (last rs 0) 0) as [E1|E1]; [rewrite E1|destruct (Nat.eqb_spec (last rs 0) 1) as [E2|E2]; [rewrite E2|]]; rewrite xn_cut; reflexivity.
      - rewrite (edge_many _ _ _ _ C1), (edge_many _ _ _ _ C2), cut_true. destruct (collapse sh' ls) as [lsh lst], (collapse sh' rs) as [rsh rst]. cbn [fst snd] in *.
        destruct (last_of lst) as [li| |]; cbn [bind]; try reflexivity. destruct (last_of rst) as [ri| |]; cbn [bind]; try reflexivity.
        destruct (vget lsh 0) as [ln| |]; cbn [bind]; try reflexivity. destruct (vget rsh 0) as [rn| |]; cbn [bind]; try reflexivity.
        apply Nat.eqb_neq in C1, C2. rewrite C1, C2. cbn [andb]. apply xx_cut.
    Qed.

    Lemma ps_scalar_cut h lp sh st c dst : length st = length sh -> ps_scalar L f h lp sh st c dst = cut (edge h lp sh st) (sk_scalar L f h lp sh st c dst).
    Proof.
      intros LS. unfold ps_scalar, sk_scalar, ps_n_0, simd_1_0, simd_n_0. destruct st as [|s st], sh as [|n sh]; try discriminate; [unfold edge; cbn [collapse]; now rewrite cut_true|].
      destruct (collapse_straight _ _ LS ltac:(discriminate)) as [[_ C]|[_ C]].
      - rewrite (edge_one _ _ _ _ _ _ C), C. cbn [last_of length csub Nat.ltb Nat.leb Nat.sub vget nth_error bind Nat.eqb src_ld].
        destruct (Nat.eqb_spec (last (s :: st) 0) 1) as [->|]; rewrite ps_main_cut by lia; cbn [olim slim]; now rewrite andb_true_r.
      - rewrite (edge_many _ _ _ _ C), cut_true. destruct (collapse (n :: sh) (s :: st)) as [x y]. cbn [fst] in C.
        destruct (last_of y); cbn [bind]; try reflexivity. apply Nat.eqb_neq in C. rewrite C. rewrite xn_cut. cbn [slim]. apply cut_true.
    Qed.
  End Kernels.

  Section Neg.
    Variable g : T -> T.
    Lemma ps_neg_tail_bin c0 count : forall h a dst, ps_neg_tail g h a dst count = ps_tail (fun x _ => g x) h a (OConst c0 (Val c0)) dst count.
    Proof.
      induction count as [|c IH]; intros h a dst; cbn [ps_neg_tail ps_tail oelt src_ld bind omove1]; [reflexivity|].
      apply bind_ext. intros x _. apply bind_ext. intros h' _. apply bind_ext. intros a' _. apply bind_ext. intros d' _. apply IH.
    Qed.
    Lemma ps_neg_bin c0 fuel : forall h a dst count, ps_neg L g fuel h a dst count = ps_main L (fun x _ => g x) fuel h a (OConst c0 (Val c0)) dst count.
    Proof.
      induction fuel as [|fuel IH]; intros h a dst count; cbn [ps_neg ps_main]; destruct (4 * L <=? count); try reflexivity; try apply ps_neg_tail_bin.
      cbn [ovec bind omove4].
      apply bind_ext. intros a0 E0. apply bind_ext. intros a1 E1. apply bind_ext. intros a2 E2. apply bind_ext. intros a3 E3.
      rewrite !map2_const by (eapply (ovec_length L HL3); eauto).
      do 4 (apply bind_ext; intros ? _). apply bind_ext. intros a' _. apply bind_ext. intros d' _. apply IH.
    Qed.
    Lemma ps_neg_cut h a dst n (c0 : T) : ps_neg L g (S n) h a dst n = cut (olim h a n) (simd_neg L g (S n) h a dst n).
    Proof. rewrite (ps_neg_bin c0), (simd_neg_bin L HL3 g c0), ps_main_cut by lia. cbn [olim]. now rewrite andb_true_r. Qed.
    Lemma ps_unary_cut h p sh st dst (c0 : T) : length st = length sh -> ps_unary L g h p sh st dst = cut (edge h p sh st) (sk_unary L g h p sh st dst).
    Proof.
      intros LS. unfold ps_unary, sk_unary. destruct st as [|s st], sh as [|n sh]; try discriminate; [unfold edge; cbn [collapse]; now rewrite cut_true|].
      destruct (collapse_straight _ _ LS ltac:(discriminate)) as [[_ C]|[_ C]].
      - rewrite (edge_one _ _ _ _ _ _ C), C. cbn [length vget nth_error bind Nat.eqb].
        destruct (Nat.eqb_spec (last (s :: st) 0) 0) as [->|]; [rewrite (ps_neg_cut _ _ _ _ c0); reflexivity|]. destruct (Nat.eqb_spec (last (s :: st) 0) 1) as [->|]; rewrite (ps_neg_cut _ _ _ _ c0); reflexivity.
      - rewrite (edge_many _ _ _ _ C), cut_true. destruct (collapse (n :: sh) (s :: st)) as [x y]. cbn [fst] in C. apply Nat.eqb_neq in C. rewrite C.
        destruct (fig_list x y); cbn [bind]; try reflexivity. apply p_ux_eq.
    Qed.
  End Neg.

  Section Red.
    Variable op : T -> T -> T.
    Variable hor : list T -> res T.
    Hypothesis Hhor : forall v, length v = L -> exists x, hor v = Ok x.
    Variable step : T -> T -> T.

    Lemma move_dead h p n : move h p n = Ok (padd p n) \/ (move h p n = Oob /\ ld h (padd p n) = Oob).
    Proof.
      destruct (move_or_dead h (Mem p) n) as [E|[E D]]; cbn [src_move src_add src_ld] in *; destruct (move h p n) as [q| |]; cbn [bind] in *; try discriminate; [left; congruence|right; auto].
    Qed.
    Lemma ps_red_tail_cut s c : forall h p x, ps_red_tail step h p c s x = cut (lim h p s c) (red_tail step h p c s x).
    Proof.
      induction c as [|c IH]; intros h p x; cbn [ps_red_tail red_tail]; [now rewrite lim0|].
      destruct (ld h p) as [v| |]; cbn [bind cut]; try reflexivity. destruct c as [|c].
      - rewrite move_lim. cbn [red_tail cut]. now destruct (lim h p s 1).
      - rewrite <- lim_step. destruct (move_dead h p s) as [->|[-> D]]; cbn [bind]; [apply IH|]. cbn [red_tail]. now rewrite D.
    Qed.
    Lemma lim_one h p s k : lim h p (k * s) 1 = lim h p s k.
    Proof. apply (slim_one h (Mem p)). Qed.
    Lemma lim_jump h p s k n : lim h (padd p (k * s)) s (S n) = lim h p s (k + S n).
    Proof. apply (slim_jump h (Mem p)). Qed.
    Lemma gather_len h p s v : vgather L h (Mem p) s = Ok v -> length v = L.
    Proof. intros E. rewrite vgather_eq in E by exact HL3. apply mapM_length in E. now rewrite seq_length in E. Qed.
    Lemma load_len h p v : vload L h (Mem p) = Ok v -> length v = L.
    Proof. intros E. apply mapM_length in E. now rewrite seq_length in E. Qed.
    Lemma m2 (v w : list T) : length v = L -> length w = L -> length (map2 op v w) = L.
    Proof. intros A B. rewrite map2_length. lia. Qed.

    Lemma uniform_dead fuel h p c s acc : length acc = L -> ld h p = Oob -> red_uniform_go L op hor step (S fuel) h p (S c) s acc = Oob.
    Proof.
      intros LA D. cbn [red_uniform_go]. destruct (L <=? S c); [now rewrite vgather_dead|]. destruct (Hhor acc LA) as (x & ->). cbn [bind red_tail]. now rewrite D.
    Qed.
    Lemma ps_uniform_cut s fuel : forall h p c acc, c < fuel -> length acc = L ->
      ps_uniform_go L op hor step fuel h p c s acc = cut (lim h p s c) (red_uniform_go L op hor step fuel h p c s acc).
    Proof.
      induction fuel as [|fuel IH]; intros h p c acc F LA; [lia|]. cbn [ps_uniform_go red_uniform_go]. destruct (Nat.leb_spec L c) as [B|B].
      - destruct (vgather L h (Mem p) s) as [v| |] eqn:EV; cbn [bind cut]; try reflexivity. pose proof (m2 acc v LA (gather_len _ _ _ _ EV)) as LM.
        destruct fuel as [|fuel]; [lia|]. rewrite (Nat.mul_comm s L). destruct (c - L) as [|c'] eqn:EC.
        + assert (c = L) as -> by lia. rewrite move_lim, lim_one. cbn [ps_uniform_go red_uniform_go]. destruct (Nat.leb_spec L 0); [lia|].
          destruct (Hhor _ LM) as (x & E). rewrite E. cbn [bind red_tail ps_red_tail cut]. destruct (lim h p s L); cbn [bind]; [rewrite ?E|]; reflexivity.
        + assert (c = L + S c') as -> by lia. rewrite <- lim_jump. destruct (move_dead h p (L * s)) as [->|[-> D]]; cbn [bind].
          * apply IH; [lia|exact LM].
          * now rewrite (uniform_dead _ _ _ _ _ _ LM D).
      - destruct (Hhor acc LA) as (x & ->). cbn [bind]. apply ps_red_tail_cut.
    Qed.

    Lemma contig_dead fuel h p c acc : length acc = L -> ld h p = Oob -> red_contig_go L op hor step (S fuel) h p (S c) acc = Oob.
    Proof.
      intros LA D. cbn [red_contig_go]. destruct (4 * L <=? S c); [cbn [Nat.mul]; rewrite padd0; now rewrite vload_dead|].
      destruct (Hhor acc LA) as (x & ->). cbn [bind red_tail]. now rewrite D.
    Qed.
    Lemma ps_contig_cut fuel : forall h p c acc, c < fuel -> length acc = L ->
      ps_contig_go L op hor step fuel h p c acc = cut (lim h p 1 c) (red_contig_go L op hor step fuel h p c acc).
    Proof.
      induction fuel as [|fuel IH]; intros h p c acc F LA; [lia|]. cbn [ps_contig_go red_contig_go]. destruct (Nat.leb_spec (4 * L) c) as [B|B].
      - destruct (vload L h (Mem (padd p (0 * L)))) as [v0| |] eqn:E0; cbn [bind cut]; try reflexivity. destruct (vload L h (Mem (padd p (1 * L)))) as [v1| |] eqn:E1; cbn [bind cut]; try reflexivity.
        destruct (vload L h (Mem (padd p (2 * L)))) as [v2| |] eqn:E2; cbn [bind cut]; try reflexivity. destruct (vload L h (Mem (padd p (3 * L)))) as [v3| |] eqn:E3; cbn [bind cut]; try reflexivity.
        apply load_len in E0, E1, E2, E3. assert (LM : length (map2 op acc (map2 op (map2 op v0 v1) (map2 op v2 v3))) = L) by (repeat apply m2; assumption).
        destruct fuel as [|fuel]; [lia|]. destruct (c - 4 * L) as [|c'] eqn:EC.
        + assert (c = 4 * L) as -> by lia. rewrite move_lim. rewrite <- (lim_one h p 1 (4 * L)), Nat.mul_1_r. cbn [ps_contig_go red_contig_go]. destruct (Nat.leb_spec (4 * L) 0); [lia|].
          destruct (Hhor _ LM) as (x & E). rewrite E. cbn [bind red_tail ps_red_tail cut]. destruct (lim h p (4 * L) 1); cbn [bind]; [rewrite ?E|]; reflexivity.
        + assert (c = 4 * L + S c') as -> by lia. rewrite <- lim_jump, Nat.mul_1_r. destruct (move_dead h p (4 * L)) as [->|[-> D]]; cbn [bind].
          * apply IH; [lia|exact LM].
          * now rewrite (contig_dead _ _ _ _ _ LM D).
      - destruct (Hhor acc LA) as (x & ->). cbn [bind]. apply ps_red_tail_cut.
    Qed.

    Lemma each_dead fuel h p c x : ld h p = Oob -> red_each_go L op hor step (S fuel) h p (S c) x = Oob.
    Proof.
      intros D. cbn [red_each_go]. destruct (4 * L <=? S c); [cbn [Nat.mul]; rewrite padd0; now rewrite vload_dead|]. cbn [red_tail]. now rewrite D.
    Qed.
    Lemma ps_each_cut fuel : forall h p c x, c < fuel -> ps_each_go L op hor step fuel h p c x = cut (lim h p 1 c) (red_each_go L op hor step fuel h p c x).
    Proof.
      induction fuel as [|fuel IH]; intros h p c x F; [lia|]. cbn [ps_each_go red_each_go]. destruct (Nat.leb_spec (4 * L) c) as [B|B]; [|apply ps_red_tail_cut].
      destruct (vload L h (Mem (padd p (0 * L)))) as [v0| |] eqn:E0; cbn [bind cut]; try reflexivity. destruct (vload L h (Mem (padd p (1 * L)))) as [v1| |] eqn:E1; cbn [bind cut]; try reflexivity.
      destruct (vload L h (Mem (padd p (2 * L)))) as [v2| |] eqn:E2; cbn [bind cut]; try reflexivity. destruct (vload L h (Mem (padd p (3 * L)))) as [v3| |] eqn:E3; cbn [bind cut]; try reflexivity.
      apply load_len in E0, E1, E2, E3. destruct (Hhor (map2 op (map2 op v0 v1) (map2 op v2 v3))) as (y & EH); [repeat apply m2; assumption|]. rewrite EH.
      destruct fuel as [|fuel]; [lia|]. destruct (c - 4 * L) as [|c'] eqn:EC.
      - assert (c = 4 * L) as -> by lia. rewrite move_lim. rewrite <- (lim_one h p 1 (4 * L)), Nat.mul_1_r. cbn [bind ps_each_go red_each_go]. destruct (Nat.leb_spec (4 * L) 0); [lia|].
        cbn [red_tail ps_red_tail cut]. destruct (lim h p (4 * L) 1); cbn [bind]; reflexivity.
      - assert (c = 4 * L + S c') as -> by lia. rewrite <- lim_jump, Nat.mul_1_r. destruct (move_dead h p (4 * L)) as [->|[-> D]]; cbn [bind].
        + apply IH. lia.
        + now rewrite (each_dead _ _ _ _ _ D).
    Qed.
  End Red.

  (** ** Sums of products: the vectorised loops have step 1, so the place after what has been
      read is inside or one past the end *)
  Lemma vload_end h p v : vload L h (Mem p) = Ok v -> exists m, size h (fst p) = Some m /\ snd p + L <= m.
  Proof.
    intros E. destruct (ld h (padd p (L - 1))) as [x| |] eqn:D.
    - destruct (ld_size _ _ _ D) as (m & S & LT). cbn [padd fst snd] in *. exists m. split; [exact S|lia].
    - exfalso. eapply ld_not_Panic; eauto.
    - exfalso. assert (vload L h (Mem (padd p 0)) = Oob); [|rewrite padd0 in *; congruence].
      apply (vload_bad L HL h p 0 (L - 1)); [lia|exact D].
  Qed.
  Lemma vload_move h h' p k v : (forall b, size h' b = size h b) -> vload L h (Mem (padd p k)) = Ok v -> move h' p (k + L) = Ok (padd p (k + L)).
  Proof.
    intros SZ E. destruct (vload_end _ _ _ E) as (m & S & LE). cbn [padd fst snd] in *. rewrite move_size, SZ, S.
    rewrite (proj2 (Nat.leb_le _ _)) by lia. now rewrite orb_true_r.
  Qed.
  Lemma vload_move0 h h' p v : (forall b, size h' b = size h b) -> vload L h (Mem p) = Ok v -> move h' p L = Ok (padd p L).
  Proof. intros SZ E. apply (vload_move h h' p 0 v SZ). now rewrite padd0. Qed.
  Lemma vload_move4 h h' p v : (forall b, size h' b = size h b) -> vload L h (Mem (padd p (3 * L))) = Ok v -> move h' p (4 * L) = Ok (padd p (4 * L)).
  Proof. intros SZ E. replace (4 * L) with (3 * L + L) by lia. eapply vload_move; eauto. Qed.
  Lemma ld_move h h' p x : (forall b, size h' b = size h b) -> ld h p = Ok x -> move h' p 1 = Ok (padd p 1).
  Proof. intros SZ E. rewrite move_size, SZ, <- move_size. eapply ld_next; eauto. Qed.

  Section Sop.
    Variable zero one : T.
    Variable add mul : T -> T -> T.
    Variable fma : T -> T -> T -> T.

    Ltac st1 := match goal with |- bind ?m _ = bind ?m _ => destruct m eqn:?; cbn [bind]; try reflexivity end.
    Ltac mv := repeat first [erewrite vload_move4 by (try eassumption; reflexivity) | erewrite vload_move0 by (try eassumption; reflexivity) | erewrite ld_move by (try eassumption; reflexivity)]; cbn [bind].

    Lemma psma_tail_eq c n : forall h s d, psma_tail fma h c s d n = sma_tail fma h c s d n.
    Proof.
      induction n as [|n IH]; intros h s d; cbn [psma_tail sma_tail]; [reflexivity|]. st1. st1. st1.
      match goal with E : st _ _ _ = Ok _ |- _ => pose proof (st_size _ _ _ _ E) end. mv. apply IH.
    Qed.
    Lemma psma_one_eq c fuel : forall h s d n, psma_one L fma fuel h c s d n = sma_one L fma fuel h c s d n.
    Proof.
      induction fuel as [|fuel IH]; intros h s d n; cbn [psma_one sma_one]; destruct (L <=? n); try reflexivity; try apply psma_tail_eq. st1. st1. st1.
      match goal with E : vstore _ _ _ = Ok _ |- _ => pose proof (vstore_size _ _ _ _ E) end. mv. apply IH.
    Qed.
    Lemma psma_four_eq c fuel : forall h s d n, psma_four L fma fuel h c s d n = sma_four L fma fuel h c s d n.
    Proof.
      induction fuel as [|fuel IH]; intros h s d n; cbn [psma_four sma_four]; destruct (4 * L <=? n); try reflexivity; try apply psma_one_eq. do 12 st1.
      match goal with E0 : vstore h _ _ = Ok ?h0, E1 : vstore ?h0 _ _ = Ok ?h1, E2 : vstore ?h1 _ _ = Ok ?h2, E3 : vstore ?h2 _ _ = Ok ?h3 |- _ =>
        assert (SZ : forall b, size h3 b = size h b) by (intros; now rewrite (vstore_size _ _ _ _ E3), (vstore_size _ _ _ _ E2), (vstore_size _ _ _ _ E1), (vstore_size _ _ _ _ E0)) end.
      mv. apply IH.
    Qed.
    Lemma pssa_one_eq fuel : forall h s n v, pssa_one L add fuel h s n v = ssa_one L add fuel h s n v.
    Proof. induction fuel as [|fuel IH]; intros h s n v; cbn [pssa_one ssa_one]; destruct (L <=? n); try reflexivity. st1. mv. apply IH. Qed.
    Lemma pssa_four_eq fuel : forall h s n v, pssa_four L add fuel h s n v = ssa_four L add fuel h s n v.
    Proof.
      induction fuel as [|fuel IH]; intros h s n v; cbn [pssa_four ssa_four]; destruct (4 * L <=? n); try reflexivity; try apply pssa_one_eq. do 4 st1. mv. apply IH.
    Qed.
    Lemma psdp_tail_eq n : forall h p q v, psdp_tail fma h p q n v = sdp_tail fma h p q n v.
    Proof. induction n as [|n IH]; intros h p q v; cbn [psdp_tail sdp_tail]; [reflexivity|]. st1. st1. mv. apply IH. Qed.
    Lemma psdp_one_eq fuel : forall h p q n v, psdp_one L add fma fuel h p q n v = sdp_one L add fma fuel h p q n v.
    Proof.
      induction fuel as [|fuel IH]; intros h p q n v; cbn [psdp_one sdp_one]; destruct (L <=? n); try reflexivity; try (st1; apply psdp_tail_eq). st1. st1. mv. apply IH.
    Qed.
    Lemma psdp_four_eq fuel : forall h p q n v, psdp_four L add mul fma fuel h p q n v = sdp_four L add mul fma fuel h p q n v.
    Proof.
      induction fuel as [|fuel IH]; intros h p q n v; cbn [psdp_four sdp_four]; destruct (4 * L <=? n); try reflexivity; try apply psdp_one_eq. do 8 st1. mv. apply IH.
    Qed.
    Lemma pssop_two_eq h p0 s0 p1 s1 dst ds n : pssop_two L zero one add mul fma h p0 s0 p1 s1 dst ds n = ssop_two L zero one add mul fma h p0 s0 p1 s1 dst ds n.
    Proof.
      unfold pssop_two, ssop_two. destruct (_ + _) as [|[|[|[|[|[|[|[|]]]]]]]]; try reflexivity.
      - unfold pssop_scaled, ssop_scaled. now rewrite pssa_four_eq.
      - unfold pssop_muladd, ssop_muladd. st1. st1. apply psma_four_eq.
      - unfold pssop_scaled, ssop_scaled. now rewrite pssa_four_eq.
      - unfold pssop_muladd, ssop_muladd. st1. st1. apply psma_four_eq.
      - unfold psdot, sdot. now rewrite psdp_four_eq.
      - unfold sop_111. st1. apply p_111_eq.
    Qed.
    Lemma pssop_fixed_eq h ps ss dst ds n : pssop_fixed L zero one add mul fma h ps ss dst ds n = ssop_fixed L zero one add mul fma h ps ss dst ds n.
    Proof. unfold pssop_fixed, ssop_fixed. destruct ps as [|p0 [|p1 [|]]], ss as [|s0 [|s1 [|]]]; try reflexivity. apply pssop_two_eq. Qed.
    Lemma ps_run_eq h bases strides sh dst : ps_run_einsum L zero one add mul fma h bases strides sh dst = srun_einsum L zero one add mul fma h bases strides sh dst.
    Proof.
      unfold ps_run_einsum, srun_einsum. destruct (_ || _); [|reflexivity]. destruct strides as [|d0 [|d1 [|d2 [|]]]]; try reflexivity; destruct sh as [|n0 [|n1 [|n2 [|]]]]; try reflexivity.
      - unfold ps_2labels, seinsum_2labels. do 2 (destruct (uassert _); cbn [bind]; try reflexivity). apply each_ext. intros. unfold call_sop. apply pssop_fixed_eq.
      - unfold ps_3labels, seinsum_3labels. do 3 (destruct (uassert _); cbn [bind]; try reflexivity). apply each_ext. intros i h1. apply each_ext. intros j h2. unfold call_sop. apply pssop_fixed_eq.
    Qed.

    (** the lengths of the allocations are kept *)
    Ltac kb := repeat (apply keeps_bind; intros ? ?).
    Ltac kt L1 := eapply keeps_trans; [|apply L1].
    Lemma kv_tail c : forall n h s d, keeps h (sma_tail fma h c s d n).
    Proof. induction n as [|n IH]; intros h s d; cbn [sma_tail]; [apply keeps_ok|]. kb. kt IH. eapply st_size. eassumption. Qed.
    Lemma kv_one c : forall fuel h s d n, keeps h (sma_one L fma fuel h c s d n).
    Proof.
      induction fuel as [|fuel IH]; intros h s d n; cbn [sma_one]; destruct (L <=? n); try apply kv_tail; [intros h2; discriminate|]. kb. kt IH. eapply vstore_size. eassumption.
    Qed.
    Lemma kv_four c : forall fuel h s d n, keeps h (sma_four L fma fuel h c s d n).
    Proof.
      induction fuel as [|fuel IH]; intros h s d n; cbn [sma_four]; destruct (4 * L <=? n); try apply kv_one; [intros h2; discriminate|]. cbv zeta. kb. kt IH.
      match goal with E0 : vstore h _ _ = Ok ?h0, E1 : vstore ?h0 _ _ = Ok ?h1, E2 : vstore ?h1 _ _ = Ok ?h2, E3 : vstore ?h2 _ _ = Ok ?h3 |- _ =>
        intros; now rewrite (vstore_size _ _ _ _ E3), (vstore_size _ _ _ _ E2), (vstore_size _ _ _ _ E1), (vstore_size _ _ _ _ E0) end.
    Qed.
    Lemma kv_two h p0 s0 p1 s1 dst ds n : keeps h (ssop_two L zero one add mul fma h p0 s0 p1 s1 dst ds n).
    Proof.
      unfold ssop_two. cbv zeta. match goal with |- keeps h (match ?cc with _ => _ end) => destruct cc as [|[|[|[|[|[|[|[|c]]]]]]]] end;
        try apply (keeps_slice zero one (fun x y => Ok (add x y)) (fun x y => Ok (mul x y)) h [p0; p1] [s0; s1] dst ds n).
      1,3: unfold ssop_scaled; kb; apply keeps_st.
      1,2: unfold ssop_muladd; kb; apply kv_four.
      - apply keeps_bind. intros _ _. unfold sdot. kb. apply keeps_st.
      - unfold sop_111. apply keeps_bind. intros _ _. apply keeps_111.
    Qed.
    Lemma kv_fixed h ps ss dst ds n : keeps h (ssop_fixed L zero one add mul fma h ps ss dst ds n).
    Proof.
      unfold ssop_fixed. destruct ps as [|p0 [|p1 [|]]], ss as [|s0 [|s1 [|]]]; try apply (keeps_slice zero one (fun x y => Ok (add x y)) (fun x y => Ok (mul x y)) h).
      apply kv_two.
    Qed.
    Lemma kv_run h bases strides sh dst : keeps h (srun_einsum L zero one add mul fma h bases strides sh dst).
    Proof.
      assert (U : keeps h (unspecialized zero one (fun x y => Ok (add x y)) (fun x y => Ok (mul x y)) h bases strides sh dst)).
      { unfold unspecialized. destruct strides as [|inner strides]; [intros h2; discriminate|]. destruct sh as [|n0 sh]; [intros h2; discriminate|].
        apply keeps_bind. intros g _. generalize (prod sh). intros k. revert g h. induction k as [|k IH]; intros g h; cbn [unspec_go]; [apply keeps_ok|].
        apply keeps_seq; [unfold call_sop; apply keeps_slice|]. intros h1. apply keeps_bind. intros g' _. apply IH. }
      unfold srun_einsum. destruct (_ || _); [|exact U]. destruct strides as [|d0 [|d1 [|d2 [|]]]]; try exact U; destruct sh as [|n0 [|n1 [|n2 [|]]]]; try exact U.
      - unfold seinsum_2labels. do 2 (apply keeps_bind; intros _ _). apply keeps_each. intros i h1. unfold call_sop. apply kv_fixed.
      - unfold seinsum_3labels. do 3 (apply keeps_bind; intros _ _). apply keeps_each. intros i h1. apply keeps_each. intros j h2. unfold call_sop. apply kv_fixed.
    Qed.
    Lemma kv_matrix h a b rst dst : keeps h (smatrix_matrix L zero one add mul fma h a b rst dst).
    Proof.
      unfold smatrix_matrix, seinsum_into_ptr. apply keeps_bind. intros [[strides ish] osh] _. apply keeps_bind. intros _ _. apply keeps_seq; [apply keeps_kfill|]. intros h1. apply kv_run.
    Qed.
    Lemma ps_matrix_eq h a b rst dst : ps_matrix_matrix L zero one add mul fma h a b rst dst = smatrix_matrix L zero one add mul fma h a b rst dst.
    Proof.
      unfold ps_matrix_matrix, smatrix_matrix, ps_into_ptr, seinsum_into_ptr. destruct (prepare_einsum _ _ _) as [[[strides ish] osh]| |]; cbn [bind]; try reflexivity.
      st1. st1. apply ps_run_eq.
    Qed.
    Lemma ps_bmm_early n : forall h a b sa sb rst rs dst, (n = 0 \/ exists m, size h (fst dst) = Some m /\ snd dst + n * rs <= m) ->
      early (lim h (a_ptr a) sa n && lim h (a_ptr b) sb n) (sbmm_go L zero one add mul fma h a b sa sb rst rs dst n) (ps_bmm_go L zero one add mul fma h a b sa sb rst rs dst n).
    Proof.
      induction n as [|n IH]; intros h a b sa sb rst rs dst D; cbn [sbmm_go ps_bmm_go]; [now rewrite !lim0|].
      destruct D as [D|(m & SD & D)]; [discriminate|]. rewrite ps_matrix_eq.
      destruct (smatrix_matrix L zero one add mul fma h a b rst dst) as [h1| |] eqn:E; cbn [bind early]; auto.
      assert (SZ : forall b, size h1 b = size h b) by (eapply kv_matrix; eauto).
      assert (M : move h1 dst rs = Ok (padd dst rs)). { rewrite move_size, SZ, SD. assert (snd dst + rs <=? m = true) as -> by (apply Nat.leb_le; lia). now rewrite orb_true_r. }
      rewrite M. cbn [bind]. unfold move_arr. rewrite !move_lim, !(lim_size h h1) by exact SZ.
      destruct (lim h (a_ptr a) sa 1) eqn:LA; cbn [bind].
      2:{ rewrite (lim_false_more _ _ _ 1 (S n) LA) by lia. cbn [andb]. apply early_oob. }
      destruct (lim h (a_ptr b) sb 1) eqn:LB; cbn [bind].
      2:{ rewrite (lim_false_more _ _ _ 1 (S n) LB) by lia. rewrite andb_false_r. apply early_oob. }
      specialize (IH h1 (shift_arr a sa) (shift_arr b sb) sa sb rst rs (padd dst rs)).
      change (a_ptr (shift_arr a sa)) with (padd (a_ptr a) sa) in IH. change (a_ptr (shift_arr b sb)) with (padd (a_ptr b) sb) in IH.
      rewrite !(lim_size h h1) in IH by exact SZ. rewrite (lim_next _ _ _ _ LA), (lim_next _ _ _ _ LB) in IH. apply IH.
      destruct n; [now left|right]. exists m. cbn [padd fst snd]. rewrite SZ. split; [exact SD|lia].
    Qed.
  End Sop.
End Loops.

(** ** C95 *)
(** The vectorised a op b, for f32 (L = 4) and f64 (L = 2): undefined exactly when one of the
    stretched operands overruns, as for the portable loop (C76_binary). *)
Theorem C95_binary : forall T L (f : T -> T -> T) d h a b n1 n2, L = 2 \/ L = 4 -> wf a -> wf b -> live h (a_blk a) n1 -> live h (a_blk b) n2 ->
  (forall sh a' b', join_shape (a_shape a) (a_shape b) sh -> nd_broadcast_to a sh = Ok a' -> nd_broadcast_to b sh = Ok b' ->
    exactly (overrun n1 a' \/ overrun n2 b') (snd_binary L f d h a b) (psd_binary L f d h a b)) /\
  ((forall sh, ~ join_shape (a_shape a) (a_shape b) sh) -> psd_binary L f d h a b = Panic).
Proof.
  intros T L f d h a b n1 n2 HL Wa Wb L1 L2. split.
  - intros sh a' b' J Ea Eb. unfold snd_binary, psd_binary. rewrite (proj2 (broadcast_shapes_ok_iff _ _ _) J). cbn [bind].
    destruct (broadcast_to_parts _ _ _ Wa (join_shape_broadcastable_l _ _ _ J) Ea) as (-> & PA & SA & LA).
    destruct (broadcast_to_parts _ _ _ Wb (join_shape_broadcastable_r _ _ _ J) Eb) as (-> & PB & SB & LB). cbn [bind alloc].
    rewrite (ps_binary_cut L HL) by assumption. rewrite <- PA, <- PB.
    destruct (two_edges (overrun n1 a') (overrun n2 b') (edge (h ++ [Some (repeat d (prod sh))]) (a_ptr a') sh (a_stride a')) (edge (h ++ [Some (repeat d (prod sh))]) (a_ptr b') sh (a_stride b'))) as [H1 H2].
    + apply off_edge_sh; [exact SA|unfold wf; congruence|]. apply size_app. rewrite (f_equal fst PA : a_blk a' = a_blk a). now apply live_size.
    + apply off_edge_sh; [exact SB|unfold wf; congruence|]. apply size_app. rewrite (f_equal fst PB : a_blk b' = a_blk b). now apply live_size.
    + now apply exactly_bind.
  - intros N. unfold psd_binary. destruct (broadcast_shapes (a_shape a) (a_shape b)) as [sh| |] eqn:E; cbn [bind]; try reflexivity.
    + apply broadcast_shapes_ok_iff in E. now elim (N sh).
    + exfalso. assert (broadcast_shapes (a_shape a) (a_shape b) = Panic) by (destruct (broadcast_shapes_char (a_shape a) (a_shape b)) as [(r & E2 & J)|[E2 _]]; [now elim (N r)|exact E2]). congruence.
Qed.
Print Assumptions C95_binary.

Theorem C95_scalar_op : forall T L (f : T -> T -> T) d h a c n, L = 2 \/ L = 4 -> wf a -> live h (a_blk a) n ->
  exactly (overrun n a) (snd_scalar_op L f d h a c) (psd_scalar_op L f d h a c).
Proof.
  intros T L f d h a c n HL W LV. unfold snd_scalar_op, psd_scalar_op. cbn [alloc]. rewrite (ps_scalar_cut L HL) by exact W.
  edestruct (off_edge (h ++ [Some (repeat d (prod (a_shape a)))]) a n W) as [H1 H2]; [apply size_app; now apply live_size|]. now apply exactly_bind.
Qed.
Print Assumptions C95_scalar_op.

Theorem C95_neg : forall T L (g : T -> T) d h a n, L = 2 \/ L = 4 -> wf a -> live h (a_blk a) n ->
  exactly (overrun n a) (snd_unary L g d h a) (psd_unary L g d h a).
Proof.
  intros T L g d h a n HL W LV. unfold snd_unary, psd_unary. cbn [alloc]. rewrite (ps_unary_cut L HL _ _ _ _ _ _ d) by exact W.
  edestruct (off_edge (h ++ [Some (repeat d (prod (a_shape a)))]) a n W) as [H1 H2]; [apply size_app; now apply live_size|]. now apply exactly_bind.
Qed.
Print Assumptions C95_neg.

(** a op= b: b' is b, stretched to the shape of a if it has another.  Nothing is assumed about
    shared memory. *)
Theorem C95_assign : forall T L (f : T -> T -> T) h a b b' n1 n2, L = 2 \/ L = 4 -> wf a -> wf b -> live h (a_blk a) n1 -> live h (a_blk b) n2 ->
  (a_shape b = a_shape a /\ b' = b \/ a_shape b <> a_shape a /\ nd_broadcast_to b (a_shape a) = Ok b') ->
  exactly (overrun n1 a \/ overrun n2 b') (snd_assign L f h a b) (psd_assign L f h a b).
Proof.
  intros T L f h a b b' n1 n2 HL Wa Wb L1 L2 B. unfold snd_assign, psd_assign. destruct (f_write (a_fl a)); cbn [guard bind exactly]; [|reflexivity].
  destruct (list_eqb (a_shape b) (a_shape a)) eqn:E.
  - apply list_eqb_spec in E. destruct B as [[_ ->]|[N _]]; [|contradiction]. rewrite (ps_binary_cut L HL); [|exact Wa|rewrite <- E; exact Wb].
    destruct (two_edges (overrun n1 a) (overrun n2 b) (edge h (a_ptr a) (a_shape a) (a_stride a)) (edge h (a_ptr b) (a_shape a) (a_stride b))) as [H1 H2].
    + apply off_edge; [exact Wa|now apply live_size].
    + apply off_edge_sh; [exact E|exact Wb|now apply live_size].
    + now apply exactly_cut.
  - destruct B as [[E2 _]|[_ EB]]; [apply list_eqb_spec in E2; congruence|]. rewrite EB. cbn [bind].
    assert (BC : broadcastable (a_shape b) (a_shape a)). { destruct (SpecRef.broadcastableb (a_shape b) (a_shape a)) eqn:X; [now apply RefFacts.broadcastableb_spec|]. rewrite nd_broadcast_to_panic in EB; [discriminate|]. rewrite <- RefFacts.broadcastableb_spec. congruence. }
    destruct (broadcast_to_parts _ _ _ Wb BC EB) as (_ & PB & SB & LB). rewrite (ps_binary_cut L HL); [|exact Wa|exact LB].
    destruct (two_edges (overrun n1 a) (overrun n2 b') (edge h (a_ptr a) (a_shape a) (a_stride a)) (edge h (a_ptr b') (a_shape a) (a_stride b'))) as [H1 H2].
    + apply off_edge; [exact Wa|now apply live_size].
    + apply off_edge_sh; [exact SB|unfold wf; congruence|]. rewrite (f_equal fst PB : a_blk b' = a_blk b). now apply live_size.
    + now apply exactly_cut.
Qed.
Print Assumptions C95_assign.

Theorem C95_assign_scalar : forall T L (f : T -> T -> T) h a c n, L = 2 \/ L = 4 -> wf a -> live h (a_blk a) n ->
  exactly (overrun n a) (snd_assign_scalar L f h a c) (psd_assign_scalar L f h a c).
Proof.
  intros T L f h a c n HL W LV. unfold snd_assign_scalar, psd_assign_scalar. destruct (f_write (a_fl a)); cbn [guard bind exactly]; [|reflexivity].
  rewrite (ps_scalar_cut L HL) by exact W. destruct (off_edge h a n W) as [H1 H2]; [now apply live_size|]. now apply exactly_cut.
Qed.
Print Assumptions C95_assign_scalar.

(** a reduction whose two strict loops fail only at their last move *)
Lemma reduce_exactly {T} (contig contig' : heap T -> ptr -> nat -> res T) (uniform uniform' : heap T -> ptr -> nat -> nat -> res T) g d h a n :
  wf a -> live h (a_blk a) n -> (forall p c, contig' h p c = cut (lim h p 1 c) (contig h p c)) -> (forall p c s, uniform' h p c s = cut (lim h p s c) (uniform h p c s)) ->
  exactly (overrun_even n a) (v <- sk_reduce contig uniform g d h (a_ptr a) (a_shape a) (a_stride a) ;; nd_scalar h v)
    (v <- sk_reduce contig' uniform' g d h (a_ptr a) (a_shape a) (a_stride a) ;; nd_scalar h v).
Proof.
  intros W LV KC KU. unfold sk_reduce, overrun_even.
  destruct (uniform_dec (a_shape a) (a_stride a) W) as [[E U]|[E U]]; rewrite U.
  - rewrite KC, KU. assert (K : (if last (a_stride a) 0 =? 1 then cut (lim h (a_ptr a) 1 (prod (a_shape a))) (contig h (a_ptr a) (prod (a_shape a)))
        else cut (lim h (a_ptr a) (last (a_stride a) 0) (prod (a_shape a))) (uniform h (a_ptr a) (prod (a_shape a)) (last (a_stride a) 0))) =
      cut (lim h (a_ptr a) (last (a_stride a) 0) (prod (a_shape a))) (if last (a_stride a) 0 =? 1 then contig h (a_ptr a) (prod (a_shape a)) else uniform h (a_ptr a) (prod (a_shape a)) (last (a_stride a) 0))).
    { destruct (Nat.eqb_spec (last (a_stride a) 0) 1) as [->|]; reflexivity. }
    rewrite K. clear K. pose proof (lim_past h (a_ptr a) n (last (a_stride a) 0) (prod (a_shape a)) (live_size _ _ _ LV)) as B.
    assert (X : lim h (a_ptr a) (last (a_stride a) 0) (prod (a_shape a)) = false <-> evenly (a_shape a) (a_stride a) /\ beyond n (a_off a) (a_shape a) (a_stride a)).
    { rewrite B. unfold past, beyond. cbn [a_ptr snd]. tauto. }
    apply exactly_bind_ok; [intros v; unfold nd_scalar, nd_full; cbn; eauto| |apply X].
    rewrite <- X. destruct (lim _ _ _ _); split; congruence.
  - destruct (fig_list _ _) as [is| |]; cbn [bind exactly]; try reflexivity. destruct (fold_idx g h (a_ptr a) is d) as [v| |]; cbn [bind exactly]; try reflexivity.
    destruct (nd_scalar h v) as [r| |]; cbn [exactly]; try reflexivity. right. tauto.
Qed.

(** The vectorised sum, product, min and max of a whole array: undefined exactly when an evenly
    strided operand overruns, as for the portable loop (C76_reduce). *)
Theorem C95_sum : forall T L (add : T -> T -> T) zero h a n, L = 2 \/ L = 4 -> wf a -> live h (a_blk a) n ->
  exactly (overrun_even n a) (snd_sum L add zero h a) (psd_sum L add zero h a).
Proof.
  intros T L add zero h a n HL W LV. apply (reduce_exactly _ _ _ _ _ _ _ _ n W LV); intros.
  - apply (ps_contig_cut L HL); [now apply pairs_total|lia|apply repeat_length].
  - apply (ps_uniform_cut L HL); [now apply pairs_total|lia|apply repeat_length].
Qed.
Print Assumptions C95_sum.
Theorem C95_product : forall T L (mul : T -> T -> T) one h a n, L = 2 \/ L = 4 -> wf a -> live h (a_blk a) n ->
  exactly (overrun_even n a) (snd_product L mul one h a) (psd_product L mul one h a).
Proof.
  intros T L mul one h a n HL W LV. apply (reduce_exactly _ _ _ _ _ _ _ _ n W LV); intros.
  - apply (ps_each_cut L HL); [now apply halves_total|lia].
  - apply (ps_uniform_cut L HL); [now apply halves_total|lia|apply repeat_length].
Qed.
Print Assumptions C95_product.
Theorem C95_min : forall T L ltb (vmin : T -> T -> T) top h a n, L = 2 \/ L = 4 -> wf a -> live h (a_blk a) n ->
  exactly (overrun_even n a) (snd_min L ltb vmin top h a) (psd_min L ltb vmin top h a).
Proof.
  intros T L ltb vmin top h a n HL W LV. apply (reduce_exactly _ _ _ _ _ _ _ _ n W LV); intros.
  - apply (ps_contig_cut L HL); [now apply pairs_total|lia|apply repeat_length].
  - apply (ps_uniform_cut L HL); [now apply pairs_total|lia|apply repeat_length].
Qed.
Print Assumptions C95_min.
Theorem C95_max : forall T L ltb (vmax : T -> T -> T) bot h a n, L = 2 \/ L = 4 -> wf a -> live h (a_blk a) n ->
  exactly (overrun_even n a) (snd_max L ltb vmax bot h a) (psd_max L ltb vmax bot h a).
Proof.
  intros T L ltb vmax bot h a n HL W LV. apply (reduce_exactly _ _ _ _ _ _ _ _ n W LV); intros.
  - apply (ps_contig_cut L HL); [now apply pairs_total|lia|apply repeat_length].
  - apply (ps_uniform_cut L HL); [now apply pairs_total|lia|apply repeat_length].
Qed.
Print Assumptions C95_max.

(** the vectorised einsum, hence the dot product of two rows in it: never *)
Theorem C95_einsum : forall T L (zero one : T) add mul fma h ops subs out, L = 2 \/ L = 4 ->
  psd_einsum L zero one add mul fma h ops subs out = snd_einsum L zero one add mul fma h ops subs out.
Proof.
  intros T L zero one add mul fma h ops subs out HL. unfold psd_einsum, snd_einsum. destruct (prepare_einsum ops subs out) as [[[strides ish] osh]| |]; cbn [bind]; try reflexivity.
  cbn [alloc]. now rewrite (ps_run_eq L HL).
Qed.
Print Assumptions C95_einsum.
(** the product of two matrices: never *)
Theorem C95_matmul : forall T L (zero one : T) add mul fma h a b n k k' m, L = 2 \/ L = 4 -> a_shape a = [n; k] -> a_shape b = [k'; m] ->
  psd_matmul L zero one add mul fma h a b = snd_matmul L zero one add mul fma h a b.
Proof.
  intros T L zero one add mul fma h a b n k k' m HL Sa Sb. unfold psd_matmul, snd_matmul. rewrite Sa, Sb. destruct (guard _); cbn [bind]; try reflexivity.
  destruct (nd_full h zero [n; m]) as [[h1 r]| |]; cbn [bind]; try reflexivity. now rewrite (ps_matrix_eq L HL).
Qed.
Print Assumptions C95_matmul.
(** the batched product: after the last matrix of either operand *)
Theorem C95_bmm : forall T L (zero one : T) add mul fma h a b n1 n2, L = 2 \/ L = 4 -> live h (a_blk a) n1 -> live h (a_blk b) n2 ->
  exactly_early (past n1 (a_off a) (nth 0 (a_stride a) 0) (nth 0 (a_shape a) 0) \/ past n2 (a_off b) (nth 0 (a_stride b) 0) (nth 0 (a_shape b) 0))
    (snd_bmm L zero one add mul fma h a b) (psd_bmm L zero one add mul fma h a b).
Proof.
  intros T L zero one add mul fma h a b n1 n2 HL L1 L2. unfold snd_bmm, psd_bmm.
  destruct (a_shape a) as [|n [|i [|j [|]]]] eqn:Sa; try (now left). destruct (a_shape b) as [|n' [|j' [|k [|]]]] eqn:Sb; try (now left).
  destruct (Nat.eqb_spec n n') as [<-|]; cbn [guard bind]; [|now left]. unfold nd_full, from_buffer. destruct (guard _) as [[]| |] eqn:EG; cbn [bind]; [|now left|reflexivity]. cbn [alloc].
  set (h1 := h ++ [Some (repeat zero (prod [n; i; k]))]). set (r := fresh_arr _ _ _).
  assert (SL : forall x la, nd_slice_along x 0 (IUsize 0) = Ok la -> a_ptr la = a_ptr x).
  { intros x la E. unfold nd_slice_along in E. apply bind_Ok_inv in E as (ax & _ & E). apply bind_Ok_inv in E as (q & _ & E). apply bind_Ok_inv in E as (w & _ & E).
    apply bind_Ok_inv in E as ([sh st] & _ & E). apply bind_Ok_inv in E as (len & _ & E). injection E as <-. unfold a_ptr. cbn [a_blk a_off index_first]. now rewrite Nat.mul_0_r, Nat.add_0_r. }
  destruct (nd_slice_along a 0 (IUsize 0)) as [la| |] eqn:Ea; cbn [bind]; [|now left|reflexivity].
  destruct (nd_slice_along b 0 (IUsize 0)) as [lb| |] eqn:Eb; cbn [bind]; [|now left|reflexivity].
  destruct (a_stride a) as [|sa ta]; [now left|]. destruct (a_stride b) as [|sb tb]; [now left|]. cbn [vget nth_error bind nth].
  assert (RS : a_stride r = [i * k; k; 1]) by (unfold r, fresh_arr, stride_from_shape; cbn [a_stride stride_from_shape_go fst]; repeat (f_equal; try lia)).
  rewrite RS. cbn [nth_error bind tl].
  assert (S1 : size h1 (a_blk a) = Some n1) by (apply size_app; now apply live_size). assert (S2 : size h1 (a_blk b) = Some n2) by (apply size_app; now apply live_size).
  eapply (early_exactly _ (lim h1 (a_ptr la) sa n && lim h1 (a_ptr lb) sb n)); [|apply (early_bind _ _ _ (fun h2 => (h2, _))); apply (ps_bmm_early L HL)].
  - rewrite (SL _ _ Ea), (SL _ _ Eb), andb_false_iff, (lim_past _ _ n1), (lim_past _ _ n2) by assumption. reflexivity.
  - right. exists (prod [n; i; k]). unfold r. cbn [a_ptr fresh_arr a_blk a_off fst snd]. split.
    + unfold size, h1. rewrite nth_error_app2, Nat.sub_diag by lia. cbn [nth_error]. now rewrite repeat_length.
    + cbn [prod fold_right]. nia.
Qed.
Print Assumptions C95_bmm.

(** Every column but the first of every row-major matrix: its vectorised sum and negation are
    accepted, read only elements, and are undefined. *)
Theorem C95_columns : forall T L (add : T -> T -> T) zero (neg : T -> T) (h : heap T) b r c j, L = 2 \/ L = 4 -> live h b (r * c) -> 0 < r -> 0 < j < c ->
  exists v, nd_slice_along (fresh_arr b (r * c) [r; c]) 1 (IUsize j) = Ok v /\ chain b (r * c) false v /\
    (exists h' x, snd_sum L add zero h v = Ok (h', x)) /\ psd_sum L add zero h v = Oob /\
    (exists h' x, snd_unary L neg zero h v = Ok (h', x)) /\ psd_unary L neg zero h v = Oob.
Proof.
  intros T L add zero neg h b r c j HL LV R J.
  destruct (C76_columns T add neg zero h b r c j LV R J) as (v & E & CH & _). exists v. split; [exact E|]. split; [exact CH|].
  assert (F : a_shape v = [r] /\ a_stride v = [c] /\ a_off v = j /\ a_blk v = b).
  { revert E. unfold nd_slice_along, strided_len. cbn [fresh_arr a_shape length]. change (as_absolute 1 2) with (Ok 1).
    cbn [bind vget nth_error a_stride stride_from_shape stride_from_shape_go fst index_collapses]. unfold vremove.
    cbn [length Nat.ltb Nat.leb firstn skipn app bind strided_len_sum]. destruct r as [|r]; [lia|]. unfold csub. cbn [Nat.ltb Nat.leb bind Nat.sub].
    intros [= <-]. cbn [a_shape a_stride a_off a_blk index_first]. repeat split; try lia. f_equal. lia. }
  destruct F as (Sv & Tv & Ov & Bv).
  assert (B : beyond (r * c) (a_off v) (a_shape v) (a_stride v)) by (unfold beyond; rewrite Sv, Tv, Ov; cbn [prod fold_right last]; rewrite Nat.mul_1_r; lia).
  assert (W : wf v) by (unfold wf; now rewrite Sv, Tv).
  assert (EV : evenly (a_shape v) (a_stride v)) by (rewrite Sv; intros k K; cbn [length] in K; lia).
  assert (LB : live h (a_blk v) (r * c)) by now rewrite Bv.
  assert (X1 : exists h' x, snd_sum L add zero h v = Ok (h', x)).
  { destruct (C50_run_sum T L add zero h b (r * c) false v HL LV CH EV) as [H _]. destruct H as (vs & t & k & h' & x & _ & ES & _); [|eauto].
    rewrite Sv, Tv, Ov. cbn [prod fold_right last]. rewrite Nat.mul_1_r. intros o I. unfold run in I. apply in_map_iff in I as (i & <- & I). apply in_seq in I. nia. }
  assert (V : valid h v) by (apply (chain_valid h b (r * c) false); assumption).
  assert (X2 : exists h' x, snd_unary L neg zero h v = Ok (h', x)).
  { destruct (C49_negation T L neg zero h v) as (h' & x & EU & _); [exact HL|exact V|rewrite Sv; cbn; unfold MAX_DIMS; lia|rewrite Sv; cbn; lia|eauto]. }
  split; [exact X1|]. split; [|split; [exact X2|]].
  - destruct X1 as (h' & x & ES). pose proof (C95_sum T L add zero h v (r * c) HL W LB) as X. rewrite ES in X. destruct X as [[_ X]|[X _]]; [exact X|]. elim X. split; assumption.
  - destruct X2 as (h' & x & ES). pose proof (C95_neg T L neg zero h v (r * c) HL W LB) as X. rewrite ES in X. destruct X as [[_ X]|[X _]]; [exact X|]. elim X. split; [|exact B].
    rewrite Sv. intros k K. cbn [length] in K. lia.
Qed.
Print Assumptions C95_columns.

(** ** On concrete arrays *)
(** a 20 by 2 matrix: a column has two blocks of two lanes (f64) and four elements more *)
Definition vm : arr := fresh_arr 0 40 [20; 2].
Definition vh : heap nat := [Some (seq 0 40); Some (repeat 1 20)].
Definition vcol (j : nat) : arr := match nd_slice_along vm 1 (IUsize j) with Ok v => v | _ => vm end.
Definition ones : arr := fresh_arr 1 20 [20].
Example C95_ex_sum : (exists h r, snd_sum 2 Nat.add 0 vh (vcol 1) = Ok (h, r) /\ get h r [] = Ok 400) /\ psd_sum 2 Nat.add 0 vh (vcol 1) = Oob /\
  psd_sum 2 Nat.add 0 vh (vcol 0) = snd_sum 2 Nat.add 0 vh (vcol 0) /\ (exists h r, psd_sum 4 Nat.add 0 vh (vcol 0) = Ok (h, r) /\ get h r [] = Ok 380).
Proof. split; [do 2 eexists; split; reflexivity|]. split; [reflexivity|]. split; [reflexivity|]. do 2 eexists; split; reflexivity. Qed.
Example C95_ex_binary : (exists r, snd_binary 4 Nat.add 0 vh ones (vcol 1) = Ok r) /\ psd_binary 4 Nat.add 0 vh ones (vcol 1) = Oob /\
  (exists r, psd_binary 4 Nat.add 0 vh ones (vcol 0) = Ok r /\ snd_binary 4 Nat.add 0 vh ones (vcol 0) = Ok r).
Proof. split; [eexists; reflexivity|]. split; [reflexivity|]. eexists. split; reflexivity. Qed.
(** a whole matrix, 40 elements in five blocks of two lanes: the last move ends one past the end *)
Example C95_ex_whole : (exists h, psd_assign 2 Nat.add vh vm vm = Ok h /\ snd_assign 2 Nat.add vh vm vm = Ok h) /\
  psd_product 2 Nat.mul 0 vh vm = snd_product 2 Nat.mul 0 vh vm /\ (exists r, psd_product 2 Nat.mul 0 vh vm = Ok r).
Proof. split; [eexists; split; reflexivity|]. split; [reflexivity|]. eexists; reflexivity. Qed.
(** ij,kj->ik: the rows of a 2 by 20 matrix against a row of ones, by the dot product kernel *)
Example C95_ex_einsum : exists h r, psd_einsum 2 0 1 Nat.add Nat.mul (fun x y z => x * y + z) vh [fresh_arr 0 40 [2; 20]; fresh_arr 1 20 [1; 20]] [[105; 106]; [107; 106]]%Z [105; 107]%Z = Ok (h, r) /\
  get h r [0; 0] = Ok 190 /\ get h r [1; 0] = Ok 590.
Proof. do 2 eexists. split; [vm_compute; reflexivity|]. split; reflexivity. Qed.
(** batches of 2 by 2 matrices, and one starting at row 1 of each matrix *)
Example C95_ex_bmm : let fm := fun x y z => x * y + z in
  (exists r, snd_bmm 2 0 1 Nat.add Nat.mul fm bh (btail 0) (fresh_arr 1 8 [2; 2; 2]) = Ok r) /\ psd_bmm 2 0 1 Nat.add Nat.mul fm bh (btail 0) (fresh_arr 1 8 [2; 2; 2]) = Oob /\
  (exists r, psd_bmm 2 0 1 Nat.add Nat.mul fm bh (fresh_arr 0 8 [2; 2; 2]) (fresh_arr 1 8 [2; 2; 2]) = Ok r) /\
  (exists h r, psd_matmul 2 0 1 Nat.add Nat.mul fm vh (fresh_arr 0 40 [20; 2]) (fresh_arr 1 20 [2; 10]) = Ok (h, r) /\ get h r [3; 9] = Ok 13).
Proof. cbv zeta. repeat split; try reflexivity; try (eexists; reflexivity). do 2 eexists. split; [vm_compute; reflexivity|reflexivity]. Qed.
