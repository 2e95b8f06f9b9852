(** BuildsFacts.v: the functions chosen by the features (Builds.v) against the portable ones *)
From Coq Require Import List Arith Lia Bool ZArith Permutation.
From Verif Require Import Base Spec Layout SpecFacts LayoutFacts Views ViewsFacts ViewsFacts2 ViewsFacts3
  Kernels Access HeapFacts KernelFacts OpFacts AccessFacts Chain ChainFacts ViewsFacts4 Reduce ReduceFacts
  Einsum EinsumFacts2 EinsumFacts5 EinsumFacts7 Simd SimdFacts SimdOps SimdRed SimdSop Vendor VendorFacts Vdsp VdspFacts
  Nested PropsNew PropsViews PropsOps PropsReduce PropsEinsum PropsSimd PropsVendor PropsVdsp EinsumFacts8 GradFacts PropsAssign Prog EinsumParse EinsumFacts PropsProg SpecRef RefFacts RefFacts2 Builds.
Import ListNotations.
Open Scope res_scope.

Section Facts.
  Context {T : Type}.
  Variable zero one : T.
  Variable op : arith -> T -> T -> T.
  Local Notation add := (op AAdd).
  Local Notation mul := (op AMul).
  Local Notation addM := (okadd add).
  Local Notation mulM := (okadd mul).
  Local Notation fmaM := (okfma add mul).
  Variable B : @build T.

  Definition build_ok : Prop :=
    (forall L, neon B = Some L -> L = 2 \/ L = 4) /\
    (forall lib, vdsp B = Some lib -> sums_once add lib /\ (forall x y, add x y = add y x) /\ forall x y, mul x y = mul y x).
  Hypothesis BOK : build_ok.
  Hypothesis CSR : is_csr zero one add mul.
  (** numbers that the BLAS interface can take *)
  Definition bsmall (n : nat) : Prop := blas B <> None -> small n.

  Lemma dot_go_reads (h : heap T) p s q t n u v :
    (forall i, i < n -> ld h (padd p (i * s)) = Ok (u i)) -> (forall i, i < n -> ld h (padd q (i * t)) = Ok (v i)) ->
    forall c k acc, k + c = n -> dot_go addM mulM h (padd p (k * s)) s (padd q (k * t)) t c acc = Ok (fold_left add (map (fun i => mul (u i) (v i)) (seq k c)) acc).
  Proof.
    intros U V. induction c as [|c IH]; intros k acc E; cbn [dot_go seq map fold_left]; [reflexivity|].
    rewrite U, V by lia. cbn [bind okadd]. rewrite !padd_add. replace (k * s + s) with (S k * s) by lia. replace (k * t + t) with (S k * t) by lia. apply IH. lia.
  Qed.
  Lemma dot_go_fails (h : heap T) p s q t n j : ld h (padd p (j * s)) = Oob \/ ld h (padd q (j * t)) = Oob ->
    forall c k acc, k + c = n -> k <= j < n -> dot_go addM mulM h (padd p (k * s)) s (padd q (k * t)) t c acc = Oob.
  Proof.
    intros E. induction c as [|c IH]; intros k acc Q I; [lia|]. cbn [dot_go].
    pose proof (ld_not_Panic h (padd p (k * s))) as N1. pose proof (ld_not_Panic h (padd q (k * t))) as N2.
    destruct (ld h (padd p (k * s))) eqn:E1; cbn [bind]; [|congruence|reflexivity].
    destruct (ld h (padd q (k * t))) eqn:E2; cbn [bind]; [|congruence|reflexivity]. cbn [okadd bind]. rewrite !padd_add.
    destruct (Nat.eq_dec k j) as [->|]; [destruct E; congruence|]. replace (k * s + s) with (S k * s) by lia. replace (k * t + t) with (S k * t) by lia. apply IH; lia.
  Qed.
  Lemma read_ok (h : heap T) p s n u : (forall i, i < n -> ld h (padd p (i * s)) = Ok (u i)) -> vdsp_read h (Mem p) s n = Ok (map u (seq 0 n)).
  Proof. intros U. unfold vdsp_read. apply mapM_pure_ext. intros i I. apply in_seq in I. cbn [src_add src_ld]. apply U. lia. Qed.
  Lemma mapM_oob {A C} (f : A -> res C) l x : In x l -> f x = Oob -> (forall y, In y l -> f y <> Panic) -> mapM f l = Oob.
  Proof.
    induction l as [|y l IH]; intros I E N; [destruct I|]. cbn [mapM]. destruct I as [->|I]; [now rewrite E|].
    pose proof (N y (or_introl eq_refl)). destruct (f y); cbn [bind]; [|congruence|reflexivity]. rewrite IH; auto. intros z J. apply N. now right.
  Qed.
  Lemma read_fails (h : heap T) p s n j : j < n -> ld h (padd p (j * s)) = Oob -> vdsp_read h (Mem p) s n = Oob.
  Proof.
    intros J E. unfold vdsp_read. apply (mapM_oob _ _ j); [apply in_seq; lia|exact E|]. intros y _. cbn [src_add src_ld]. apply ld_not_Panic.
  Qed.
  Lemma read_not_Panic (h : heap T) p s n : vdsp_read h (Mem p) s n <> Panic.
  Proof.
    destruct (reads_dec h p s n zero) as [(u & U)|(j & J & E)]; [rewrite (read_ok _ _ _ _ u U)|rewrite (read_fails _ _ _ _ j J E)]; discriminate.
  Qed.
  Lemma map2_map (f g : nat -> T) l : map2 mul (map f l) (map g l) = map (fun i => mul (f i) (g i)) l.
  Proof. induction l as [|x l IH]; cbn [map map2]; [reflexivity|]. now rewrite IH. Qed.

  Lemma v_dot_eq lib (h : heap T) p s q t dst n : sums_once add lib -> 0 < n ->
    v_dot op lib h p s q t dst n = strided_dot zero addM mulM h p s q t dst n.
  Proof.
    intros SO N. unfold v_dot, strided_dot. destruct CSR as [CA CC CU _ _ _ _ _].
    destruct (reads_dec h p s n zero) as [(u & U)|(j & J & E)].
    - rewrite (read_ok _ _ _ _ _ U). cbn [bind]. destruct (reads_dec h q t n zero) as [(v & V)|(j & J & E)].
      + rewrite (read_ok _ _ _ _ _ V). cbn [bind]. pose proof (dot_go_reads h p s q t n u v U V n 0 zero eq_refl) as D. cbn [Nat.mul] in D. rewrite !padd_0 in D. rewrite D. cbn [bind].
        f_equal. rewrite map2_map. destruct (SO (map (fun i => mul (u i) (v i)) (seq 0 n))) as (tr & P & ->); [destruct n; [lia|discriminate]|].
        apply (tree_units add zero) with (k := 0); auto.
      + rewrite (read_fails _ _ _ _ j J E). pose proof (dot_go_fails h p s q t n j (or_intror E) n 0 zero eq_refl ltac:(lia)) as D. cbn [Nat.mul] in D. rewrite !padd_0 in D. now rewrite D.
    - rewrite (read_fails _ _ _ _ j J E). pose proof (dot_go_fails h p s q t n j (or_introl E) n 0 zero eq_refl ltac:(lia)) as D. cbn [Nat.mul] in D. rewrite !padd_0 in D. now rewrite D.
  Qed.
  Lemma b_strided_dot_eq (h : heap T) p s q t dst n : small n -> small s -> small t ->
    b_strided_dot zero addM mulM h p s q t dst n = strided_dot zero addM mulM h p s q t dst n.
  Proof.
    intros N S1 S2. unfold b_strided_dot, cblas_dot, strided_dot. rewrite !as_i32_small by assumption. rewrite !Nat2Z.id.
    destruct (Z.leb_spec (Z.of_nat n) 0) as [Z0|Z0]; [assert (n = 0) as -> by lia; reflexivity|].
    rewrite (proj2 (Z.ltb_ge _ _)) by lia. rewrite (proj2 (Z.ltb_ge _ _)) by lia. reflexivity.
  Qed.
  Lemma small_1 : small 1. Proof. unfold small. lia. Qed.

  Lemma bk_dot_eq (h : heap T) p q dst n : bsmall n -> 0 < n -> bk_dot zero op B h p q dst n = strided_dot zero addM mulM h p 1 q 1 dst n.
  Proof.
    intros SN N. unfold bk_dot. destruct BOK as [BN BV].
    destruct (vdsp B) as [lib|] eqn:EV; [apply v_dot_eq; [now apply BV|exact N]|].
    destruct (neon B) as [L|] eqn:EN; [apply (sdot_eq L (BN _ eq_refl) zero one add mul CSR)|].
    destruct (blas B) as [bad|] eqn:EB; [|reflexivity]. apply b_strided_dot_eq; [apply SN; congruence|apply small_1|apply small_1].
  Qed.
  Lemma bk_sdot_eq (h : heap T) p s q t dst n : bsmall n -> bsmall s -> bsmall t -> 0 < n ->
    bk_sdot zero op B h p s q t dst n = strided_dot zero addM mulM h p s q t dst n.
  Proof.
    intros SN S1 S2 N. unfold bk_sdot. destruct BOK as [BN BV].
    destruct (vdsp B) as [lib|] eqn:EV; [apply v_dot_eq; [now apply BV|exact N]|].
    assert (K : blas B <> None -> b_strided_dot zero addM mulM h p s q t dst n = strided_dot zero addM mulM h p s q t dst n).
    { intros Q. apply b_strided_dot_eq; auto. }
    destruct (neon B), (blas B); try reflexivity; [destruct (double B); [|reflexivity]|]; apply K; discriminate.
  Qed.
  Lemma bk_muladd_eq (h : heap T) p q dst n : fst p <> fst dst -> fst q <> fst dst ->
    bk_muladd op B h p q dst n = sop_muladd fmaM h p q dst n.
  Proof.
    intros N1 N2. unfold bk_muladd. destruct (neon B) as [L|] eqn:EN; [|reflexivity]. now apply (ssop_muladd_eq L (proj1 BOK _ EN)).
  Qed.
  Lemma bk_scaled_eq (h : heap T) p q dst n : bk_scaled zero op B h p q dst n = sop_scaled zero addM fmaM h p q dst n.
  Proof.
    unfold bk_scaled. destruct (neon B) as [L|] eqn:EN; [|reflexivity]. now apply (ssop_scaled_eq L (proj1 BOK _ EN) zero one add mul CSR).
  Qed.
  Lemma bk_sop_two_eq h p0 s0 p1 s1 dst ds n : fst p0 <> fst dst -> fst p1 <> fst dst -> bsmall n ->
    bk_sop_two zero one op B h p0 s0 p1 s1 dst ds n = sop_two zero one addM mulM fmaM h p0 s0 p1 s1 dst ds n.
  Proof.
    intros N0 N1 SN. unfold bk_sop_two, sop_two.
    destruct (Nat.eqb_spec s0 0), (Nat.eqb_spec s0 1), (Nat.eqb_spec s1 0), (Nat.eqb_spec s1 1), (Nat.eqb_spec ds 0), (Nat.eqb_spec ds 1);
      cbn [Nat.add]; try lia; try reflexivity;
      first [apply bk_scaled_eq | apply bk_muladd_eq; assumption | idtac].
    all: destruct (Nat.ltb_spec 0 n) as [P|P]; cbn [uassert bind]; [now apply bk_dot_eq|reflexivity].
  Qed.
  Lemma bk_sop_fixed_eq h ps ss dst ds n : Forall (fun p => fst p <> fst dst) ps -> bsmall n ->
    bk_sop_fixed zero one op B h ps ss dst ds n = sop_fixed zero one addM mulM fmaM h ps ss dst ds n.
  Proof.
    intros F SN. unfold bk_sop_fixed, sop_fixed. destruct ps as [|p0 [|p1 [|p2 ps]]]; try reflexivity.
    destruct ss as [|s0 [|s1 [|s2 ss]]]; try reflexivity. inversion F as [|? ? F0 F']; subst. inversion F'; subst. now apply bk_sop_two_eq.
  Qed.
  Lemma bk_call_eq h bases dst offs inner n : Forall (fun p => fst p <> fst dst) bases -> bsmall n ->
    call_sop (bk_sop_fixed zero one op B) h bases dst offs inner n = call_sop (sop_fixed zero one addM mulM fmaM) h bases dst offs inner n.
  Proof. intros F SN. unfold call_sop. apply bk_sop_fixed_eq; [|exact SN]. cbn [padd fst]. now apply padds_blocks. Qed.
  Lemma bk_run_einsum_eq h bases strides sh dst : Forall (fun p => fst p <> fst dst) bases -> Forall bsmall sh ->
    bk_run_einsum zero one op B h bases strides sh dst = run_einsum zero one addM mulM fmaM h bases strides sh dst.
  Proof.
    intros F SS. unfold bk_run_einsum, run_einsum, ptr in *. destruct ((length bases =? 1) || (length bases =? 2)); [|reflexivity].
    destruct strides as [|d0 [|d1 [|d2 [|d3 strides]]]]; try reflexivity.
    - destruct sh as [|n0 [|n1 [|n2 sh]]]; try reflexivity. inversion SS; subst. unfold bk_einsum_2labels, einsum_2labels.
      apply bind_ext. intros _ _. apply bind_ext. intros _ _. apply for_each_ext'. intros i h'. now apply bk_call_eq.
    - destruct sh as [|n0 [|n1 [|n2 [|n3 sh]]]]; try reflexivity. inversion SS; subst. unfold bk_einsum_3labels, einsum_3labels.
      apply bind_ext. intros _ _. apply bind_ext. intros _ _. apply bind_ext. intros _ _. apply for_each_ext'. intros i h'.
      apply for_each_ext'. intros j h''. now apply bk_call_eq.
  Qed.
  Definition prep_small (ops : list arr) subs out : Prop := forall st sh osh, prepare_einsum ops subs out = Ok (st, sh, osh) -> Forall bsmall sh.
  Lemma bk_einsum_eq (h : heap T) ops subs out : Forall (fun a => a_blk a < length h) ops -> prep_small ops subs out ->
    bk_einsum zero one op B h ops subs out = nd_einsum zero one addM mulM fmaM h ops subs out.
  Proof.
    intros F PS. unfold bk_einsum, nd_einsum. apply bind_ext. intros [[strides sh] osh] E. unfold alloc.
    rewrite bk_run_einsum_eq; [reflexivity| |exact (PS _ _ _ E)]. cbn [fst]. apply Forall_forall. intros p I. apply in_map_iff in I as (a & <- & I).
    rewrite Forall_forall in F. specialize (F a I). cbn [fst a_ptr]. lia.
  Qed.
  Lemma bk_einsum_into_eq (h : heap T) ops subs out rst dst : Forall (fun a => a_blk a <> fst dst) ops -> prep_small ops subs out ->
    bk_einsum_into zero one op B h ops subs out rst dst = einsum_into_ptr zero one addM mulM fmaM h ops subs out rst dst.
  Proof.
    intros F PS. unfold bk_einsum_into, einsum_into_ptr. apply bind_ext. intros [[strides sh] osh] E.
    apply bind_ext. intros _ _. apply bind_ext. intros h1 _. apply bk_run_einsum_eq; [|exact (PS _ _ _ E)].
    apply Forall_forall. intros p I. apply in_map_iff in I as (a & <- & I). rewrite Forall_forall in F. exact (F a I).
  Qed.
  (** the loops run over extents of the operands *)
  Lemma prep_small_of dm ops subs out : Forall2 (EinsumFacts5.fits dm) subs ops -> letters out -> NoDup out -> (forall l, In l out -> exists s, In s subs /\ In l s) ->
    length ops < MAX_ARGS -> length out + length (summed subs out) <= MAX_DIMS -> Forall (fun a => Forall bsmall (a_shape a)) ops -> prep_small ops subs out.
  Proof.
    intros F AO ND IO LA LM SM st sh osh E. destruct (prepare_ok dm subs ops out F AO ND IO LA LM) as (L & P & Q). rewrite Q in E. injection E as _ <- _.
    assert (AS : Forall letters subs). { clear - F. induction F as [|s a subs ops (A & _) F IH]; constructor; auto. }
    apply Forall_map, Forall_forall. intros l I. assert (X : exists s, In s subs /\ In l s).
    { apply Permutation_sym in P. apply (Permutation_in _ P) in I. apply in_app_or in I as [I|I]; [now apply IO|]. apply summed_spec in I; [|exact AS]. apply I. }
    destruct X as (s & I1 & I2). clear - F SM I1 I2. induction F as [|s' a subs ops (_ & SH & _) F IH]; [destruct I1|]. inversion SM; subst. destruct I1 as [->|I1]; [|now apply IH].
    rewrite SH in H1. rewrite Forall_map, Forall_forall in H1. now apply H1.
  Qed.

  Lemma bsmall_none n : blas B = None -> bsmall n.
  Proof. intros E Q. congruence. Qed.
  Lemma prep_small_none ops subs out : blas B = None -> prep_small ops subs out.
  Proof. intros E st sh osh _. apply Forall_forall. intros n _. now apply bsmall_none. Qed.
  Lemma letters_nats l : Forall (fun c => is_alpha c = true) l -> letters l. Proof. auto. Qed.
  Lemma matmul_small a b n k m : a_shape a = [n; k] -> a_shape b = [k; m] -> length (a_stride a) = 2 -> length (a_stride b) = 2 ->
    bsmall n -> bsmall k -> bsmall m -> prep_small [a; b] matmul_subs matmul_out.
  Proof.
    intros Sa Sb La Lb N K M. set (dm := fun l : Z => if (l =? 105)%Z then n else if (l =? 106)%Z then k else m).
    apply (prep_small_of dm).
    - repeat constructor; auto; rewrite ?La, ?Lb; cbn; unfold MAX_DIMS; auto; lia.
    - repeat constructor.
    - repeat constructor; cbn; intuition congruence.
    - intros l. cbn. intros [<-|[<-|[]]]; [exists [105; 106]%Z|exists [106; 107]%Z]; cbn; auto.
    - cbn. unfold MAX_ARGS. lia.
    - vm_compute. lia.
    - repeat constructor; rewrite ?Sa, ?Sb; repeat constructor; assumption.
  Qed.
  Lemma matvec_small a b n k : a_shape a = [n; k] -> a_shape b = [k] -> length (a_stride a) = 2 -> length (a_stride b) = 1 ->
    bsmall n -> bsmall k -> prep_small [a; b] matvec_subs matvec_out.
  Proof.
    intros Sa Sb La Lb N K. set (dm := fun l : Z => if (l =? 105)%Z then n else k).
    apply (prep_small_of dm).
    - repeat constructor; auto; rewrite ?La, ?Lb; cbn; unfold MAX_DIMS; auto; lia.
    - repeat constructor.
    - repeat constructor; cbn; intuition congruence.
    - intros l. cbn. intros [<-|[]]; exists [105; 106]%Z; cbn; auto.
    - cbn. unfold MAX_ARGS. lia.
    - vm_compute. lia.
    - repeat constructor; rewrite ?Sa, ?Sb; repeat constructor; assumption.
  Qed.

  (** ** dot, matmul, bmm *)
  Definition sized (a : arr) : Prop := Forall bsmall (a_shape a) /\ Forall bsmall (a_stride a).
  (** rows of a matrix whose elements are adjacent do not overlap, vectors are not broadcast
      scalars: what the library requires of leading dimensions and increments *)
  Definition leading (a : arr) : Prop :=
    match rev (a_shape a), rev (a_stride a) with
    | c :: _ :: _, 1 :: s :: _ => c <= s
    | [_], [s] => 0 < s
    | _, _ => True
    end.

  Lemma bk_nd_dot_eq (h : heap T) a b : usable a -> sized a -> sized b -> bk_nd_dot zero op B h a b = nd_dot zero addM mulM h a b.
  Proof.
    intros [_ P] [Sa Ta] [Sb Tb]. unfold bk_nd_dot, nd_dot. destruct (a_shape a) as [|n [|? ?]]; try reflexivity. destruct (a_shape b) as [|m [|? ?]]; try reflexivity.
    destruct (a_stride a) as [|s [|? ?]]; try reflexivity. destruct (a_stride b) as [|t [|? ?]]; try reflexivity. inversion Sa; subst. inversion Ta; subst. inversion Tb; subst.
    apply bind_ext. intros _ _. apply bind_ext. intros [h1 r] _. rewrite bk_sdot_eq; auto. cbn in P. lia.
  Qed.
  Lemma bk_matvec_go_eq rs s t cols : bsmall cols -> bsmall s -> bsmall t -> 0 < cols -> forall rows (h : heap T) row v dst,
    bk_matvec_go zero op B h row rs s v t dst cols rows = matvec_go zero addM mulM h row rs s v t dst cols rows.
  Proof.
    intros SC S1 S2 P. induction rows as [|rows IH]; intros h row v dst; cbn [bk_matvec_go matvec_go]; [reflexivity|].
    rewrite bk_sdot_eq by assumption. apply bind_ext. intros h' _. apply IH.
  Qed.

  (** equal up to the cells of the new array *)
  Definition alike (h : heap T) (p q : res (heap T * arr)) : Prop :=
    p = q \/ exists h1 h2 r sh val, p = Ok (h1, r) /\ q = Ok (h2, r) /\ fresh_result h h1 r sh val /\ fresh_result h h2 r sh val.
  Lemma alike_fresh h p q sh val : (exists h1 r, p = Ok (h1, r) /\ fresh_result h h1 r sh val) -> (exists h1 r, q = Ok (h1, r) /\ fresh_result h h1 r sh val) -> alike h p q.
  Proof.
    intros (h1 & r1 & -> & F1) (h2 & r2 & -> & F2). right. pose proof F1 as (_ & E1 & _). pose proof F2 as (_ & E2 & _). exists h1, h2, r1, sh, val.
    rewrite E2 in F2 |- *. rewrite E1 in F1 |- *. auto.
  Qed.

  Lemma bk_matmul_alike (h : heap T) a b : valid h a -> valid h b -> usable a -> usable b -> sized a -> sized b ->
    (blas B <> None -> length (a_shape a) = 1 \/ leading a /\ leading b) ->
    alike h (bk_matmul zero one op B h a b) (nd_matmul zero one addM mulM fmaM h a b).
  Proof.
    intros Va Vb Ua Ub Za Zb LD. pose proof (valid_blk _ _ Va (proj2 Ua)) as BA. pose proof (valid_blk _ _ Vb (proj2 Ub)) as BB.
    pose proof (bk_nd_dot_eq h a b Ua Za Zb) as DE. pose proof (proj1 Va) as LSa. pose proof (proj1 Vb) as LSb. unfold bk_matmul, nd_matmul.
    assert (exists va, holds h a va) as (va & Ha) by (eexists; apply (holds_of zero _ _ Va)). assert (exists vb, holds h b vb) as (vb & Hb) by (eexists; apply (holds_of zero _ _ Vb)). destruct Za as [SA TA], Zb as [SB TB]. destruct Ua as [_ Pa], Ub as [_ Pb].
    pose proof (C26_matvec T zero one add mul CSR h a b va vb) as C26v. pose proof (C26_matmul T zero one add mul CSR h a b va vb) as C26m.
    pose proof (fun bad => C52_matvec_partial T zero one add mul bad CSR h a b va vb) as C52v. pose proof (fun bad => C52_matmul_partial T zero one add mul bad CSR h a b va vb) as C52m.
    unfold leading in LD.
    destruct (a_shape a) as [|n [|k [|? ?]]] eqn:Sa; try (left; reflexivity).
    - destruct (a_shape b) as [|m [|? ?]] eqn:Sb; try (left; reflexivity). left. exact DE.
    - cbn [length] in LSa. destruct (a_stride a) as [|rs [|s [|? ?]]] eqn:Ea; try discriminate LSa. inversion SA as [|? ? SN SA']; subst. inversion SA' as [|? ? SK _]; subst.
      inversion TA as [|? ? SRS TA']; subst. inversion TA' as [|? ? SSS _]; subst. cbn in Pa. assert (0 < n /\ 0 < k) as [N K] by nia.
      destruct (a_shape b) as [|k' [|m [|? ?]]] eqn:Sb; try (left; reflexivity).
      + destruct (Nat.eqb_spec k k') as [<-|NK]; [|left; reflexivity]. cbn [guard bind]. cbn [length] in LSb.
        destruct (a_stride b) as [|t [|? ?]] eqn:Eb; try discriminate LSb. inversion TB as [|? ? ST _]; subst.
        assert (RL : (let '(h1, blk) := alloc h (repeat zero n) in h2 <- bk_matvec_go zero op B h1 (a_ptr a) rs s (a_ptr b) t (blk, 0) k n ;; Ok (h2, fresh_arr blk n [n])) =
                     (let '(h1, blk) := alloc h (repeat zero n) in h2 <- matvec_go zero addM mulM h1 (a_ptr a) rs s (a_ptr b) t (blk, 0) k n ;; Ok (h2, fresh_arr blk n [n]))).
        { unfold alloc. now rewrite bk_matvec_go_eq. }
        unfold bk_matrix_vector. rewrite Sa, Ea, Eb. destruct (blas B) as [bad|] eqn:EB; [|left; exact RL]. destruct (neon B) eqn:EN; [left; exact RL|].
        assert (EE : bk_einsum zero one op B h [a; b] matvec_subs matvec_out = nd_einsum zero one addM mulM fmaM h [a; b] matvec_subs matvec_out).
        { apply bk_einsum_eq; [repeat constructor; assumption|]. eapply matvec_small; eauto; rewrite ?Ea, ?Eb; reflexivity. }
        rewrite EE. assert (NB : blas B <> None) by congruence.
        assert (LEG : forall s' t', [rs; s] = [s'; 1] -> [t] = [t'] -> k <= s' /\ 0 < t' /\ PropsVendor.fits s' /\ PropsVendor.fits t').
        { intros s' t' [= -> ->] [= ->]. destruct (LD ltac:(discriminate)) as [Q|[L1 L2]]; [discriminate|]. cbn [rev app] in L1, L2. split; [exact L1|]. split; [exact L2|]. split; [now apply SRS|now apply ST]. }
        destruct (C26v n k eq_refl eq_refl N K Ha Hb) as (h2 & r2 & E2 & F2).
        destruct (C52v bad n k eq_refl eq_refl N K (SN NB) (SK NB) Ha Hb LEG) as (h1 & r1 & E1 & F1).
        eapply alike_fresh; [exists h1, r1; split; [|exact F1]; rewrite <- E1|exists h2, r2; split; [|exact F2]; rewrite <- E2].
        * unfold b_matmul, b_matrix_vector. rewrite Sa, Sb, Ea, Eb, Nat.eqb_refl. reflexivity.
        * unfold nd_matmul. rewrite Sa, Sb, Ea, Eb, Nat.eqb_refl. reflexivity.
      + destruct (Nat.eqb_spec k k') as [<-|NK]; [|left; reflexivity]. cbn [guard bind]. cbn [length] in LSb.
        destruct (a_stride b) as [|t0 [|t [|? ?]]] eqn:Eb; try discriminate LSb. inversion SB as [|? ? _ SB']; subst. inversion SB' as [|? ? SM _]; subst.
        inversion TB as [|? ? ST _]; subst. cbn in Pb. assert (M : 0 < m) by nia.
        assert (PS : prep_small [a; b] matmul_subs matmul_out) by (eapply matmul_small; eauto; rewrite ?Ea, ?Eb; reflexivity).
        assert (EI : forall h1 rst dst, fst dst = length h -> bk_einsum_into zero one op B h1 [a; b] matmul_subs matmul_out rst dst = einsum_into_ptr zero one addM mulM fmaM h1 [a; b] matmul_subs matmul_out rst dst).
        { intros h1 rst dst D. apply bk_einsum_into_eq; [|exact PS]. repeat constructor; lia. }
        unfold bk_matrix_matrix. destruct (blas B) as [bad|] eqn:EB.
        2: { left. unfold nd_full. destruct (guard _); cbn [bind]; [|reflexivity|reflexivity]. unfold from_buffer, alloc. unfold matrix_matrix. rewrite EI by reflexivity. reflexivity. }
        assert (NB : blas B <> None) by congruence.
        assert (LEG : forall s' t', [rs; s] = [s'; 1] -> [t0; t] = [t'; 1] -> k <= s' /\ m <= t' /\ PropsVendor.fits s' /\ PropsVendor.fits t').
        { intros s' t' [= -> ->] [= -> ->]. destruct (LD ltac:(discriminate)) as [Q|[L1 L2]]; [discriminate|]. cbn [rev app] in L1, L2. split; [exact L1|]. split; [exact L2|]. split; [now apply SRS|now apply ST]. }
        destruct (C26m n k m eq_refl eq_refl N K M Ha Hb) as (h2 & r2 & E2 & F2).
        destruct (C52m bad n k m eq_refl eq_refl N K M (SN NB) (SK NB) (SM NB) Ha Hb LEG) as (h1 & r1 & E1 & F1).
        eapply alike_fresh; [exists h1, r1; split; [|exact F1]; rewrite <- E1|exists h2, r2; split; [|exact F2]; rewrite <- E2].
        * unfold b_matmul. rewrite Sa, Sb, Nat.eqb_refl. cbn [guard bind]. unfold nd_full. destruct (guard _); cbn [bind]; [|reflexivity|reflexivity]. unfold from_buffer, alloc.
          unfold b_matrix_matrix. rewrite EI by reflexivity. rewrite Sa, Sb, Ea, Eb. cbn [vget nth_error bind]. reflexivity.
        * unfold nd_matmul. rewrite Sa, Sb, Nat.eqb_refl. reflexivity.
  Qed.

  Definition mm (h : heap T) (a b : arr) rst dst : res (heap T) :=
    match blas B with Some bad => b_matrix_matrix zero one addM mulM fmaM bad h a b rst dst | None => matrix_matrix zero one addM mulM fmaM h a b rst dst end.
  Lemma bk_matrix_matrix_eq h a b rst dst : a_blk a <> fst dst -> a_blk b <> fst dst -> prep_small [a; b] matmul_subs matmul_out ->
    bk_matrix_matrix zero one op B h a b rst dst = mm h a b rst dst.
  Proof.
    intros A1 B1 PS. unfold bk_matrix_matrix, mm, b_matrix_matrix, matrix_matrix.
    rewrite (bk_einsum_into_eq h [a; b]) by (repeat constructor; assumption || exact PS). reflexivity.
  Qed.
  Lemma prep_small_shift a b sa sb : prep_small [a; b] matmul_subs matmul_out -> prep_small [shift_arr a sa; shift_arr b sb] matmul_subs matmul_out.
  Proof. intros P. exact P. Qed.
  Lemma bk_bmm_go_eq n : forall (h : heap T) a b sa sb rst rs dst, a_blk a <> fst dst -> a_blk b <> fst dst -> prep_small [a; b] matmul_subs matmul_out ->
    bk_bmm_go zero one op B h a b sa sb rst rs dst n =
    match blas B with Some bad => b_bmm_go zero one addM mulM fmaM bad h a b sa sb rst rs dst n | None => bmm_go zero one addM mulM fmaM h a b sa sb rst rs dst n end.
  Proof.
    induction n as [|n IH]; intros h a b sa sb rst rs dst A1 B1 PS; cbn [bk_bmm_go b_bmm_go bmm_go]; [now destruct (blas B)|].
    rewrite bk_matrix_matrix_eq by assumption. unfold mm. destruct (blas B) as [bad|]; apply bind_ext; intros h' _; (rewrite IH; [reflexivity|exact A1|exact B1|now apply prep_small_shift]).
  Qed.
  Lemma slice_front (c : arr) x y z l : a_shape c = [x; y; z] -> length (a_stride c) = 3 -> nd_slice_along c 0 (IUsize 0) = Ok l ->
    a_shape l = [y; z] /\ length (a_stride l) = 2.
  Proof.
    intros Sc Lc. destruct (a_stride c) as [|s0 [|s1 [|s2 [|? ?]]]] eqn:Ec; try discriminate.
    unfold nd_slice_along. rewrite Sc, Ec. change (as_absolute 0 (length [x; y; z])) with (Ok 0).
    cbn [bind vget nth_error index_collapses vremove index_first]. intros E. apply bind_inv in E as (w & _ & E). assert (l = l) by reflexivity.
    injection E as <-. split; reflexivity.
  Qed.

  Lemma bk_bmm_eq (h : heap T) a b : a_blk a < length h -> a_blk b < length h ->
    (forall la lb, nd_slice_along a 0 (IUsize 0) = Ok la -> nd_slice_along b 0 (IUsize 0) = Ok lb -> prep_small [la; lb] matmul_subs matmul_out) ->
    bk_bmm zero one op B h a b = match blas B with Some bad => b_bmm zero one addM mulM fmaM bad h a b | None => nd_bmm zero one addM mulM fmaM h a b end.
  Proof.
    intros A1 B1 PS. unfold bk_bmm, b_bmm, nd_bmm.
    assert (G : forall n h1 la lb sa sb rst rs dst, a_blk la <> fst dst -> a_blk lb <> fst dst -> prep_small [la; lb] matmul_subs matmul_out ->
      bk_bmm_go zero one op B h1 la lb sa sb rst rs dst n =
      match blas B with Some bad => b_bmm_go zero one addM mulM fmaM bad h1 la lb sa sb rst rs dst n | None => bmm_go zero one addM mulM fmaM h1 la lb sa sb rst rs dst n end)
      by (intros; now apply bk_bmm_go_eq).
    destruct (blas B) as [bad|]; (destruct (a_shape a) as [|n [|i [|? [|? ?]]]]; try reflexivity;
    destruct (a_shape b) as [|n' [|? [|k [|? ?]]]]; try reflexivity; apply bind_ext; intros _ _;
    unfold nd_full; destruct (guard _); cbn [bind]; [|reflexivity|reflexivity]; unfold from_buffer, alloc;
    apply bind_ext; intros la HA; apply bind_ext; intros lb HB; do 3 (apply bind_ext; intros ? _);
    rewrite G; [reflexivity| | |now apply PS]; cbn [a_ptr fresh_arr a_blk a_off fst];
      [rewrite (slice_blk _ _ HA)|rewrite (slice_blk _ _ HB)]; lia).
  Qed.

  Lemma bk_bmm_alike (h : heap T) a b : valid h a -> valid h b -> usable a -> usable b -> sized a -> sized b ->
    (blas B <> None -> leading a /\ leading b /\ match a_shape a, a_shape b with [q; _; k], [q'; k'; _] => q = q' -> k = k' | _, _ => True end) ->
    alike h (bk_bmm zero one op B h a b) (nd_bmm zero one addM mulM fmaM h a b).
  Proof.
    intros Va Vb Ua Ub Za Zb LD. pose proof (valid_blk _ _ Va (proj2 Ua)) as BA. pose proof (valid_blk _ _ Vb (proj2 Ub)) as BB.
    pose proof (proj1 Va) as LSa. pose proof (proj1 Vb) as LSb.
    assert (exists va, holds h a va) as (va & Ha) by (eexists; apply (holds_of zero _ _ Va)). assert (exists vb, holds h b vb) as (vb & Hb) by (eexists; apply (holds_of zero _ _ Vb)).
    destruct Za as [SA TA], Zb as [SB TB]. destruct Ua as [_ Pa], Ub as [_ Pb].
    pose proof (C26_bmm T zero one add mul CSR h a b va vb) as C26. pose proof (fun bad => C52_bmm_partial T zero one add mul bad CSR h a b va vb) as C52.
    unfold leading in LD.
    destruct (a_shape a) as [|q [|n [|k [|? ?]]]] eqn:Sa; try (left; unfold bk_bmm, nd_bmm; rewrite Sa; reflexivity).
    destruct (a_shape b) as [|q' [|k' [|m [|? ?]]]] eqn:Sb; try (left; unfold bk_bmm, nd_bmm; rewrite Sa, Sb; reflexivity).
    destruct (Nat.eq_dec q q') as [<-|NQ]; [|left; unfold bk_bmm, nd_bmm; rewrite Sa, Sb, (proj2 (Nat.eqb_neq _ _) NQ); reflexivity].
    destruct (blas B) as [bad|] eqn:EB.
    - destruct (LD ltac:(discriminate)) as (L1 & L2 & KK). specialize (KK eq_refl). subst k'. assert (NB : blas B <> None) by congruence.
      inversion SA as [|? ? _ SA1]; subst. inversion SA1 as [|? ? SN SA2]; subst. inversion SA2 as [|? ? SK _]; subst.
      inversion SB as [|? ? _ SB1]; subst. inversion SB1 as [|? ? _ SB2]; subst. inversion SB2 as [|? ? SM _]; subst.
      cbn in Pa, Pb. assert (0 < q /\ 0 < n /\ 0 < k) as (Q & N & K) by (split; [|split]; destruct q, n, k; lia).
      assert (M : 0 < m) by (destruct m; [|lia]; rewrite !Nat.mul_0_r in Pb; lia).
      assert (PS : forall la lb, nd_slice_along a 0 (IUsize 0) = Ok la -> nd_slice_along b 0 (IUsize 0) = Ok lb -> prep_small [la; lb] matmul_subs matmul_out).
      { intros la lb HA HB. destruct (slice_front a q n k la Sa LSa HA) as [S1 T1]. destruct (slice_front b q k m lb Sb LSb HB) as [S2 T2]. eapply matmul_small; eauto. }
      rewrite (bk_bmm_eq h a b BA BB PS), EB.
      destruct (C26 q n k m eq_refl eq_refl Q N K M Ha Hb) as (h2 & r2 & E2 & F2).
      destruct (C52 bad q n k m eq_refl eq_refl Q N K M (SN NB) (SK NB) (SM NB) Ha Hb) as (h1 & r1 & E1 & F1).
      { intros s0 s t0 t Ea Eb. rewrite Ea in L1, TA. rewrite Eb in L2, TB. cbn [rev app] in L1, L2. inversion TA as [|? ? _ TA1]; subst. inversion TA1 as [|? ? TS _]; subst.
        inversion TB as [|? ? _ TB1]; subst. inversion TB1 as [|? ? TT _]; subst. split; [exact L1|]. split; [exact L2|]. split; [now apply TS|now apply TT]. }
      eapply alike_fresh; [exists h1, r1|exists h2, r2]; eauto.
    - left. rewrite (bk_bmm_eq h a b BA BB), EB; [reflexivity|]. intros la lb _ _. now apply prep_small_none.
  Qed.

  (** ** einsum *)
  Lemma einsum_small (ops : list arr) subs out sm dm : Forall (Forall letter) subs -> Forall letter out -> NoDup (out ++ sm) ->
    (forall l, In l (out ++ sm) <-> exists s, In s subs /\ In l s) -> length (out ++ sm) <= 32 -> length ops <= 15 ->
    Forall2 (fun sub a => a_shape a = map dm sub /\ length (a_stride a) = length (a_shape a) /\ length (a_shape a) <= MAX_DIMS) subs ops -> Forall sized ops -> prep_small ops subs out.
  Proof.
    intros LS LO ND LET L32 L15 F SZ. assert (AS : Forall letters subs) by (eapply Forall_impl; [|exact LS]; intros; now apply letter_letters).
    assert (NDO : NoDup out). { clear -ND. induction out as [|x l IH]; [constructor|]. inversion ND; subst. constructor; [|now apply IH]. intros J. apply H1, in_app_iff. now left. }
    apply (prep_small_of dm).
    - clear -F AS. induction F as [|sub a subs ops (S1 & L1 & M1) F IH]; constructor; inversion AS; subst; auto. rewrite S1, map_length in L1, M1. split; [assumption|]. auto.
    - now apply letter_letters.
    - exact NDO.
    - intros l J. apply LET, in_app_iff. now left.
    - unfold MAX_ARGS. lia.
    - unfold MAX_DIMS. rewrite app_length in L32. enough (length (summed subs out) <= length sm) by lia. apply NoDup_incl_length; [apply NoDup_summed|].
      intros l J. apply summed_spec in J as [J1 J2]; [|exact AS]. apply LET, in_app_iff in J1 as [J1|J1]; [contradiction|exact J1].
    - eapply Forall_impl; [|exact SZ]. intros a []. assumption.
  Qed.
End Facts.

(** ** elementwise operations and reductions: no algebra except where said *)
Section Elementwise.
  Context {T : Type}.
  Variable zero one : T.
  Variable op : arith -> T -> T -> T.
  Variable neg : T -> T.
  Variable B : @build T.
  Hypothesis BOK : build_ok op B.
  Local Notation add := (op AAdd).
  Local Notation mul := (op AMul).

  Lemma lanes L : neon B = Some L -> L = 1 \/ L = 2 \/ L = 4.
  Proof. intros E. right. now apply BOK. Qed.
  Lemma comm lib o : vdsp B = Some lib -> kind_of o = VAddMul -> forall x y, op o x y = op o y x.
  Proof. intros E K. destruct (proj2 BOK _ E) as (_ & A & M). destruct o; try discriminate; assumption. Qed.
  Lemma bk_binary_eq o (h : heap T) a b : valid h a -> valid h b -> 0 < prod (a_shape a) -> 0 < prod (a_shape b) ->
    bk_binary zero op B o h a b = nd_binary (opM op o) zero h a b.
  Proof.
    intros Va Vb Pa Pb. unfold bk_binary. pose proof (join_spec (a_shape a) (a_shape b)) as J. destruct (join (a_shape a) (a_shape b)) as [sh| |]; [| |contradiction].
    - assert (PS : 0 < prod sh) by (apply pos_prod; eapply join_shape_pos; [exact J|apply pos_prod; exact Pa|apply pos_prod; exact Pb]).
      destruct (neon B) as [L|] eqn:EN; [apply (snd_binary_eq L (lanes _ EN)) with sh; assumption|]. destruct (vdsp B) as [lib|] eqn:EV; [|reflexivity].
      destruct (vnd_binary_cases (op o) (kind_of o) (comm lib o EV) (opM op o) zero h a b sh Va Vb J PS) as [->|H]; [reflexivity|exact H].
    - rewrite C12_incompatible_shapes_panic by exact J. destruct (neon B) as [L|]; [now apply snd_binary_panic|]. destruct (vdsp B) as [lib|]; [now apply vnd_binary_panic|reflexivity].
  Qed.
  Lemma bk_scalar_op_eq o (h : heap T) a c : valid h a -> 0 < prod (a_shape a) -> bk_scalar_op zero op B o h a c = nd_scalar_op (opM op o) zero h a c.
  Proof.
    intros V P. unfold bk_scalar_op. destruct (neon B) as [L|] eqn:EN; [apply (snd_scalar_op_eq L (lanes _ EN)); assumption|]. destruct (vdsp B) as [lib|] eqn:EV; [|reflexivity].
    destruct (vnd_scalar_op_cases (op o) (kind_of o) (comm lib o EV) (opM op o) zero h a c V P) as [->|H]; [reflexivity|exact H].
  Qed.
  Lemma bk_neg_eq (h : heap T) a : valid h a -> 0 < prod (a_shape a) -> bk_neg zero neg B h a = nd_unary (fun x => Ok (neg x)) zero h a.
  Proof. intros V P. unfold bk_neg. destruct (neon B) as [L|] eqn:EN; [|reflexivity]. apply (snd_unary_eq L (lanes _ EN)); assumption. Qed.
  Lemma bk_assign_eq o (h : heap T) a b : valid h a -> valid h b -> flags_ok a -> no_bcast (a_shape a) (a_stride a) ->
    f_contig (a_fl a) = true -> 0 < prod (a_shape a) -> broadcastable (a_shape b) (a_shape a) -> no_feedback a b ->
    bk_assign op B o h a b = nd_assign (opM op o) h a b.
  Proof.
    intros Va Vb F NB C P BC NF. unfold bk_assign. destruct (neon B) as [L|] eqn:EN; [apply (snd_assign_eq L (lanes _ EN)); assumption|]. destruct (vdsp B) as [lib|] eqn:EV; [|reflexivity].
    destruct (vnd_assign_cases (op o) (kind_of o) (comm lib o EV) (opM op o) h a b Va Vb F NB C P BC NF) as [->|H]; [reflexivity|exact H].
  Qed.
  Lemma bk_assign_panic o (h : heap T) a b : f_write (a_fl a) = false \/ ~ broadcastable (a_shape b) (a_shape a) -> bk_assign op B o h a b = Panic.
  Proof.
    intros H. unfold bk_assign. assert (N : nd_assign (opM op o) h a b = Panic).
    { destruct H as [H|H]; [|now apply C14_assign_shape_panics]. unfold nd_assign. now rewrite H. }
    revert N. unfold nd_assign, snd_assign, vnd_assign. destruct H as [H|H]; [rewrite H; destruct (neon B), (vdsp B); reflexivity|].
    destruct (f_write (a_fl a)); cbn [guard bind]; [|destruct (neon B), (vdsp B); reflexivity].
    destruct (list_eqb (a_shape b) (a_shape a)) eqn:Q.
    { apply list_eqb_spec in Q. destruct H. rewrite Q. apply broadcastable_refl. }
    intros _. rewrite (nd_broadcast_to_panic _ _ H). destruct (neon B), (vdsp B); reflexivity.
  Qed.
  Lemma bk_assign_scalar_eq o (h : heap T) a c : valid h a -> flags_ok a -> no_bcast (a_shape a) (a_stride a) ->
    f_contig (a_fl a) = true -> 0 < prod (a_shape a) -> bk_assign_scalar op B o h a c = nd_assign_scalar (opM op o) h a c.
  Proof.
    intros Va F NB C P. unfold bk_assign_scalar. destruct (neon B) as [L|] eqn:EN; [apply (snd_assign_scalar_eq L (lanes _ EN)); assumption|]. destruct (vdsp B) as [lib|] eqn:EV; [|reflexivity].
    destruct (vnd_assign_scalar_cases (op o) (kind_of o) (comm lib o EV) (opM op o) h a c Va F NB C P) as [->|H]; [reflexivity|exact H].
  Qed.
  Lemma bk_assign_scalar_panic o (h : heap T) a c : f_write (a_fl a) = false -> bk_assign_scalar op B o h a c = Panic.
  Proof. intros H. unfold bk_assign_scalar, snd_assign_scalar, vnd_assign_scalar, nd_assign_scalar. rewrite H. destruct (neon B), (vdsp B); reflexivity. Qed.

  (** an array that the whole-array reductions treat correctly (C19) *)
  Definition dense_chain (h : heap T) (a : arr) : Prop :=
    length (a_shape a) <= MAX_DIMS /\ 0 < prod (a_shape a) /\ exists n, live h (a_blk a) n /\
      (chain (a_blk a) n false a \/ chain (a_blk a) n true a /\ has_uniform_stride (a_shape a) (a_stride a) = None).
  Lemma nd_reduce_fresh f e (h : heap T) a xs : dense_chain h a -> elems h a = Ok xs ->
    exists h1 r, nd_reduce (fun v acc => Ok (f acc v)) e h a = Ok (h1, r) /\ fresh_result h h1 r [] (fun _ => Ok (fold_left f xs e)).
  Proof.
    intros (D & P & n & LV & C) E. destruct (C19_fold_partial T (fun v acc => Ok (f acc v)) h _ n a e LV C D) as (vs & E' & F & _). assert (vs = xs) as -> by congruence.
    apply F, foldM_left.
  Qed.
  Lemma bk_sum_alike (h : heap T) a : dense_chain h a -> (vdsp B <> None \/ neon B <> None -> is_csr zero one add mul) ->
    alike h (bk_sum zero op B h a) (nd_reduce (gsum op) zero h a).
  Proof.
    intros D R. unfold bk_sum. pose proof D as (MD & P & n & LV & C). pose proof (chain_dense h _ n a LV MD C) as DD.
    destruct (vdsp B) as [lib|] eqn:EV.
    - destruct (R ltac:(left; discriminate)) as [CC CA CU _ _ _ _ _]. destruct (proj2 BOK _ EV) as (SO & _).
      destruct (C53_sum_monoid_partial T add zero lib h a SO DD P ltac:(auto) CC CU) as (xs & h' & r & E & Q & F). eapply alike_fresh; [exists h', r; split; [exact Q|exact F]|now apply nd_reduce_fresh].
    - destruct (neon B) as [L|] eqn:EN; [|now left]. destruct (R ltac:(right; discriminate)) as [CC CA CU _ _ _ _ _].
      destruct (C50_monoid_partial T L add zero h a (proj1 BOK _ EN) DD ltac:(auto) CC CU) as (xs & hs & rs & _ & _ & E & Q & F & _). eapply alike_fresh; [exists hs, rs; split; [exact Q|exact F]|now apply nd_reduce_fresh].
  Qed.
  Lemma bk_product_alike (h : heap T) a : dense_chain h a -> (neon B <> None -> is_csr zero one add mul) ->
    alike h (bk_product one op B h a) (nd_reduce (gproduct op) one h a).
  Proof.
    intros D R. unfold bk_product. pose proof D as (MD & P & n & LV & C). pose proof (chain_dense h _ n a LV MD C) as DD.
    destruct (neon B) as [L|] eqn:EN; [|now left]. destruct (R ltac:(discriminate)) as [_ _ _ CC CA CU _ _].
    destruct (C50_monoid_partial T L mul one h a (proj1 BOK _ EN) DD ltac:(auto) CC CU) as (xs & _ & _ & hs & rs & E & _ & _ & Q & F). eapply alike_fresh; [exists hs, rs; split; [exact Q|exact F]|now apply nd_reduce_fresh].
  Qed.
End Elementwise.
