(** CastFacts.v: proofs about conversions between element types. *)
From Coq Require Import List Arith Lia Lqa Bool ZArith QArith Qpower Qabs Floats.SpecFloat.
From Verif Require Import Base Spec SpecFacts Layout Views Access HeapFacts OpFacts AccessFacts Numeric NumericFacts FloatErr Cast PropsOps.
Import ListNotations.
Local Close Scope Q_scope. Local Close Scope nat_scope. Local Open Scope Z_scope.

(** ** Rounding keeps the sign and never gives NaN *)
Definition sign_of (x : spec_float) : option bool :=
  match x with S754_zero s | S754_infinity s | S754_finite s _ _ => Some s | S754_nan => None end.

Section Fmt.
Variables p em : Z.
Hypothesis Hp : 2 <= p.
Hypothesis He : p + 2 <= em.

Lemma round_aux_sign s m ex : 0 <= m -> ex <= fexp p em (Zdigits2 m + ex) -> sign_of (binary_round_aux p em s m ex loc_Exact) = Some s.
Proof.
  intros P L. destruct (round_aux_core p em Hp He s m 1 m ex loc_Exact (inb_exact m P) L) as (M & _ & _ & _ & _ & _ & C). cbv zeta in C.
  destruct C as [[_ ->]|[(_ & mf & ef & -> & _)|[-> _]]]; reflexivity.
Qed.

Lemma round_sign s m ex : sign_of (binary_round p em s m ex) = Some s.
Proof.
  unfold binary_round. set (E0 := fexp p em (Zpos (digits2_pos m) + ex)). destruct (Z.le_gt_cases ex E0) as [L|L].
  - rewrite align_id by exact L. apply round_aux_sign; [lia|exact L].
  - destruct (align_val m ex E0 ltac:(lia)) as [V1 V2]. destruct (shl_align m ex E0) as [mz ez]. cbn [fst snd] in *. subst ez.
    apply round_aux_sign; [lia|]. rewrite V1, digits_shift by lia.
    assert (FE : E0 = Z.max (Zdigits2 (Zpos m) + ex - p) (emin p em)) by reflexivity. unfold fexp. lia.
Qed.

Lemma normalize_sign z b : z <> 0 -> sign_of (binary_normalize p em z 0 b) = Some (z <? 0).
Proof. destruct z; [easy| |]; intros _; apply round_sign. Qed.

(** ** A value has one representation *)
Lemma pow2_lt_inv a b : 0 <= a -> 0 <= b -> 2 ^ a < 2 ^ b -> a < b.
Proof. intros A B H. apply (Z.pow_lt_mono_r_iff 2); lia. Qed.

Lemma exponent_unique m1 e1 m2 e2 k : (k <= e1) -> (k <= e2) -> Zpos m1 * 2 ^ (e1 - k) = Zpos m2 * 2 ^ (e2 - k) ->
  Zdigits2 (Zpos m1) + e1 = Zdigits2 (Zpos m2) + e2.
Proof.
  intros L1 L2 E. assert (D : Zdigits2 (Zpos m1 * 2 ^ (e1 - k)) = Zdigits2 (Zpos m2 * 2 ^ (e2 - k))) by now rewrite E.
  rewrite !digits_shift in D by lia. lia.
Qed.

Lemma valid_unique s m1 e1 m2 e2 : valid_binary p em (S754_finite s m1 e1) = true -> valid_binary p em (S754_finite s m2 e2) = true ->
  (inject_Z (Zpos m1) * 2 ^ e1 == inject_Z (Zpos m2) * 2 ^ e2)%Q -> m1 = m2 /\ e1 = e2.
Proof.
  intros V1 V2 E. apply valid_emin in V1 as [B1 F1]. apply valid_emin in V2 as [B2 F2].
  set (k := Z.min e1 e2).
  assert (Q : Zpos m1 * 2 ^ (e1 - k) = Zpos m2 * 2 ^ (e2 - k)).
  { apply inject_Z_injective. rewrite !inject_Z_mult, !two_Z by lia.
    pose proof (two_pos k) as PK. apply (Qmult_inj_r _ _ (2 ^ k)); [lra|]. rewrite <- !Qmult_assoc, <- !two_add.
    replace (e1 - k + k) with e1 by lia. replace (e2 - k + k) with e2 by lia. exact E. }
  pose proof (exponent_unique m1 e1 m2 e2 k ltac:(lia) ltac:(lia) Q) as X. rewrite X, F2 in F1. subst e2.
  split; [|reflexivity]. pose proof (pow2_pos (e1 - k) ltac:(lia)). assert (Zpos m1 = Zpos m2) by nia. congruence.
Qed.

Lemma qval_unique x y a b : valid_binary p em x = true -> valid_binary p em y = true -> qval x = Some a -> qval y = Some b -> (a == b)%Q ->
  sign_of x = sign_of y -> x = y.
Proof.
  intros VX VY QX QY E S. destruct x as [s1|s1| |s1 m1 e1], y as [s2|s2| |s2 m2 e2]; try discriminate; cbn [sign_of] in S; injection S as <-; [reflexivity|..].
  - exfalso. cbn [qval] in QX, QY. injection QX as <-. injection QY as <-. pose proof (two_pos e2) as P.
    destruct s1; [change (Zneg m2) with (- Zpos m2) in E; rewrite inject_Z_opp in E|]; assert (0 < inject_Z (Zpos m2))%Q by (now rewrite <- (Zlt_Qlt 0)); nra.
  - exfalso. cbn [qval] in QX, QY. injection QX as <-. injection QY as <-. pose proof (two_pos e1) as P.
    destruct s1; [change (Zneg m1) with (- Zpos m1) in E; rewrite inject_Z_opp in E|]; assert (0 < inject_Z (Zpos m1))%Q by (now rewrite <- (Zlt_Qlt 0)); nra.
  - cbn [qval] in QX, QY. injection QX as <-. injection QY as <-.
    assert (E' : (inject_Z (Zpos m1) * 2 ^ e1 == inject_Z (Zpos m2) * 2 ^ e2)%Q).
    { destruct s1; [|exact E]. change (Zneg m1) with (- Zpos m1) in E. change (Zneg m2) with (- Zpos m2) in E. rewrite !inject_Z_opp in E.
      lra. }
    destruct (valid_unique s1 m1 e1 m2 e2 VX VY E') as [-> ->]. reflexivity.
Qed.

(** the magnitude of a valid float *)
Lemma valid_digits s m e : valid_binary p em (S754_finite s m e) = true -> Zpos m < 2 ^ p /\ emin p em <= e /\ e <= em - p.
Proof.
  intros V. apply valid_emin in V as [B F]. destruct (digits_bounds (Zpos m) ltac:(lia)) as [[_ U] _].
  assert (Zdigits2 (Zpos m) <= p) by (unfold fexp in F; lia).
  assert (2 ^ Zdigits2 (Zpos m) <= 2 ^ p) by (apply Z.pow_le_mono_r; lia). lia.
Qed.

Lemma valid_lt s m e : valid_binary p em (S754_finite s m e) = true -> (inject_Z (Zpos m) * 2 ^ e < 2 ^ em)%Q.
Proof.
  intros V. destruct (valid_digits _ _ _ V) as (L & _ & U). assert (inject_Z (Zpos m) < 2 ^ p)%Q.
  { rewrite <- two_Z by lia. now rewrite <- Zlt_Qlt. }
  pose proof (two_pos e). apply Qlt_le_trans with (2 ^ p * 2 ^ e)%Q.
  - now apply Qmult_lt_r.
  - rewrite <- two_add. apply two_le. lia.
Qed.

Lemma valid_abs x q : valid_binary p em x = true -> qval x = Some q -> (Qabs q < 2 ^ em)%Q.
Proof.
  destruct x as [s|s| |s m e]; intros V Q; try discriminate; cbn [qval] in Q; injection Q as <-.
  - exact (two_pos em).
  - pose proof (valid_lt _ _ _ V) as L. rewrite Qabs_Qmult, (Qabs_pos (2 ^ e)) by (apply Qlt_le_weak, two_pos).
    destruct s; exact L.
Qed.
End Fmt.

(** ** Conversion to a float *)
Definition rounds_f (f : fmt) (q : Q) (y : spec_float) : Prop := rounds (prec f) (emax f) (tiny (prec f) (emax f)) q y.

Lemma std_ok f : std f -> 2 <= prec f /\ prec f + 2 <= emax f.
Proof. intros [-> | ->]; cbn; lia. Qed.

Lemma of_Z_rounds f x : std f -> rounds (prec f) (emax f) 0 (inject_Z x) (of_Z f x).
Proof.
  intros S. destruct (std_ok f S) as [Hp He]. unfold of_Z. eapply rounds_ext.
  2: { apply normalize_q; [assumption..|apply Qle_refl|]. unfold emin. lia. }
  change (2 ^ 0)%Q with 1%Q. ring.
Qed.

Lemma convert_rounds f x q : std f -> qval x = Some q -> rounds_f f q (convert f x).
Proof.
  intros S Q. destruct (std_ok f S) as [Hp He]. destruct x as [s|s| |s m e]; try discriminate; cbn [qval] in Q; injection Q as <-.
  - cbn [convert]. unfold rounds_f. destruct (exact_rounds (prec f) (emax f) 0%Q (S754_zero s) eq_refl eq_refl) as [A [(c & Q & D)|[Q _]]]; [|discriminate].
    split; [exact A|]. left. exists c. split; [exact Q|]. pose proof (tiny_pos (prec f) (emax f)). lra.
  - cbn [convert]. unfold rounds_f. eapply rounds_ext.
    2: { apply (round_q (prec f) (emax f) Hp He s m e); [|reflexivity]. apply Qlt_le_weak, tiny_pos. }
    destruct s; cbn [signed]; [|reflexivity]. change (Zneg m) with (- Zpos m). rewrite inject_Z_opp. ring.
Qed.
Lemma convert_sign f x : std f -> sign_of (convert f x) = sign_of x.
Proof. intros S. destruct (std_ok f S). destruct x as [s|s| |s m e]; try reflexivity. now apply round_sign. Qed.
Lemma of_Z_sign f x : std f -> sign_of (of_Z f x) = Some (x <? 0).
Proof. intros S. destruct (std_ok f S). destruct (Z.eq_dec x 0) as [->|N]; [reflexivity|]. now apply normalize_sign. Qed.

(** ** The integer part *)
Definition int_part (q : Q) (z : Z) : Prop :=
  ((0 <= q -> inject_Z z <= q < inject_Z z + 1) /\ (q <= 0 -> inject_Z z - 1 < q <= inject_Z z))%Q.

Lemma int_part_int z : int_part (inject_Z z) z.
Proof. split; intros _; lra. Qed.
Lemma int_part_unique q a b : int_part q a -> int_part q b -> a = b.
Proof.
  intros [A1 A2] [B1 B2]. assert (X : (inject_Z a < inject_Z (b + 1) /\ inject_Z b < inject_Z (a + 1))%Q).
  { rewrite !inject_Z_plus. change (inject_Z 1) with 1%Q. destruct (Qlt_le_dec q 0) as [L|L].
    - specialize (A2 (Qlt_le_weak _ _ L)). specialize (B2 (Qlt_le_weak _ _ L)). lra.
    - specialize (A1 L). specialize (B1 L). lra. }
  rewrite <- !Zlt_Qlt in X. lia.
Qed.
Lemma int_part_comp q r z : (q == r)%Q -> int_part q z -> int_part r z.
Proof. intros E [A B]. split; intros H; rewrite <- E in H |- *; auto. Qed.

Lemma trunc_int_part m e : int_part (inject_Z m * 2 ^ e) (trunc_Z m e).
Proof.
  unfold trunc_Z. destruct (Z.leb_spec 0 e) as [L|L].
  - eapply int_part_comp; [|apply int_part_int]. rewrite inject_Z_mult, two_Z by lia. reflexivity.
  - set (w := 2 ^ (- e)). assert (W : 0 < w) by (apply pow2_pos; lia).
    assert (QW : (0 < inject_Z w)%Q) by (now rewrite <- (Zlt_Qlt 0)).
    assert (P : (inject_Z m * 2 ^ e == inject_Z m / inject_Z w)%Q).
    { unfold w. rewrite two_Z by lia. replace e with (- - e) at 1 by lia. rewrite Qpower_opp. reflexivity. }
    eapply int_part_comp; [symmetry; exact P|].
    assert (QR : m = w * (m ÷ w) + Z.rem m w) by apply Z.quot_rem'.
    assert (RB : Z.abs (Z.rem m w) < Z.abs w) by (apply Z.rem_bound_abs; lia).
    split; intros H.
    + assert (M0 : 0 <= m).
      { destruct (Z.le_gt_cases 0 m) as [|N]; [assumption|exfalso]. apply (Qmult_le_compat_r _ _ (inject_Z w)) in H; [|lra].
        assert (X : (inject_Z m / inject_Z w * inject_Z w == inject_Z m)%Q) by (field; lra). rewrite X in H.
        rewrite Zlt_Qlt in N. change (inject_Z 0) with 0%Q in N. lra. }
      pose proof (Z.rem_nonneg m w ltac:(lia) M0). split.
      * apply Qle_shift_div_l; [exact QW|]. rewrite <- inject_Z_mult, <- Zle_Qle. nia.
      * apply Qlt_shift_div_r; [exact QW|]. change 1%Q with (inject_Z 1). rewrite <- inject_Z_plus, <- inject_Z_mult, <- Zlt_Qlt. nia.
    + assert (M0 : m <= 0).
      { destruct (Z.le_gt_cases m 0) as [|N]; [assumption|exfalso]. apply (Qmult_le_compat_r _ _ (inject_Z w)) in H; [|lra].
        assert (X : (inject_Z m / inject_Z w * inject_Z w == inject_Z m)%Q) by (field; lra). rewrite X in H.
        rewrite Zlt_Qlt in N. change (inject_Z 0) with 0%Q in N. lra. }
      pose proof (Z.rem_nonpos m w ltac:(lia) M0). split.
      * apply Qlt_shift_div_l; [exact QW|]. change 1%Q with (inject_Z 1). unfold Qminus. rewrite <- inject_Z_opp, <- inject_Z_plus, <- inject_Z_mult, <- Zlt_Qlt. nia.
      * apply Qle_shift_div_r; [exact QW|]. rewrite <- inject_Z_mult, <- Zle_Qle. nia.
Qed.

(** the integer part fits between lo and hi exactly when the value is within one of them *)
Lemma int_part_fits q z lo hi : int_part q z -> lo <= 0 <= hi -> (inject_Z lo - 1 < q < inject_Z hi + 1)%Q <-> lo <= z <= hi.
Proof.
  intros [A B] LH.
  assert (T : (inject_Z lo <= 0 /\ 0 <= inject_Z hi)%Q) by (change 0%Q with (inject_Z 0); rewrite <- !Zle_Qle; lia).
  split.
  - intros H. assert (X : (inject_Z (lo - 1) < inject_Z z < inject_Z (hi + 1))%Q).
    { unfold Z.sub. rewrite !inject_Z_plus. change (inject_Z (-(1))) with (-(1))%Q. change (inject_Z 1) with 1%Q. destruct (Qlt_le_dec q 0) as [L|L].
      - specialize (B (Qlt_le_weak _ _ L)). assert (z <= 0).
        { destruct (Z.le_gt_cases z 0) as [|N]; [assumption|exfalso]. assert (1 <= z) by lia. rewrite Zle_Qle in H0. change (inject_Z 1) with 1%Q in H0. lra. }
        rewrite Zle_Qle in H0. change (inject_Z 0) with 0%Q in H0. lra.
      - specialize (A L). assert (0 <= z).
        { destruct (Z.le_gt_cases 0 z) as [|N]; [assumption|exfalso]. assert (z <= -1) by lia. rewrite Zle_Qle in H0. change (inject_Z (-1)) with (-(1))%Q in H0. lra. }
        rewrite Zle_Qle in H0. change (inject_Z 0) with 0%Q in H0. lra. }
    rewrite <- !Zlt_Qlt in X. lia.
  - intros [L1 L2]. rewrite Zle_Qle in L1, L2. destruct (Qlt_le_dec q 0) as [L|L].
    + specialize (B (Qlt_le_weak _ _ L)). lra.
    + specialize (A L). lra.
Qed.
