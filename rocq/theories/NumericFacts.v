(** NumericFacts.v: rounding facts about SpecFloat needed for arange and linspace. *)
From Coq Require Import List Arith Lia Bool ZArith Floats.SpecFloat.
From Verif Require Import Base Numeric.
Import ListNotations.
Open Scope Z_scope.

(** ** Digits and powers *)
Lemma digits2_pos_log2 m : Zpos (digits2_pos m) = Z.log2 (Zpos m) + 1.
Proof.
  induction m as [p IH|p IH|]; cbn [digits2_pos].
  - rewrite Pos2Z.inj_succ, IH. rewrite (Pos2Z.inj_xI p).
    rewrite Z.log2_succ_double by lia. lia.
  - rewrite Pos2Z.inj_succ, IH. rewrite (Pos2Z.inj_xO p).
    rewrite Z.log2_double by lia. lia.
  - reflexivity.
Qed.

Lemma Zdigits2_log2 m : 0 < m -> Zdigits2 m = Z.log2 m + 1.
Proof. destruct m; intros; try lia. cbn [Zdigits2]. apply digits2_pos_log2. Qed.

Lemma pow2_pos k : 0 <= k -> 0 < 2 ^ k.
Proof. intros. apply Z.pow_pos_nonneg; lia. Qed.

Lemma pow2_split a b : 0 <= a -> 0 <= b -> 2 ^ (a + b) = 2 ^ a * 2 ^ b.
Proof. intros. apply Z.pow_add_r; lia. Qed.

Lemma digits_bounds m : 0 < m -> 2 ^ (Zdigits2 m - 1) <= m < 2 ^ Zdigits2 m /\ 1 <= Zdigits2 m.
Proof.
  intros H. rewrite Zdigits2_log2 by lia.
  pose proof (Z.log2_spec m H). pose proof (Z.log2_nonneg m).
  replace (Z.log2 m + 1 - 1) with (Z.log2 m) by lia.
  replace (Z.succ (Z.log2 m)) with (Z.log2 m + 1) in H0 by lia. lia.
Qed.

Lemma digits_le m p : 0 < m -> 0 <= p -> m < 2 ^ p -> Zdigits2 m <= p.
Proof.
  intros H Hp Hm. destruct (digits_bounds m H) as [[H1 _] H2].
  destruct (Z_le_gt_dec (Zdigits2 m) p) as [|G]; [assumption|].
  assert (2 ^ p <= 2 ^ (Zdigits2 m - 1)) by (apply Z.pow_le_mono_r; lia). lia.
Qed.

Lemma digits_ge m p : 0 < m -> 2 ^ p <= m -> p + 1 <= Zdigits2 m.
Proof.
  intros H Hm. destruct (digits_bounds m H) as [[_ H1] H2].
  destruct (Z_le_gt_dec (p + 1) (Zdigits2 m)) as [|G]; [assumption|].
  assert (2 ^ Zdigits2 m <= 2 ^ p) by (apply Z.pow_le_mono_r; lia). lia.
Qed.

Lemma digits_shift m k : 0 < m -> 0 <= k -> Zdigits2 (m * 2 ^ k) = Zdigits2 m + k.
Proof.
  intros H Hk. pose proof (pow2_pos k Hk).
  rewrite !Zdigits2_log2 by nia. rewrite Z.log2_mul_pow2 by lia. lia.
Qed.

(** small nonlinear facts, kept apart so that the solver sees few hypotheses *)
Lemma nl_low x y u v m1 m2 : 0 <= x -> 0 <= y -> m2 <= u -> v <= m1 -> x * u <= v * y -> x * m2 <= m1 * y.
Proof. intros. assert (x * m2 <= x * u) by nia. assert (v * y <= m1 * y) by nia. lia. Qed.

Lemma nl_cross_le q m2 m b X : 0 < m2 -> 0 < b -> q * m2 <= m -> m * b = m2 * X -> q * b <= X.
Proof. intros. apply (Z.mul_le_mono_pos_l _ _ m2); [assumption|]. nia. Qed.

Lemma nl_cross_lt q m2 m b X : 0 < m2 -> 0 < b -> m < q * m2 -> m * b = m2 * X -> X < q * b.
Proof. intros. apply (Z.mul_lt_mono_pos_l m2); [assumption|]. nia. Qed.

Lemma nl_up q a b P X : 0 < q -> 0 < b -> 0 < X -> q * b <= a * X -> a < P -> q < P * X.
Proof. intros. assert (a * X < P * X) by nia. nia. Qed.

Lemma nl_down q a b P X : 0 < a -> 0 <= q -> 0 < X -> 0 < P -> b < P -> a * (X * P) < (q + 1) * b -> X <= q.
Proof.
  intros. destruct (Z_le_gt_dec X q); [assumption|exfalso].
  assert ((q + 1) * b <= X * b) by (destruct (Z_le_gt_dec b 0); nia).
  assert (X * b < X * P) by nia. assert (X * P <= a * (X * P)) by nia. lia.
Qed.

Lemma nl_near W U V b : 0 < W -> 0 < b -> U * b = V * W -> 2 * U <= W -> 2 * V <= b.
Proof. intros. apply (Z.mul_le_mono_pos_r _ _ W); [assumption|]. nia. Qed.

Lemma nl_cancel x y c q b : 0 < c -> 0 < b -> x * c <= q -> q * b <= y * c -> x * b <= y.
Proof. intros. apply (Z.mul_le_mono_pos_r _ _ c); [assumption|]. nia. Qed.

(** ** Where a quotient lies *)
Definition loc_of (r b : Z) : location :=
  if r =? 0 then loc_Exact else loc_Inexact (2 * r ?= b).

(** [m] and [l] describe the quotient A / B: integer part and where the rest lies *)
Definition inb (A B m : Z) (l : location) : Prop :=
  0 < B /\ 0 <= m /\ 0 <= A - m * B < B /\ l = loc_of (A - m * B) B.

Lemma inb_exact m : 0 <= m -> inb m 1 m loc_Exact.
Proof. intros. unfold inb, loc_of. replace (m - m * 1) with 0 by lia. repeat split; lia. Qed.

Lemma inb_unique A B m l m' : inb A B m l -> 0 <= A - m' * B < B -> m = m'.
Proof. intros (H1 & _ & H2 & _) H3. nia. Qed.

Lemma record_loc r : shr_record_of_loc (shr_m r) (loc_of_shr_record r) = r.
Proof. destruct r as [m [] []]; reflexivity. Qed.

Lemma shr_1_spec m r s : 0 <= m ->
  shr_1 (Build_shr_record m r s) = Build_shr_record (m / 2) (Z.odd m) (r || s).
Proof.
  intros H. destruct m as [|p|p]; [reflexivity| |lia].
  destruct p as [p|p|]; cbn [shr_1].
  - f_equal. rewrite (Pos2Z.inj_xI p). replace (2 * Zpos p + 1) with (1 + Zpos p * 2) by lia.
    rewrite Z.div_add by lia. cbn. reflexivity.
  - f_equal. rewrite (Pos2Z.inj_xO p). replace (2 * Zpos p) with (Zpos p * 2) by lia.
    rewrite Z.div_mul by lia. reflexivity.
  - reflexivity.
Qed.

Lemma inb_shr1 A B r : inb A B (shr_m r) (loc_of_shr_record r) ->
  inb A (2 * B) (shr_m (shr_1 r)) (loc_of_shr_record (shr_1 r)).
Proof.
  destruct r as [m rb sb]; cbn [shr_m]. intros (HB & Hm & Hr & HL).
  rewrite shr_1_spec by lia. cbn [shr_m].
  pose proof (Z.div_mod m 2 ltac:(lia)) as DM. pose proof (Z.mod_pos_bound m 2 ltac:(lia)) as MB.
  rewrite Zmod_odd in DM, MB. set (q := m / 2) in *.
  set (rem := A - m * B) in *.
  assert (Hq : 0 <= q) by (destruct (Z.odd m); lia).
  assert (E : A - q * (2 * B) = (if Z.odd m then B else 0) + rem)
    by (unfold rem; destruct (Z.odd m); nia).
  unfold inb. rewrite E. split; [lia|]. split; [lia|].
  split; [destruct (Z.odd m); lia|].
  unfold loc_of in HL |- *.
  assert (RS : rb || sb = negb (rem =? 0)).
  { destruct (Z.eqb_spec rem 0); destruct rb, sb; cbn in *; congruence. }
  rewrite RS. destruct (Z.odd m).
  - destruct (Z.eqb_spec rem 0) as [->|N]; cbn [negb loc_of_shr_record].
    + destruct (Z.eqb_spec (B + 0) 0); [lia|].
      replace (2 * (B + 0) ?= 2 * B) with Eq; [reflexivity|].
      symmetry. apply Z.compare_eq_iff. lia.
    + destruct (Z.eqb_spec (B + rem) 0); [lia|].
      replace (2 * (B + rem) ?= 2 * B) with Gt; [reflexivity|].
      symmetry. apply Z.compare_gt_iff. lia.
  - rewrite Z.add_0_l. destruct (Z.eqb_spec rem 0) as [->|N]; cbn [negb loc_of_shr_record]; [reflexivity|].
    replace (2 * rem ?= 2 * B) with Lt; [reflexivity|].
    symmetry. apply Z.compare_lt_iff. lia.
Qed.

Lemma iter_pos_ind {X} (f : X -> X) (P : Z -> X -> Prop)
  (HS : forall k x, P k x -> P (k + 1) (f x)) :
  forall n k x, P k x -> P (k + Zpos n) (iter_pos f n x).
Proof.
  induction n as [n IH|n IH|]; intros k x H; cbn [iter_pos].
  - replace (k + Zpos n~1) with (k + 1 + Zpos n + Zpos n) by lia. apply IH, IH, HS, H.
  - replace (k + Zpos n~0) with (k + Zpos n + Zpos n) by lia. apply IH, IH, H.
  - apply HS, H.
Qed.

Lemma inb_shr A B m l n e : 0 <= n -> inb A B m l ->
  let r := fst (shr (shr_record_of_loc m l) e n) in
  inb A (B * 2 ^ n) (shr_m r) (loc_of_shr_record r) /\
  snd (shr (shr_record_of_loc m l) e n) = e + n.
Proof.
  intros Hn H.
  assert (Hm : shr_m (shr_record_of_loc m l) = m) by (destruct l as [|[]]; reflexivity).
  assert (Hl : loc_of_shr_record (shr_record_of_loc m l) = l) by (destruct l as [|[]]; reflexivity).
  destruct n as [|n|n]; [| |lia]; cbn [shr fst snd].
  - rewrite Hm, Hl. rewrite Z.pow_0_r, Z.mul_1_r. split; [exact H|lia].
  - split; [|reflexivity].
    pose proof (iter_pos_ind shr_1
      (fun k r => 0 <= k /\ inb A (B * 2 ^ k) (shr_m r) (loc_of_shr_record r))) as I.
    destruct (I ltac:(intros k r [Hk HI]; split; [lia|];
      rewrite pow2_split by lia; change (2 ^ 1) with 2;
      replace (B * (2 ^ k * 2)) with (2 * (B * 2 ^ k)) by lia; apply inb_shr1; exact HI)
      n 0 (shr_record_of_loc m l)) as [_ R].
    + split; [lia|]. rewrite Hm, Hl, Z.pow_0_r, Z.mul_1_r. exact H.
    + exact R.
Qed.

(** ** Rounding to nearest *)
Lemma round_near A B m l : inb A B m l ->
  let M := round_nearest_even m l in
  m <= M <= m + 1 /\ 2 * Z.abs (M * B - A) <= B /\ (A = m * B -> M = m).
Proof.
  intros (HB & Hm & Hr & HL). unfold loc_of in HL. set (r := A - m * B) in *.
  assert (HA : A = m * B + r) by (unfold r; lia). clearbody r. subst A. subst l.
  destruct (Z.eqb_spec r 0) as [->|N].
  - cbn [round_nearest_even]. split; [lia|]. split; [|intros; lia].
    replace (m * B - (m * B + 0)) with 0 by lia. cbn. lia.
  - cbn [round_nearest_even]. destruct (Z.compare_spec (2 * r) B) as [E|E|E].
    + destruct (Z.even m); (split; [lia|]); (split; [|intros; lia]); nia.
    + split; [lia|]. split; [|intros; lia]. replace (m * B - (m * B + r)) with (- r) by lia. lia.
    + split; [lia|]. split; [|intros; lia].
      replace ((m + 1) * B - (m * B + r)) with (B - r) by lia. lia.
Qed.

Section Format.
Variables p em : Z.
Hypothesis Hp : 2 <= p.
Hypothesis He : p + 2 <= em.

Lemma emin_val : emin p em = 3 - em - p.
Proof. reflexivity. Qed.

Lemma fexp_norm e : 3 - em <= e -> fexp p em e = e - p.
Proof. intros. unfold fexp, emin. lia. Qed.

(** Rounding a quotient with at least p digits, away from underflow and overflow. *)
Lemma round_aux_near s A B q ex l :
  inb A B q l -> 0 < q -> p <= Zdigits2 q ->
  3 - em <= Zdigits2 q + ex -> Zdigits2 q + ex + 1 <= em ->
  let n := Zdigits2 q - p in
  exists M, 2 ^ (p - 1) <= M <= 2 ^ p /\
    2 * Z.abs (M * (B * 2 ^ n) - A) <= B * 2 ^ n /\
    exists mf ef,
      binary_round_aux p em s q ex l = S754_finite s mf ef /\
      ((ef = ex + n /\ Zpos mf = M) \/ (ef = ex + n + 1 /\ M = 2 ^ p /\ Zpos mf = 2 ^ (p - 1))).
Proof.
  intros H Hq HD HU HO n. unfold binary_round_aux, shr_fexp at 1.
  rewrite (fexp_norm (Zdigits2 q + ex)) by lia.
  replace (Zdigits2 q + ex - p - ex) with n by (unfold n; lia).
  destruct (inb_shr A B q l n ex ltac:(unfold n; lia) H) as [I E].
  destruct (shr (shr_record_of_loc q l) ex n) as [r e'] eqn:ES. cbn [fst snd] in I, E. subst e'.
  pose proof (round_near _ _ _ _ I) as RN. cbv zeta in RN.
  set (M := round_nearest_even (shr_m r) (loc_of_shr_record r)) in *.
  destruct RN as (R1 & R2 & _).
  destruct (digits_bounds q Hq) as [[DB1 DB2] DB3].
  destruct H as (HB & _ & HR & _). destruct I as (_ & I1 & I2 & _).
  assert (Pn : 0 < 2 ^ n) by (apply pow2_pos; unfold n; lia).
  assert (Q1 : 2 ^ (p - 1) * 2 ^ n <= q).
  { rewrite <- pow2_split by (unfold n; lia). replace (p - 1 + n) with (Zdigits2 q - 1) by (unfold n; lia). lia. }
  assert (Q2 : q < 2 ^ p * 2 ^ n).
  { rewrite <- pow2_split by (unfold n; lia). replace (p + n) with (Zdigits2 q) by (unfold n; lia). lia. }
  assert (M1 : 2 ^ (p - 1) <= shr_m r).
  { assert (2 ^ (p - 1) * (B * 2 ^ n) <= A) by nia. 
    assert (2 ^ (p - 1) < shr_m r + 1); [|lia]. nia. }
  assert (M2 : shr_m r < 2 ^ p).
  { assert (A < 2 ^ p * (B * 2 ^ n)).
    { assert (q + 1 <= 2 ^ p * 2 ^ n) by lia. nia. }
    nia. }
  exists M. split; [lia|]. split; [exact R2|].
  assert (MP : 0 < M) by (pose proof (pow2_pos (p - 1) ltac:(lia)); lia).
  unfold shr_fexp.
  destruct (Z.eq_dec M (2 ^ p)) as [EM|NM].
  - assert (DM : Zdigits2 M = p + 1).
    { rewrite EM. replace (2 ^ p) with (1 * 2 ^ p) by lia. rewrite digits_shift by lia. change (Zdigits2 1) with 1. lia. }
    rewrite DM, fexp_norm by (unfold n in *; lia).
    replace (p + 1 + (ex + n) - p - (ex + n)) with 1 by lia.
    destruct (inb_shr M 1 M loc_Exact 1 (ex + n) ltac:(lia) (inb_exact M ltac:(lia))) as [J F].
    destruct (shr (shr_record_of_loc M loc_Exact) (ex + n) 1) as [r2 e2]. cbn [fst snd] in J, F. subst e2.
    assert (shr_m r2 = 2 ^ (p - 1)).
    { eapply inb_unique; [exact J|]. rewrite EM. replace p with (1 + (p - 1)) at 1 3 by lia.
      rewrite pow2_split by lia. lia. }
    rewrite H. pose proof (pow2_pos (p - 1) ltac:(lia)) as PP.
    destruct (2 ^ (p - 1)) as [|mm|mm] eqn:EP; try lia.
    assert (LE : (ex + n + 1 <=? em - p) = true) by (apply Z.leb_le; unfold n; lia).
    rewrite LE. exists mm, (ex + n + 1). split; [reflexivity|]. right. repeat split; assumption.
  - assert (DM : Zdigits2 M = p).
    { pose proof (digits_ge M (p - 1) MP ltac:(lia)). pose proof (digits_le M p MP ltac:(lia) ltac:(lia)). lia. }
    rewrite DM, fexp_norm by (unfold n in *; lia).
    replace (p + (ex + n) - p - (ex + n)) with 0 by lia. cbn [shr shr_record_of_loc shr_m].
    destruct M as [|mm|mm]; try lia.
    assert (LE : (ex + n <=? em - p) = true) by (apply Z.leb_le; unfold n; lia).
    rewrite LE. exists mm, (ex + n). split; [reflexivity|]. left. split; reflexivity.
Qed.

(** ** Integers are represented exactly *)
(** [f] is the exact value of the integer [v] *)
Definition rep (f : spec_float) (v : Z) : Prop :=
  match f with
  | S754_zero _ => v = 0
  | S754_finite s m e => v <> 0 /\ s = (v <? 0) /\ e <= 0 /\ Zpos m = Z.abs v * 2 ^ (- e)
  | _ => False
  end.

Lemma shr_nonpos r e n : n <= 0 -> shr r e n = (r, e).
Proof. destruct n; intros; try reflexivity. lia. Qed.

Lemma round_aux_exact s v k : 0 < v < 2 ^ p -> 0 <= k ->
  exists m e, binary_round_aux p em s (v * 2 ^ k) (- k) loc_Exact = S754_finite s m e /\
    e <= 0 /\ Zpos m = v * 2 ^ (- e).
Proof.
  intros Hv Hk. pose proof (pow2_pos k Hk) as Pk.
  destruct (digits_bounds v ltac:(lia)) as [_ D1].
  pose proof (digits_le v p ltac:(lia) ltac:(lia) ltac:(lia)) as D2.
  assert (Pvk : 0 < v * 2 ^ k) by (apply Z.mul_pos_pos; lia).
  unfold binary_round_aux, shr_fexp at 1.
  rewrite digits_shift by lia.
  replace (Zdigits2 v + k + - k) with (Zdigits2 v) by lia.
  rewrite fexp_norm by lia.
  set (n := Zdigits2 v - p - - k).
  destruct (Z_le_gt_dec n 0) as [Hn|Hn].
  - rewrite (shr_nonpos _ _ n Hn). cbn [shr_m loc_of_shr_record shr_record_of_loc round_nearest_even].
    unfold shr_fexp. rewrite digits_shift by lia.
    replace (Zdigits2 v + k + - k) with (Zdigits2 v) by lia.
    rewrite fexp_norm by lia. fold n. rewrite (shr_nonpos _ _ n Hn). cbn [shr_m shr_record_of_loc].
    destruct (v * 2 ^ k) as [|m|m] eqn:E; try lia.
    assert (LE : (- k <=? em - p) = true) by (apply Z.leb_le; lia). rewrite LE.
    exists m, (- k). split; [reflexivity|]. split; [lia|]. rewrite Z.opp_involutive. lia.
  - destruct (inb_shr (v * 2 ^ k) 1 (v * 2 ^ k) loc_Exact n (- k) ltac:(lia)
      (inb_exact (v * 2 ^ k) ltac:(lia))) as [I F].
    destruct (shr (shr_record_of_loc (v * 2 ^ k) loc_Exact) (- k) n) as [r e']. cbn [fst snd] in I, F.
    subst e'. rewrite Z.mul_1_l in I.
    pose proof (pow2_pos n ltac:(lia)) as Pn.
    assert (KN : 0 <= k - n) by (unfold n; lia).
    assert (SP : v * 2 ^ k = v * 2 ^ (k - n) * 2 ^ n)
      by (rewrite <- Z.mul_assoc, <- pow2_split by lia; f_equal; f_equal; lia).
    assert (EM : shr_m r = v * 2 ^ (k - n)).
    { eapply inb_unique; [exact I|]. rewrite SP. lia. }
    assert (EL : loc_of_shr_record r = loc_Exact).
    { destruct I as (_ & _ & _ & L). rewrite L, EM, SP. unfold loc_of.
      replace (v * 2 ^ (k - n) * 2 ^ n - v * 2 ^ (k - n) * 2 ^ n) with 0 by lia. reflexivity. }
    rewrite EM, EL. cbn [round_nearest_even]. unfold shr_fexp.
    rewrite digits_shift by lia.
    replace (Zdigits2 v + (k - n) + (- k + n)) with (Zdigits2 v) by lia.
    rewrite fexp_norm by lia.
    rewrite shr_nonpos by (unfold n; lia). cbn [shr_m shr_record_of_loc].
    pose proof (pow2_pos (k - n) KN).
    assert (0 < v * 2 ^ (k - n)) by nia.
    destruct (v * 2 ^ (k - n)) as [|m|m] eqn:E; try lia.
    assert (LE : (- k + n <=? em - p) = true) by (apply Z.leb_le; lia). rewrite LE.
    exists m, (- k + n). split; [reflexivity|]. split; [lia|].
    replace (- (- k + n)) with (k - n) by lia. lia.
Qed.

Lemma round_exact s v k m : 0 < v < 2 ^ p -> 0 <= k -> Zpos m = v * 2 ^ k ->
  exists m' e', binary_round p em s m (- k) = S754_finite s m' e' /\
    e' <= 0 /\ Zpos m' = v * 2 ^ (- e').
Proof.
  intros Hv Hk Hm.
  destruct (digits_bounds v ltac:(lia)) as [_ D1].
  pose proof (digits_le v p ltac:(lia) ltac:(lia) ltac:(lia)) as D2.
  unfold binary_round.
  assert (DM : Zpos (digits2_pos m) = Zdigits2 v + k).
  { change (Zpos (digits2_pos m)) with (Zdigits2 (Zpos m)). rewrite Hm. apply digits_shift; lia. }
  rewrite DM. replace (Zdigits2 v + k + - k) with (Zdigits2 v) by lia.
  rewrite fexp_norm by lia. unfold shl_align.
  destruct (Zdigits2 v - p - - k) as [|d|d] eqn:ED.
  - rewrite Hm. apply round_aux_exact; lia.
  - rewrite Hm. apply round_aux_exact; lia.
  - rewrite shift_pos_correct, Hm. change (Z.pow_pos 2 d) with (2 ^ Zpos d).
    replace (2 ^ Zpos d * (v * 2 ^ k)) with (v * 2 ^ (Zpos d + k))
      by (rewrite pow2_split by lia; ring).
    replace (Zdigits2 v - p) with (- (Zpos d + k)) by lia.
    apply round_aux_exact; lia.
Qed.

Lemma normalize_rep v k b : Z.abs v < 2 ^ p -> 0 <= k ->
  rep (binary_normalize p em (v * 2 ^ k) (- k) b) v.
Proof.
  intros Hv Hk. pose proof (pow2_pos k Hk) as Pk.
  destruct (Z.eq_dec v 0) as [->|N]; [reflexivity|].
  destruct (v * 2 ^ k) as [|m|m] eqn:E; [nia| |]; cbn [binary_normalize].
  - assert (0 < v) by nia.
    destruct (round_exact false v k m ltac:(lia) Hk ltac:(lia)) as (m' & e' & -> & H1 & H2).
    cbn [rep]. rewrite Z.abs_eq by lia. repeat split; try assumption.
    symmetry. apply Z.ltb_ge. lia.
  - assert (v < 0) by nia.
    destruct (round_exact true (- v) k m ltac:(lia) Hk ltac:(lia)) as (m' & e' & -> & H1 & H2).
    cbn [rep]. replace (Z.abs v) with (- v) by lia. repeat split; try assumption.
    symmetry. apply Z.ltb_lt. lia.
Qed.

Lemma rep_0 f : rep f 0 -> exists s, f = S754_zero s.
Proof. destruct f; cbn [rep]; intros H; try tauto. eexists; reflexivity. Qed.

Lemma rep_fin f v : v <> 0 -> rep f v ->
  exists m e, f = S754_finite (v <? 0) m e /\ e <= 0 /\ Zpos m = Z.abs v * 2 ^ (- e).
Proof.
  destruct f as [s|s| |s m e]; cbn [rep]; intros N H; try tauto.
  destruct H as (_ & -> & H1 & H2). eauto.
Qed.

Lemma rep_aligned s m e v z : rep (S754_finite s m e) v -> z <= e ->
  cond_Zopp s (Zpos (fst (shl_align m e z))) = v * 2 ^ (- z).
Proof.
  intros (N & -> & He' & Hm) Hz.
  assert (Q : Zpos (fst (shl_align m e z)) = Z.abs v * 2 ^ (- z)).
  { unfold shl_align. destruct (z - e) as [|d|d] eqn:E; cbn [fst]; [|lia|].
    - replace z with e by lia. exact Hm.
    - rewrite shift_pos_correct, Hm. change (Z.pow_pos 2 d) with (2 ^ Zpos d).
      replace (- z) with (Zpos d + - e) by lia. rewrite (pow2_split (Zpos d)) by lia. ring. }
  rewrite Q. unfold cond_Zopp. destruct (Z.ltb_spec v 0).
  - replace (Z.abs v) with (- v) by lia. ring.
  - rewrite Z.abs_eq by lia. reflexivity.
Qed.

Lemma opp_rep f v : rep f v -> rep (SFopp f) (- v).
Proof.
  destruct f as [s|s| |s m e]; cbn [rep SFopp]; intros H; try tauto; [lia|].
  destruct H as (N & -> & H1 & H2). rewrite Z.abs_opp. repeat split; try assumption; [lia|].
  destruct (Z.ltb_spec v 0), (Z.ltb_spec (- v) 0); cbn; lia.
Qed.

Lemma add_rep x y a b : rep x a -> rep y b -> Z.abs (a + b) < 2 ^ p ->
  rep (SFadd p em x y) (a + b).
Proof.
  intros Hx Hy Hs.
  destruct x as [s1|s1| |s1 m1 e1]; try (cbn [rep] in Hx; tauto);
  destruct y as [s2|s2| |s2 m2 e2]; try (cbn [rep] in Hy; tauto); cbn [SFadd].
  - cbn [rep] in Hx, Hy. subst. destruct (Bool.eqb s1 s2); reflexivity.
  - cbn [rep] in Hx. subst. exact Hy.
  - cbn [rep] in Hy. subst. rewrite Z.add_0_r. exact Hx.
  - rewrite (rep_aligned _ _ _ a) by (try exact Hx; lia).
    rewrite (rep_aligned _ _ _ b) by (try exact Hy; lia).
    rewrite <- Z.mul_add_distr_r.
    replace (Z.min e1 e2) with (- (- Z.min e1 e2)) at 2 by lia.
    apply normalize_rep; [exact Hs|]. destruct Hx as (_ & _ & ? & _), Hy as (_ & _ & ? & _). lia.
Qed.

Lemma sub_rep x y a b : rep x a -> rep y b -> Z.abs (a - b) < 2 ^ p ->
  rep (SFsub p em x y) (a - b).
Proof.
  intros Hx Hy Hs.
  destruct x as [s1|s1| |s1 m1 e1]; try (cbn [rep] in Hx; tauto);
  destruct y as [s2|s2| |s2 m2 e2]; try (cbn [rep] in Hy; tauto); cbn [SFsub].
  - cbn [rep] in Hx, Hy. subst. destruct (Bool.eqb s1 (negb s2)); reflexivity.
  - pose proof (opp_rep _ _ Hy) as O. cbn [rep] in Hx. subst a. exact O.
  - cbn [rep] in Hy. subst. rewrite Z.sub_0_r. exact Hx.
  - rewrite (rep_aligned _ _ _ a) by (try exact Hx; lia).
    rewrite (rep_aligned _ _ _ b) by (try exact Hy; lia).
    rewrite <- Z.mul_sub_distr_r.
    replace (Z.min e1 e2) with (- (- Z.min e1 e2)) at 2 by lia.
    apply normalize_rep; [exact Hs|]. destruct Hx as (_ & _ & ? & _), Hy as (_ & _ & ? & _). lia.
Qed.

Lemma sign_mul a b : a <> 0 -> b <> 0 -> xorb (a <? 0) (b <? 0) = (a * b <? 0).
Proof.
  intros Ha Hb. destruct (Z.ltb_spec a 0), (Z.ltb_spec b 0), (Z.ltb_spec (a * b) 0); cbn; try reflexivity; nia.
Qed.

Lemma mul_rep x y a b : rep x a -> rep y b -> Z.abs (a * b) < 2 ^ p ->
  rep (SFmul p em x y) (a * b).
Proof.
  intros Hx Hy Hs.
  destruct x as [s1|s1| |s1 m1 e1]; try (cbn [rep] in Hx; tauto);
  destruct y as [s2|s2| |s2 m2 e2]; try (cbn [rep] in Hy; tauto); cbn [SFmul].
  - cbn [rep] in *. subst. reflexivity.
  - cbn [rep] in *. subst. reflexivity.
  - cbn [rep] in *. subst. lia.
  - destruct Hx as (Na & -> & E1 & M1), Hy as (Nb & -> & E2 & M2).
    rewrite sign_mul by assumption. rewrite Pos2Z.inj_mul, M1, M2.
    replace (Z.abs a * 2 ^ (- e1) * (Z.abs b * 2 ^ (- e2)))
      with (Z.abs (a * b) * 2 ^ (- (e1 + e2)))
      by (replace (- (e1 + e2)) with (- e1 + - e2) by lia; rewrite pow2_split, Z.abs_mul by lia; ring).
    replace (e1 + e2) with (- - (e1 + e2)) at 2 by lia.
    destruct (round_aux_exact (a * b <? 0) (Z.abs (a * b)) (- (e1 + e2)) ltac:(nia) ltac:(lia))
      as (m & e & -> & H1 & H2).
    cbn [rep]. repeat split; try assumption. nia.
Qed.

(** ** Division *)
Lemma new_location_spec A B : 0 < B -> 0 <= A ->
  inb A B (A / B) (new_location B (A mod B)).
Proof.
  intros HB HA. pose proof (Z.div_mod A B ltac:(lia)) as D. pose proof (Z.mod_pos_bound A B HB) as R.
  pose proof (Z.div_pos A B HA HB).
  assert (E : A - A / B * B = A mod B) by lia.
  unfold inb. rewrite E. repeat split; try lia.
  unfold new_location, new_location_even, new_location_odd, loc_of, Zeq_bool.
  set (k := A mod B) in *. clearbody k.
  destruct (Z.even B) eqn:EV; cbv beta;
    destruct (Z.compare_spec k 0) as [E0|E0|E0]; destruct (Z.eqb_spec k 0); try lia; try reflexivity.
  f_equal. apply Bool.not_true_iff_false in EV.
  destruct (Z.compare_spec (2 * k + 1) B), (Z.compare_spec (2 * k) B); try reflexivity; try lia.
  exfalso. apply EV. subst B. apply Z.even_spec. exists k. lia.
Qed.

Lemma div_near x y a b : rep x a -> rep y b -> a <> 0 -> b <> 0 ->
  Z.abs a < 2 ^ p -> Z.abs b < 2 ^ p ->
  exists M F mf ef,
    SFdiv p em x y = S754_finite (a * b <? 0) mf ef /\ 0 <= F /\
    2 * Z.abs (M * Z.abs b - Z.abs a * 2 ^ F) <= Z.abs b /\
    2 ^ (p - 1) * Z.abs b <= Z.abs a * 2 ^ F /\
    ((ef = - F /\ Zpos mf = M) \/ (ef = 1 - F /\ 2 * Zpos mf = M /\ M = 2 ^ p)).
Proof.
  intros Hx Hy Na Nb Ba Bb.
  destruct (rep_fin _ _ Na Hx) as (m1 & e1 & -> & E1 & M1).
  destruct (rep_fin _ _ Nb Hy) as (m2 & e2 & -> & E2 & M2).
  set (a' := Z.abs a) in *. set (b' := Z.abs b) in *.
  assert (Pa : 0 < a') by lia. assert (Pb : 0 < b') by lia.
  cbn [SFdiv]. rewrite sign_mul by assumption.
  pose proof (digits_bounds a' Pa) as [_ Da1]. pose proof (digits_bounds b' Pb) as [_ Db1].
  pose proof (digits_le a' p Pa ltac:(lia) Ba) as Da. pose proof (digits_le b' p Pb ltac:(lia) Bb) as Db.
  unfold SFdiv_core_binary.
  assert (D1 : Zdigits2 (Zpos m1) = Zdigits2 a' - e1) by (rewrite M1, digits_shift by lia; lia).
  assert (D2 : Zdigits2 (Zpos m2) = Zdigits2 b' - e2) by (rewrite M2, digits_shift by lia; lia).
  rewrite D1, D2.
  replace (Zdigits2 a' - e1 + e1 - (Zdigits2 b' - e2 + e2)) with (Zdigits2 a' - Zdigits2 b') by lia.
  rewrite fexp_norm by lia.
  set (e' := Z.min (Zdigits2 a' - Zdigits2 b' - p) (e1 - e2)).
  set (s := e1 - e2 - e').
  assert (Hs : 0 <= s) by (unfold s, e'; lia).
  assert (He' : e' <= 0) by (unfold e'; lia).
  set (m' := Zpos m1 * 2 ^ s).
  assert (EM : match s with Zpos _ => Z.shiftl (Zpos m1) s | Z0 => Zpos m1 | Zneg _ => 0 end = m').
  { unfold m'. destruct s as [|s0|s0]; [lia| |lia]. rewrite Z.shiftl_mul_pow2 by lia. reflexivity. }
  rewrite EM.
  pose proof (pow2_pos s Hs) as Ps.
  assert (Pm' : 0 < m') by (unfold m'; apply Z.mul_pos_pos; lia).
  (* the quotient *)
  assert (LOW : 2 ^ (p - 1) * Zpos m2 <= m').
  { pose proof (digits_bounds (Zpos m1) ltac:(lia)) as [[B1 _] B1'].
    pose proof (digits_bounds (Zpos m2) ltac:(lia)) as [[_ B2] B2'].
    unfold m'.
    assert (2 ^ (p - 1) * 2 ^ Zdigits2 (Zpos m2) <= 2 ^ (Zdigits2 (Zpos m1) - 1) * 2 ^ s).
    { rewrite <- !pow2_split by lia. apply Z.pow_le_mono_r; [lia|]. rewrite D1, D2. unfold s, e'. lia. }
    pose proof (pow2_pos (p - 1) ltac:(lia)). eapply nl_low; [| | | |exact H]; lia. }
  assert (CROSS : m' * b' = Zpos m2 * (a' * 2 ^ (- e'))).
  { unfold m'. rewrite M1, M2.
    replace (a' * 2 ^ (- e1) * 2 ^ s * b') with (a' * b' * (2 ^ (- e1) * 2 ^ s)) by ring.
    replace (b' * 2 ^ (- e2) * (a' * 2 ^ (- e'))) with (a' * b' * (2 ^ (- e2) * 2 ^ (- e'))) by ring.
    f_equal. rewrite <- !pow2_split by lia. f_equal. unfold s. lia. }
  pose proof (new_location_spec m' (Zpos m2) ltac:(lia) ltac:(lia)) as INB.
  assert (DE : Z.div_eucl m' (Zpos m2) = (m' / Zpos m2, m' mod Zpos m2)).
  { unfold Z.div, Z.modulo. destruct (Z.div_eucl m' (Zpos m2)). reflexivity. }
  rewrite DE. set (q := m' / Zpos m2) in *.
  assert (Hq : 2 ^ (p - 1) <= q) by (unfold q; apply Z.div_le_lower_bound; lia).
  pose proof (pow2_pos (p - 1) ltac:(lia)) as Pp1.
  assert (QD : q * Zpos m2 <= m') by (unfold q; rewrite Z.mul_comm; apply Z.mul_div_le; lia).
  assert (QU : m' < (q + 1) * Zpos m2).
  { pose proof (Z.mul_succ_div_gt m' (Zpos m2) ltac:(lia)) as G. fold q in G. lia. }
  assert (QA : q * b' <= a' * 2 ^ (- e')) by (apply (nl_cross_le q (Zpos m2) m'); [lia|assumption|exact QD|exact CROSS]).
  assert (QB : a' * 2 ^ (- e') < (q + 1) * b') by (apply (nl_cross_lt (q + 1) (Zpos m2) m'); [lia|assumption|exact QU|exact CROSS]).
  pose proof (pow2_pos (- e') ltac:(lia)) as Pe.
  assert (DQ : p <= Zdigits2 q) by (pose proof (digits_ge q (p - 1) ltac:(lia) Hq); lia).
  assert (UP : Zdigits2 q + e' <= p).
  { assert (Zdigits2 q <= p + - e'); [|lia]. apply digits_le; [lia|lia|].
    rewrite pow2_split by lia. apply (nl_up q a' b'); lia. }
  assert (DN : 3 - em <= Zdigits2 q + e').
  { destruct (Z_le_gt_dec (- e') p) as [L|L]; [lia|].
    assert (2 ^ (- e' - p) <= q).
    { assert (SP : 2 ^ (- e') = 2 ^ (- e' - p) * 2 ^ p) by (rewrite <- pow2_split by lia; f_equal; lia).
      pose proof (pow2_pos (- e' - p) ltac:(lia)). pose proof (pow2_pos p ltac:(lia)).
      rewrite SP in QB. apply (nl_down q a' b' (2 ^ p)); try assumption; lia. }
    pose proof (digits_ge q (- e' - p) ltac:(lia) H). lia. }
  destruct (round_aux_near (a * b <? 0) m' (Zpos m2) q e' _ INB ltac:(lia) DQ DN ltac:(lia))
    as (M & MB & NEAR & mf & ef & RES & CASES).
  set (n := Zdigits2 q - p) in *.
  exists M, (- (e' + n)), mf, ef. split; [exact RES|].
  assert (Fn : 0 <= - (e' + n)) by (unfold n; lia).
  split; [exact Fn|].
  assert (Hn : 0 <= n) by (unfold n; lia).
  pose proof (pow2_pos n Hn) as Pn.
  assert (SPL : 2 ^ (- e') = 2 ^ (- (e' + n)) * 2 ^ n) by (rewrite <- pow2_split by lia; f_equal; lia).
  set (PF := 2 ^ (- (e' + n))) in *.
  split; [|split].
  - assert (X : (M * (Zpos m2 * 2 ^ n) - m') * b' = (M * b' - a' * PF) * (Zpos m2 * 2 ^ n)).
    { rewrite Z.mul_sub_distr_r, CROSS, SPL. ring. }
    assert (Y : Z.abs (M * (Zpos m2 * 2 ^ n) - m') * b' = Z.abs (M * b' - a' * PF) * (Zpos m2 * 2 ^ n)).
    { rewrite <- (Z.abs_eq b') at 1 by lia. rewrite <- Z.abs_mul, X, Z.abs_mul.
      rewrite (Z.abs_eq (Zpos m2 * 2 ^ n)) by (apply Z.mul_nonneg_nonneg; lia). reflexivity. }
    set (W := Zpos m2 * 2 ^ n) in *. assert (0 < W) by (unfold W; apply Z.mul_pos_pos; lia).
    set (U := Z.abs (M * W - m')) in *. set (V := Z.abs (M * b' - a' * PF)) in *.
    apply (nl_near W U V); assumption.
  - assert (2 ^ (p - 1) * 2 ^ n <= q).
    { destruct (digits_bounds q ltac:(lia)) as [[L _] _]. rewrite <- pow2_split by lia.
      replace (p - 1 + n) with (Zdigits2 q - 1) by (unfold n; lia). exact L. }
    apply (nl_cancel _ _ (2 ^ n) q); [assumption|assumption|assumption|].
    rewrite SPL in QA. rewrite <- Z.mul_assoc. exact QA.
  - destruct CASES as [[-> C]|(-> & C1 & C2)]; [left|right].
    + split; [lia|exact C].
    + split; [lia|]. split; [|exact C1]. rewrite C1, C2.
      replace p with (1 + (p - 1)) at 2 by lia. rewrite pow2_split by lia. lia.
Qed.

Definition cdiv (a b : Z) : Z := - ((- a) / b).

(** the rounded quotient lies strictly between the same integers as the quotient *)
Lemma near_between a b M F : 0 < a < 2 ^ p -> 0 < b -> 0 <= F ->
  2 * Z.abs (M * b - a * 2 ^ F) <= b -> 2 ^ (p - 1) * b <= a * 2 ^ F ->
  forall q, (a = q * b -> M = q * 2 ^ F) /\
            (q * b < a < (q + 1) * b -> q * 2 ^ F < M < (q + 1) * 2 ^ F).
Proof.
  intros Ha Hb HF NEAR LOW q. pose proof (pow2_pos F HF) as PF.
  assert (SMALL : b < 2 * 2 ^ F).
  { replace p with (1 + (p - 1)) in Ha at 1 by lia. rewrite pow2_split in Ha by lia.
    pose proof (pow2_pos (p - 1) ltac:(lia)). nia. }
  split.
  - intros ->. assert (2 * Z.abs (M - q * 2 ^ F) * b <= b).
    { replace (M * b - q * b * 2 ^ F) with ((M - q * 2 ^ F) * b) in NEAR by ring.
      rewrite Z.abs_mul, (Z.abs_eq b) in NEAR by lia. lia. }
    nia.
  - intros [L U]. split.
    + destruct (Z_lt_le_dec (q * 2 ^ F) M) as [|N]; [assumption|exfalso].
      assert (M * b <= q * 2 ^ F * b) by nia. assert ((q * b + 1) * 2 ^ F <= a * 2 ^ F) by nia. nia.
    + destruct (Z_lt_le_dec M ((q + 1) * 2 ^ F)) as [|N]; [assumption|exfalso].
      assert ((q + 1) * 2 ^ F * b <= M * b) by nia. assert (a * 2 ^ F <= ((q + 1) * b - 1) * 2 ^ F) by nia. nia.
Qed.

Lemma between_floor a b M F : 0 < a < 2 ^ p -> 0 < b -> 0 <= F ->
  2 * Z.abs (M * b - a * 2 ^ F) <= b -> 2 ^ (p - 1) * b <= a * 2 ^ F ->
  M / 2 ^ F = a / b /\ cdiv M (2 ^ F) = cdiv a b.
Proof.
  intros Ha Hb HF NEAR LOW. pose proof (pow2_pos F HF) as PF.
  destruct (near_between a b M F Ha Hb HF NEAR LOW (a / b)) as [EX BT].
  pose proof (Z.div_mod a b ltac:(lia)) as DM. pose proof (Z.mod_pos_bound a b Hb) as MB.
  destruct (Z.eq_dec (a mod b) 0) as [Z0|NZ].
  - assert (a = a / b * b) by lia. rewrite (EX H). unfold cdiv. split; [apply Z.div_mul; lia|].
    f_equal. rewrite H at 2. rewrite <- !Z.mul_opp_l, !Z.div_mul by lia. reflexivity.
  - specialize (BT ltac:(lia)). unfold cdiv. split.
    + symmetry. apply Z.div_unique with (r := M - a / b * 2 ^ F); lia.
    + f_equal. transitivity (- (a / b + 1)).
      * symmetry. apply Z.div_unique with (r := (a / b + 1) * 2 ^ F - M); lia.
      * apply Z.div_unique with (r := (a / b + 1) * b - a); lia.
Qed.

(** an exact quotient is computed exactly *)
Lemma div_rep x y q b : rep x (q * b) -> rep y b -> b <> 0 ->
  Z.abs (q * b) < 2 ^ p -> Z.abs b < 2 ^ p -> rep (SFdiv p em x y) q.
Proof.
  intros Hx Hy Nb Ba Bb. destruct (Z.eq_dec q 0) as [->|Nq].
  - rewrite Z.mul_0_l in Hx. destruct (rep_0 _ Hx) as [s ->].
    destruct (rep_fin _ _ Nb Hy) as (m & e & -> & _ & _). reflexivity.
  - assert (Na : q * b <> 0) by nia.
    destruct (div_near x y (q * b) b Hx Hy Na Nb Ba Bb) as (M & F & mf & ef & -> & HF & NEAR & LOW & C).
    destruct (near_between (Z.abs (q * b)) (Z.abs b) M F ltac:(lia) ltac:(lia) HF NEAR LOW (Z.abs q))
      as [EX _]. specialize (EX ltac:(apply Z.abs_mul)).
    pose proof (pow2_pos F HF) as PF.
    assert (QP : Z.abs q < 2 ^ p) by (rewrite Z.abs_mul in Ba; nia).
    cbn [rep]. split; [exact Nq|]. split.
    { destruct (Z.ltb_spec (q * b * b) 0), (Z.ltb_spec q 0); try reflexivity; nia. }
    destruct C as [[-> C]|(-> & C1 & C2)].
    + split; [lia|]. rewrite Z.opp_involutive. lia.
    + assert (0 < F).
      { destruct (Z.eq_dec F 0) as [->|]; [|lia]. rewrite Z.pow_0_r, Z.mul_1_r in EX. lia. }
      split; [lia|]. replace (- (1 - F)) with (F - 1) by lia.
      replace F with (1 + (F - 1)) in EX by lia. rewrite pow2_split in EX by lia.
      change (2 ^ 1) with 2 in EX. lia.
Qed.

(** the number of steps computed through floating point *)
Lemma ceil_div x y a b : p <= 64 -> rep x a -> rep y b -> b <> 0 ->
  Z.abs a < 2 ^ p -> Z.abs b < 2 ^ p ->
  ceil_usize (SFdiv p em x y) = if 0 <=? cdiv a b then Ok (cdiv a b) else Panic.
Proof.
  intros P64 Hx Hy Nb Ba Bb.
  assert (PP : 2 ^ p <= 2 ^ 64) by (apply Z.pow_le_mono_r; lia).
  destruct (Z.eq_dec a 0) as [->|Na].
  { destruct (rep_0 _ Hx) as [s ->]. destruct (rep_fin _ _ Nb Hy) as (m & e & -> & _ & _).
    unfold cdiv. cbn [SFdiv ceil_usize]. rewrite Z.div_0_l by lia. reflexivity. }
  destruct (div_near x y a b Hx Hy Na Nb Ba Bb) as (M & F & mf & ef & -> & HF & NEAR & LOW & C).
  destruct (between_floor (Z.abs a) (Z.abs b) M F ltac:(lia) ltac:(lia) HF NEAR LOW) as [FL CL].
  pose proof (pow2_pos F HF) as PF.
  assert (CM : forall s : bool, ceil_Z (if s then Zneg mf else Zpos mf) ef
             = if s then - (M / 2 ^ F) else cdiv M (2 ^ F)).
  { intros s. unfold ceil_Z, cdiv. destruct C as [[-> C]|(-> & C1 & C2)].
    - destruct (Z.leb_spec 0 (- F)).
      + assert (F = 0) by lia. subst F. cbn [Z.opp]. rewrite !Z.pow_0_r, !Z.div_1_r.
        destruct s; lia.
      + rewrite Z.opp_involutive. rewrite <- C. destruct s; reflexivity.
    - destruct (Z.leb_spec 0 (1 - F)).
      + destruct (Z.eq_dec F 0) as [->|].
        * rewrite !Z.pow_0_r, !Z.div_1_r. change (2 ^ (1 - 0)) with 2. destruct s; lia.
        * assert (F = 1) by lia. subst F. change (2 ^ (1 - 1)) with 1. change (2 ^ 1) with 2.
          rewrite <- C1. replace (- (2 * Zpos mf)) with (- Zpos mf * 2) by lia.
          replace (2 * Zpos mf) with (Zpos mf * 2) by lia. rewrite !Z.div_mul by lia. destruct s; lia.
      + replace (2 ^ F) with (2 * 2 ^ (- (1 - F)))
          by (replace F with (1 + - (1 - F)) at 2 by lia; rewrite pow2_split by lia; reflexivity).
        pose proof (pow2_pos (- (1 - F)) ltac:(lia)).
        rewrite <- C1. replace (- (2 * Zpos mf)) with (2 * - Zpos mf) by lia.
        rewrite !Z.div_mul_cancel_l by lia. destruct s; reflexivity. }
  unfold ceil_usize. rewrite CM.
  assert (CV : (if a * b <? 0 then - (M / 2 ^ F) else cdiv M (2 ^ F)) = cdiv a b).
  { rewrite FL, CL. unfold cdiv. destruct (Z.ltb_spec (a * b) 0) as [S|S].
    - f_equal. destruct (Z_lt_le_dec a 0).
      + replace (Z.abs a) with (- a) by lia. rewrite (Z.abs_eq b) by nia. reflexivity.
      + rewrite (Z.abs_eq a) by lia. replace (Z.abs b) with (- b) by nia.
        rewrite <- (Z.div_opp_opp a (- b)) by lia. rewrite Z.opp_involutive. reflexivity.
    - f_equal. destruct (Z_lt_le_dec a 0).
      + replace (Z.abs a) with (- a) by lia. replace (Z.abs b) with (- b) by nia.
        rewrite Z.div_opp_opp by lia. reflexivity.
      + rewrite (Z.abs_eq a) by lia. rewrite (Z.abs_eq b) by nia. reflexivity. }
  rewrite CV.
  assert (UB : cdiv a b <= Z.abs a).
  { rewrite <- CV, FL, CL. destruct (a * b <? 0).
    - pose proof (Z.div_pos (Z.abs a) (Z.abs b) ltac:(lia) ltac:(lia)). lia.
    - unfold cdiv. assert (- Z.abs a <= - Z.abs a / Z.abs b); [|lia].
      apply Z.div_le_lower_bound; [lia|]. nia. }
  destruct (0 <=? cdiv a b) eqn:S; cbn [andb]; [|reflexivity].
  assert ((cdiv a b <? 2 ^ 64) = true) as -> by (apply Z.ltb_lt; lia). reflexivity.
Qed.
End Format.

Lemma of_Z_rep f v : 2 <= prec f -> prec f + 2 <= emax f -> Z.abs v < 2 ^ prec f -> rep (of_Z f v) v.
Proof.
  intros H1 H2 H. unfold of_Z. pose proof (normalize_rep (prec f) (emax f) H1 H2 v 0 false H ltac:(lia)) as R.
  rewrite Z.pow_0_r, Z.mul_1_r in R. exact R.
Qed.

Lemma convert_rep f x v : 2 <= prec f -> prec f + 2 <= emax f -> Z.abs v < 2 ^ prec f ->
  rep x v -> rep (convert f x) v.
Proof.
  intros H1 H2 H R. destruct x as [s|s| |s m e]; try exact R.
  destruct R as (N & -> & He & Hm). cbn [convert].
  destruct (round_exact (prec f) (emax f) H1 H2 (v <? 0) (Z.abs v) (- e) m ltac:(lia) ltac:(lia) Hm)
    as (m' & e' & E & HE & HM).
  rewrite Z.opp_involutive in E. rewrite E. cbn [rep]. repeat split; assumption.
Qed.

Definition std (f : fmt) : Prop := f = f32 \/ f = f64.

Lemma std_bounds f : std f -> 24 <= prec f <= 53 /\ prec f + 2 <= emax f.
Proof. intros [-> | ->]; cbn; lia. Qed.

Lemma std_pow f : std f -> 2 ^ 24 <= 2 ^ prec f.
Proof. intros [-> | ->]; cbn; lia. Qed.

(** ** Rounding outside the integers *)
Section Format2.
Variables p em : Z.
Hypothesis Hp : 2 <= p.
Hypothesis He : p + 2 <= em.

(** a mantissa of at most p digits is kept *)
Lemma round_keeps s m e : Zdigits2 (Zpos m) <= p ->
  3 - em <= Zdigits2 (Zpos m) + e -> Zdigits2 (Zpos m) + e <= em ->
  exists m', binary_round p em s m e = S754_finite s m' (Zdigits2 (Zpos m) + e - p) /\
    Zpos m' = Zpos m * 2 ^ (p - Zdigits2 (Zpos m)).
Proof.
  intros D L U. unfold binary_round.
  change (Zpos (digits2_pos m)) with (Zdigits2 (Zpos m)). set (d := Zdigits2 (Zpos m)) in *.
  rewrite (fexp_norm p em) by lia.
  assert (exists m', shl_align m e (d + e - p) = (m', d + e - p) /\ Zpos m' = Zpos m * 2 ^ (p - d))
    as (m' & E & M).
  { unfold shl_align. destruct (d + e - p - e) as [|k|k] eqn:EK; [|lia|].
    - exists m. split; [f_equal; lia|]. replace (p - d) with 0 by lia. lia.
    - exists (shift_pos k m). split; [reflexivity|]. rewrite shift_pos_correct.
      change (Z.pow_pos 2 k) with (2 ^ Zpos k). replace (p - d) with (Zpos k) by lia. ring. }
  rewrite E. exists m'. split; [|exact M].
  assert (D' : Zdigits2 (Zpos m') = p) by (rewrite M, digits_shift by lia; fold d; lia).
  unfold binary_round_aux, shr_fexp. rewrite D'. rewrite (fexp_norm p em) by lia.
  replace (p + (d + e - p) - p - (d + e - p)) with 0 by lia.
  cbn [shr shr_m loc_of_shr_record shr_record_of_loc round_nearest_even].
  rewrite D'. rewrite (fexp_norm p em) by lia.
  replace (p + (d + e - p) - p - (d + e - p)) with 0 by lia.
  cbn [shr shr_m shr_record_of_loc].
  rewrite (proj2 (Z.leb_le _ _)) by lia. reflexivity.
Qed.

(** rounding a value below one gives at most one *)
Lemma round_le_1 m e : p < Zdigits2 (Zpos m) ->
  3 - em <= Zdigits2 (Zpos m) + e -> Zdigits2 (Zpos m) + e <= 0 ->
  exists m' e', binary_round p em false m e = S754_finite false m' e' /\ e' <= 0 /\ Zpos m' <= 2 ^ (- e').
Proof.
  intros D L U. unfold binary_round.
  change (Zpos (digits2_pos m)) with (Zdigits2 (Zpos m)). set (d := Zdigits2 (Zpos m)) in *.
  rewrite (fexp_norm p em) by lia.
  assert (shl_align m e (d + e - p) = (m, e)) as ->.
  { unfold shl_align. destruct (d + e - p - e) eqn:EK; [reflexivity|reflexivity|lia]. }
  destruct (round_aux_near p em Hp He false (Zpos m) 1 (Zpos m) e loc_Exact (inb_exact (Zpos m) ltac:(lia)) ltac:(lia))
    as (M & MB & _ & mf & ef & -> & C); try (fold d; lia).
  fold d in C. exists mf, ef. split; [reflexivity|].
  destruct C as [[-> C]|(-> & C1 & C2)].
  - split; [lia|]. rewrite C. transitivity (2 ^ p); [lia|]. apply Z.pow_le_mono_r; lia.
  - split; [lia|]. rewrite C2. apply Z.pow_le_mono_r; lia.
Qed.
End Format2.
