(** FloatErr.v: how far one floating-point operation is from the exact one. *)
From Coq Require Import List Arith Lia Lqa Bool ZArith QArith Qpower Qabs Floats.SpecFloat.
From Verif Require Import Base Numeric NumericFacts.
Import ListNotations.
Open Scope Q_scope.

(** The rational number a finite float stands for. *)
Definition qval (x : spec_float) : option Q :=
  match x with
  | S754_zero _ => Some 0
  | S754_finite s m e => Some (inject_Z (if s then Zneg m else Zpos m) * 2 ^ e)
  | _ => None
  end.

(** ** Powers of two *)
Lemma two_pos e : 0 < 2 ^ e.
Proof. apply Qpower_0_lt. reflexivity. Qed.
Lemma two_add a b : 2 ^ (a + b) == 2 ^ a * 2 ^ b.
Proof. apply Qpower_plus. discriminate. Qed.
Lemma two_Z n : (0 <= n)%Z -> inject_Z (2 ^ n) == 2 ^ n.
Proof. intros. now rewrite Zpower_Qpower. Qed.
Lemma two_le a b : (a <= b)%Z -> 2 ^ a <= 2 ^ b.
Proof. intros. apply Qpower_le_compat_l; [assumption|discriminate]. Qed.
Lemma two_succ e : 2 ^ (e + 1) == 2 * 2 ^ e.
Proof. rewrite two_add, Qpower_1_r. ring. Qed.

Section Core.
Variables p em : Z.
Hypothesis Hp : (2 <= p)%Z.
Hypothesis He : (p + 2 <= em)%Z.

Open Scope Z_scope.

(** Rounding: the magnitude is A/B * 2^ex, of which m is the integer part.  The result is
    the nearest multiple of 2^E, where E is the exponent the format prescribes. *)
Lemma round_aux_core s A B m ex l : inb A B m l -> ex <= fexp p em (Zdigits2 m + ex) ->
  let E := fexp p em (Zdigits2 m + ex) in let r := binary_round_aux p em s m ex l in
  exists M, 0 <= M <= 2 ^ p /\ 2 * Z.abs (M * (B * 2 ^ (E - ex)) - A) <= B * 2 ^ (E - ex) /\
    (l = loc_Exact -> E = ex -> M = m) /\ (emin p em < E -> E = Zdigits2 m + ex - p /\ 0 < m /\ 2 ^ (p - 1) <= M) /\
    valid_binary p em r = true /\
    ((M = 0 /\ r = S754_zero s) \/
     (0 < M /\ exists mf ef, r = S754_finite s mf ef /\ ((ef = E /\ Zpos mf = M) \/ (ef = E + 1 /\ 2 * Zpos mf = M))) \/
     (r = S754_infinity s /\ (em - p < E /\ M < 2 ^ p \/ em - p <= E /\ M = 2 ^ p))).
Proof.
  intros H HE E r. assert (ER : r = binary_round_aux p em s m ex l) by reflexivity. clearbody r.
  unfold binary_round_aux, shr_fexp at 1 in ER. fold E in ER. set (n := E - ex) in *. assert (Hn : 0 <= n) by (unfold n, E; lia).
  destruct (inb_shr A B m l n ex Hn H) as [I EE].
  assert (EX : l = loc_Exact -> E = ex -> shr_record_of_loc m l = fst (shr (shr_record_of_loc m l) ex n) /\ loc_of_shr_record (fst (shr (shr_record_of_loc m l) ex n)) = loc_Exact /\ shr_m (fst (shr (shr_record_of_loc m l) ex n)) = m).
  { intros -> Q. unfold n. rewrite Q, Z.sub_diag. cbn. auto. }
  destruct (shr (shr_record_of_loc m l) ex n) as [rr e'] eqn:ES. cbn [fst snd] in I, EE, EX. subst e'.
  replace (ex + n) with E in ER by (unfold n; lia).
  pose proof (round_near _ _ _ _ I) as RN. cbv zeta in RN.
  set (M := round_nearest_even (shr_m rr) (loc_of_shr_record rr)) in *.
  destruct RN as (R1 & R2 & _).
  destruct H as (HB & Hm & HR & _). destruct I as (_ & I1 & I2 & _).
  pose proof (pow2_pos n Hn) as Pn.
  assert (FE : E = Z.max (Zdigits2 m + ex - p) (emin p em)) by reflexivity.
  assert (MD : shr_m rr * 2 ^ n <= m).
  { assert (shr_m rr * 2 ^ n < m + 1); [|lia]. nia. }
  assert (D0 : 0 <= Zdigits2 m /\ m < 2 ^ Zdigits2 m).
  { destruct (Z.eq_dec m 0) as [->|]; [cbn; lia|]. destruct (digits_bounds m ltac:(lia)) as [[_ D2] D3]. lia. }
  assert (M2 : shr_m rr < 2 ^ p).
  { assert (2 ^ Zdigits2 m <= 2 ^ p * 2 ^ n).
    { rewrite <- pow2_split by lia. apply Z.pow_le_mono_r; [lia|]. unfold n. lia. }
    nia. }
  exists M. split; [lia|]. split; [exact R2|]. split.
  { intros L Q. destruct (EX L Q) as (_ & Q1 & Q2). unfold M. rewrite Q1, Q2. reflexivity. }
  assert (G : emin p em < E -> E = Zdigits2 m + ex - p /\ 0 < m /\ 2 ^ (p - 1) <= M).
  { intros G. assert (Q : E = Zdigits2 m + ex - p) by lia. split; [exact Q|].
    assert (0 < m). { destruct (Z.eq_dec m 0) as [Z0|]; [|lia]. exfalso. rewrite Z0 in Q. cbn in Q. lia. }
    split; [assumption|]. destruct (digits_bounds m ltac:(lia)) as [[DB1 _] DB3].
    assert (Q1 : 2 ^ (p - 1) * 2 ^ n <= m).
    { rewrite <- pow2_split by lia. replace (p - 1 + n) with (Zdigits2 m - 1) by (unfold n; lia). lia. }
    assert (2 ^ (p - 1) * (B * 2 ^ n) <= A) by nia.
    assert (2 ^ (p - 1) < shr_m rr + 1); [|lia]. nia. }
  split; [exact G|].
  unfold shr_fexp in ER. fold M in ER.
  destruct (Z.eq_dec M (2 ^ p)) as [EM|NM].
  - assert (DM : Zdigits2 M = p + 1).
    { rewrite EM. replace (2 ^ p) with (1 * 2 ^ p) by lia. rewrite digits_shift by lia. change (Zdigits2 1) with 1. lia. }
    assert (FX : fexp p em (p + 1 + E) = E + 1) by (unfold fexp; lia).
    rewrite DM, FX in ER. replace (E + 1 - E) with 1 in ER by lia.
    destruct (inb_shr M 1 M loc_Exact 1 E ltac:(lia) (inb_exact M ltac:(lia))) as [J F].
    destruct (shr (shr_record_of_loc M loc_Exact) E 1) as [r2 e2]. cbn [fst snd] in J, F. subst e2.
    assert (SH : shr_m r2 = 2 ^ (p - 1)).
    { eapply inb_unique; [exact J|]. rewrite EM. replace p with (1 + (p - 1)) at 1 3 by lia.
      rewrite pow2_split by lia. lia. }
    assert (P2 : 2 ^ p = 2 * 2 ^ (p - 1)) by (replace p with (1 + (p - 1)) at 1 by lia; rewrite pow2_split by lia; reflexivity).
    rewrite SH in ER. pose proof (pow2_pos (p - 1) ltac:(lia)) as PP.
    destruct (2 ^ (p - 1)) as [|mm|mm] eqn:EP; try lia.
    destruct (Z.leb_spec (E + 1) (em - p)) as [LE|LE]; subst r.
    + split.
      * cbn [valid_binary]. unfold bounded, canonical_mantissa.
        assert (DD : Zpos (digits2_pos mm) = p).
        { change (Zpos (digits2_pos mm)) with (Zdigits2 (Zpos mm)). rewrite <- EP. replace (2 ^ (p - 1)) with (1 * 2 ^ (p - 1)) by lia.
          rewrite digits_shift by lia. change (Zdigits2 1) with 1. lia. }
        rewrite DD. apply andb_true_intro. split; [|now apply Z.leb_le]. apply Zeq_is_eq_bool. unfold fexp. lia.
      * right. left. split; [lia|]. exists mm, (E + 1). split; [reflexivity|]. right. split; [reflexivity|lia].
    + split; [reflexivity|]. right. right. split; [reflexivity|]. right. split; [lia|exact EM].
  - assert (DM : M = 0 \/ 0 < M /\ 1 <= Zdigits2 M <= p).
    { destruct (Z.eq_dec M 0); [now left|right]. split; [lia|]. split; [apply digits_bounds; lia|]. apply digits_le; lia. }
    assert (SN : shr (shr_record_of_loc M loc_Exact) E (fexp p em (Zdigits2 M + E) - E) = (shr_record_of_loc M loc_Exact, E)).
    { apply shr_nonpos. unfold fexp. destruct DM as [->|DM]; [cbn [Zdigits2]|]; lia. }
    rewrite SN in ER. cbn [shr_record_of_loc shr_m] in ER.
    destruct M as [|mm|mm] eqn:EQM; try lia.
    + subst r. split; [reflexivity|]. left. split; reflexivity.
    + destruct (Z.leb_spec E (em - p)) as [LE|LE]; subst r.
      * split.
        -- cbn [valid_binary]. unfold bounded, canonical_mantissa. change (Zpos (digits2_pos mm)) with (Zdigits2 (Zpos mm)).
           apply andb_true_intro. split; [|now apply Z.leb_le]. apply Zeq_is_eq_bool.
           destruct (Z.eq_dec E (emin p em)) as [Q|Q]; [unfold fexp; lia|].
           destruct (G ltac:(lia)) as (_ & _ & G2). pose proof (digits_ge (Zpos mm) (p - 1) ltac:(lia) ltac:(lia)). unfold fexp. lia.
        -- right. left. split; [lia|]. exists mm, E. split; [reflexivity|]. left. split; [reflexivity|lia].
      * split; [reflexivity|]. right. right. split; [reflexivity|]. left. split; [lia|lia].
Qed.
Close Scope Z_scope.

(** half the spacing of floats around 1, and half the smallest positive float *)
Definition uround : Q := 2 ^ (- p).
Definition tiny : Q := 2 ^ (emin p em - 1).
(** the least magnitude that is rounded to infinity *)
Definition huge : Q := 2 ^ em * (1 - 2 ^ (- p - 1)).

Definition signed (s : bool) (v : Q) : Q := if s then - v else v.

#[local] Instance signed_comp s : Morphisms.Proper (Morphisms.respectful Qeq Qeq) (signed s).
Proof. intros a b E. destruct s; cbn [signed]; now rewrite E. Qed.

Lemma uround_pos : 0 < uround. Proof. apply two_pos. Qed.
Lemma tiny_pos : 0 < tiny. Proof. apply two_pos. Qed.

Lemma signed_dist s a b : Qabs (signed s a - signed s b) == Qabs (a - b).
Proof. destruct s; cbn [signed]; [|reflexivity]. setoid_replace (- a - - b) with (- (a - b)) by ring. apply Qabs_opp. Qed.

Lemma half_ulp M A B N : (0 < B)%Z -> (2 * Z.abs (M * (B * N) - A) <= B * N)%Z ->
  Qabs (inject_Z M * inject_Z N - inject_Z A / inject_Z B) <= inject_Z N / 2.
Proof.
  intros HB H. assert (Q0 : 0 < inject_Z B) by (rewrite <- (Zlt_Qlt 0); exact HB).
  assert (H1 : (2 * (M * (B * N)) - 2 * A <= B * N)%Z) by lia. assert (H2 : (2 * A - 2 * (M * (B * N)) <= B * N)%Z) by lia. clear H.
  rewrite Zle_Qle in H1, H2. unfold Z.sub in H1, H2. rewrite !inject_Z_plus, !inject_Z_opp, !inject_Z_mult in H1, H2.
  change (inject_Z 2) with 2 in *. set (w := inject_Z A / inject_Z B).
  assert (EA : inject_Z A == w * inject_Z B) by (unfold w; field; lra). rewrite EA in H1, H2.
  setoid_replace (inject_Z N / 2) with ((1 # 2) * inject_Z N) by field.
  clear EA. clearbody w. generalize dependent (inject_Z B). generalize (inject_Z M) (inject_Z N). clear. intros m n b Q0 H1 H2.
  apply Qabs_Qle_condition. split; apply (Qmult_le_r _ _ b Q0); lra.
Qed.

Lemma round_aux_q s A B m ex l : inb A B m l -> (ex <= fexp p em (Zdigits2 m + ex))%Z ->
  let v := inject_Z A / inject_Z B * 2 ^ ex in let r := binary_round_aux p em s m ex l in
  valid_binary p em r = true /\
  ((exists c, qval r = Some c /\ (Qabs (c - signed s v) <= uround * v \/ ((l <> loc_Exact \/ (ex < emin p em)%Z) /\ Qabs (c - signed s v) <= tiny))) \/
   (r = S754_infinity s /\ huge <= v)).
Proof.
  intros H HE v r. destruct (round_aux_core s A B m ex l H HE) as (M & MB & R2 & EX & G & VB & R).
  set (E := fexp p em (Zdigits2 m + ex)) in *. fold r in VB, R. split; [exact VB|].
  assert (FE : (E = Z.max (Zdigits2 m + ex - p) (emin p em))%Z) by reflexivity.
  assert (HB : (0 < B)%Z) by apply H. assert (MA : (m * B <= A)%Z) by (destruct H as (_ & _ & ? & _); lia).
  assert (AM : l = loc_Exact -> (A = m * B)%Z).
  { intros ->. destruct H as (_ & _ & ? & L). unfold loc_of in L. destruct (Z.eqb_spec (A - m * B) 0); [lia|discriminate]. }
  assert (QB : 0 < inject_Z B) by (rewrite <- (Zlt_Qlt 0); exact HB).
  assert (VM : inject_Z m * 2 ^ ex <= v).
  { unfold v. apply Qmult_le_compat_r; [|apply Qlt_le_weak, two_pos]. apply Qle_shift_div_l; [exact QB|].
    rewrite <- inject_Z_mult, <- Zle_Qle. exact MA. }
  pose proof (half_ulp M A B (2 ^ (E - ex)) HB R2) as HU. rewrite two_Z in HU by lia.
  (* distance of M * 2^E *)
  assert (DIST : Qabs (inject_Z M * 2 ^ E - v) <= 2 ^ (E - 1)).
  { setoid_replace (inject_Z M * 2 ^ E - v) with ((inject_Z M * 2 ^ (E - ex) - inject_Z A / inject_Z B) * 2 ^ ex).
    2:{ unfold v. replace E with ((E - ex) + ex)%Z at 1 by lia. rewrite (two_add (E - ex) ex). ring. }
    rewrite Qabs_Qmult, (Qabs_pos (2 ^ ex)) by (apply Qlt_le_weak, two_pos).
    setoid_replace (2 ^ (E - 1)) with (2 ^ (E - ex) / 2 * 2 ^ ex).
    - apply Qmult_le_compat_r; [exact HU|apply Qlt_le_weak, two_pos].
    - replace (E - 1)%Z with ((E - ex) + ex + -1)%Z by lia. rewrite !two_add. change (2 ^ (-1)) with (1 # 2). field. }
  (* relative to v *)
  assert (REL : (emin p em < E)%Z -> 2 ^ (E - 1) <= uround * v /\ 2 ^ (E + p - 1) <= v).
  { intros L. destruct (G L) as (EE & Pm & _). destruct (digits_bounds m Pm) as [[DB _] _].
    assert (W : 2 ^ (E + p - 1) <= v).
    { eapply Qle_trans; [|exact VM]. replace (E + p - 1)%Z with ((Zdigits2 m - 1) + ex)%Z by lia. rewrite two_add.
      apply Qmult_le_compat_r; [|apply Qlt_le_weak, two_pos]. rewrite <- two_Z by (destruct (digits_bounds m Pm); lia). rewrite <- Zle_Qle. exact DB. }
    split; [|exact W]. unfold uround. replace (E - 1)%Z with (- p + (E + p - 1))%Z by lia. rewrite two_add.
    apply Qmult_le_l; [apply two_pos|exact W]. }
  assert (FIN : forall c, qval r = Some c -> c == signed s (inject_Z M * 2 ^ E) ->
    exists c, qval r = Some c /\ (Qabs (c - signed s v) <= uround * v \/ ((l <> loc_Exact \/ (ex < emin p em)%Z) /\ Qabs (c - signed s v) <= tiny))).
  { intros c Q EC. exists c. split; [exact Q|]. rewrite EC, signed_dist.
    destruct (Z.eq_dec E (emin p em)) as [EQ|NE].
    - assert (D : (l = loc_Exact /\ ex = E) \/ (l <> loc_Exact \/ (ex < emin p em)%Z)).
      { destruct (Z.eq_dec ex E); [|right; right; lia]. destruct l as [|cmp]; [left; auto|right; left; discriminate]. }
      destruct D as [[L X]|D].
      + left. rewrite (EX L (eq_sym X)). unfold v. rewrite (AM L), X, inject_Z_mult.
        setoid_replace (inject_Z m * 2 ^ E - inject_Z m * inject_Z B / inject_Z B * 2 ^ E) with 0 by (field; lra).
        cbn. apply Qmult_le_0_compat; [apply Qlt_le_weak, uround_pos|]. apply Qmult_le_0_compat; [|apply Qlt_le_weak, two_pos].
        assert (0 <= inject_Z m) by (rewrite <- (Zle_Qle 0); apply H). setoid_replace (inject_Z m * inject_Z B / inject_Z B) with (inject_Z m) by (field; lra). assumption.
      + right. split; [exact D|]. eapply Qle_trans; [exact DIST|]. unfold tiny. rewrite EQ. apply Qle_refl.
    - left. destruct (REL ltac:(lia)) as [W _]. eapply Qle_trans; [exact DIST|exact W]. }
  destruct R as [[Z0 R]|[(PM & mf & ef & R & D)|[R D]]].
  - left. apply (FIN 0); [now rewrite R|]. rewrite Z0. destruct s; cbn [signed]; ring.
  - left. apply (FIN (inject_Z (if s then Zneg mf else Zpos mf) * 2 ^ ef)); [now rewrite R|].
    assert (X : inject_Z (Zpos mf) * 2 ^ ef == inject_Z M * 2 ^ E).
    { destruct D as [[-> ->]|[-> D]]; [reflexivity|]. rewrite <- D, inject_Z_mult, two_succ. change (inject_Z 2) with 2. ring. }
    rewrite <- X. destruct s; cbn [signed]; [|reflexivity]. change (Zneg mf) with (- Zpos mf)%Z. rewrite inject_Z_opp. ring.
  - right. split; [exact R|]. unfold huge.
    assert (EM : (emin p em < em - p)%Z) by (unfold emin; lia).
    pose proof (two_pos (- p - 1)) as T1. pose proof (two_pos em) as T2.
    destruct D as [[D _]|[D EQ]].
    + destruct (REL ltac:(lia)) as [_ W]. assert (2 ^ em <= 2 ^ (E + p - 1)) by (apply two_le; lia). nra.
    + rewrite EQ in DIST. rewrite two_Z in DIST by lia. apply Qabs_Qle_condition in DIST as [_ D2].
      assert (W : 2 ^ em * (1 - 2 ^ (- p - 1)) <= 2 ^ p * 2 ^ E - 2 ^ (E - 1)).
      { setoid_replace (2 ^ em * (1 - 2 ^ (- p - 1))) with (2 ^ (em - p) * (2 ^ p - (1 # 2))).
        - setoid_replace (2 ^ p * 2 ^ E - 2 ^ (E - 1)) with (2 ^ E * (2 ^ p - (1 # 2))).
          + apply Qmult_le_compat_r; [apply two_le; lia|]. assert (2 ^ 0 <= 2 ^ p) by (apply two_le; lia). change (2 ^ 0) with 1 in *. lra.
          + unfold Z.sub. rewrite (two_add E (-(1))). change (2 ^ (- (1))) with (1 # 2). ring.
        - replace em with ((em - p) + p)%Z at 1 by lia. rewrite (two_add (em - p) p). unfold Z.sub. rewrite (two_add (- p) (-(1))).
          change (2 ^ (- (1))) with (1 # 2). rewrite Qpower_opp. field. pose proof (two_pos p). lra. }
      lra.
Qed.

(** a number with at most p digits, in range, is not changed *)
Definition exacts (v : Q) (r : spec_float) : Prop :=
  forall V k, (Z.abs V < 2 ^ p)%Z -> (emin p em <= k)%Z -> v == inject_Z V * 2 ^ k -> Qabs v < 2 ^ em -> exists c, qval r = Some c /\ c == v.

Lemma signed_abs s v : 0 <= v -> Qabs (signed s v) == v.
Proof. intros H. destruct s; cbn [signed]; rewrite ?Qabs_opp; now apply Qabs_pos. Qed.

Lemma exacts_of_aux s A B m ex l : inb A B m l -> (ex <= fexp p em (Zdigits2 m + ex))%Z -> (0 <= A)%Z ->
  exacts (signed s (inject_Z A / inject_Z B * 2 ^ ex)) (binary_round_aux p em s m ex l).
Proof.
  intros H HE PA V k VB KB VE LT. set (v := inject_Z A / inject_Z B * 2 ^ ex) in *. set (r := binary_round_aux p em s m ex l).
  destruct (round_aux_core s A B m ex l H HE) as (M & MB & R2 & _ & G & _ & R).
  set (E := fexp p em (Zdigits2 m + ex)) in *. fold r in R.
  assert (FE : (E = Z.max (Zdigits2 m + ex - p) (emin p em))%Z) by reflexivity.
  assert (HB : (0 < B)%Z) by apply H. assert (MA : (m * B <= A)%Z) by (destruct H as (_ & _ & ? & _); lia).
  assert (QB : 0 < inject_Z B) by (rewrite <- (Zlt_Qlt 0); exact HB).
  assert (PV : 0 <= v).
  { apply Qmult_le_0_compat; [|apply Qlt_le_weak, two_pos]. apply Qle_shift_div_l; [exact QB|]. rewrite Qmult_0_l. rewrite <- (Zle_Qle 0). exact PA. }
  assert (VM : inject_Z m * 2 ^ ex <= v).
  { unfold v. apply Qmult_le_compat_r; [|apply Qlt_le_weak, two_pos]. apply Qle_shift_div_l; [exact QB|].
    rewrite <- inject_Z_mult, <- Zle_Qle. exact MA. }
  pose proof (half_ulp M A B (2 ^ (E - ex)) HB R2) as HU. rewrite two_Z in HU by lia.
  assert (DIST : Qabs (inject_Z M * 2 ^ E - v) <= 2 ^ (E - 1)).
  { setoid_replace (inject_Z M * 2 ^ E - v) with ((inject_Z M * 2 ^ (E - ex) - inject_Z A / inject_Z B) * 2 ^ ex).
    2:{ unfold v. replace E with ((E - ex) + ex)%Z at 1 by lia. rewrite (two_add (E - ex) ex). ring. }
    rewrite Qabs_Qmult, (Qabs_pos (2 ^ ex)) by (apply Qlt_le_weak, two_pos).
    setoid_replace (2 ^ (E - 1)) with (2 ^ (E - ex) / 2 * 2 ^ ex).
    - apply Qmult_le_compat_r; [exact HU|apply Qlt_le_weak, two_pos].
    - replace (E - 1)%Z with ((E - ex) + ex + -1)%Z by lia. rewrite !two_add. change (2 ^ (-1)) with (1 # 2). field. }
  assert (REL : (emin p em < E)%Z -> 2 ^ (E + p - 1) <= v).
  { intros L. destruct (G L) as (EE & Pm & _). destruct (digits_bounds m Pm) as [[DB _] _].
    eapply Qle_trans; [|exact VM]. replace (E + p - 1)%Z with ((Zdigits2 m - 1) + ex)%Z by lia. rewrite two_add.
    apply Qmult_le_compat_r; [|apply Qlt_le_weak, two_pos]. rewrite <- two_Z by (destruct (digits_bounds m Pm); lia). rewrite <- Zle_Qle. exact DB. }
  rewrite signed_abs in LT by exact PV.
  assert (VA : v == inject_Z (Z.abs V) * 2 ^ k).
  { rewrite <- (signed_abs s v PV), VE, Qabs_Qmult, (Qabs_pos (2 ^ k)) by (apply Qlt_le_weak, two_pos). apply Qmult_comp; [|reflexivity]. unfold Qabs, inject_Z. reflexivity. }
  assert (VK : v < 2 ^ (p + k)).
  { rewrite VA, two_add. apply Qmult_lt_r; [apply two_pos|]. rewrite <- two_Z by lia. rewrite <- Zlt_Qlt. exact VB. }
  assert (KE : (E <= k)%Z).
  { destruct (Z.eq_dec E (emin p em)) as [->|NE]; [exact KB|]. destruct (Z.le_gt_cases E k) as [L|L]; [exact L|].
    assert (2 ^ (p + k) <= 2 ^ (E + p - 1)) by (apply two_le; lia). pose proof (REL ltac:(lia)). lra. }
  set (W := (Z.abs V * 2 ^ (k - E))%Z).
  assert (VW : v == inject_Z W * 2 ^ E).
  { unfold W. rewrite VA, inject_Z_mult, two_Z by lia. replace k with ((k - E) + E)%Z at 1 by lia. rewrite (two_add (k - E) E). ring. }
  assert (MW : M = W).
  { rewrite VW in DIST. setoid_replace (inject_Z M * 2 ^ E - inject_Z W * 2 ^ E) with (inject_Z (M - W) * 2 ^ E) in DIST by (unfold Z.sub; rewrite inject_Z_plus, inject_Z_opp; ring).
    rewrite Qabs_Qmult, (Qabs_pos (2 ^ E)) in DIST by (apply Qlt_le_weak, two_pos).
    unfold Z.sub in DIST at 2. rewrite (two_add E (-(1))) in DIST. change (2 ^ (- (1))) with (1 # 2) in DIST. rewrite (Qmult_comm (2 ^ E)) in DIST.
    apply Qmult_le_r in DIST; [|apply two_pos]. assert (X : inject_Z (Z.abs (M - W)) <= 1 # 2) by exact DIST.
    assert (Z.abs (M - W) < 1)%Z by (rewrite Zlt_Qlt; change (inject_Z 1) with 1; lra). lia. }
  destruct R as [[Z0 R]|[(PM & mf & ef & R & D)|[R D]]].
  - exists 0. split; [now rewrite R|]. assert (v == 0) as -> by (rewrite VW, <- MW, Z0; change (inject_Z 0) with 0; ring). destruct s; cbn [signed]; ring.
  - eexists. split; [rewrite R; reflexivity|]. rewrite VW, <- MW.
    assert (X : inject_Z (Zpos mf) * 2 ^ ef == inject_Z M * 2 ^ E).
    { destruct D as [[-> ->]|[-> D]]; [reflexivity|]. rewrite <- D, inject_Z_mult, two_succ. change (inject_Z 2) with 2. ring. }
    rewrite <- X. destruct s; cbn [signed]; [|reflexivity]. change (Zneg mf) with (- Zpos mf)%Z. rewrite inject_Z_opp. ring.
  - exfalso. destruct D as [[D _]|[D EQ]].
    + assert (EM : (emin p em < em - p)%Z) by (unfold emin; lia). pose proof (REL ltac:(lia)) as W1. assert (2 ^ em <= 2 ^ (E + p - 1)) by (apply two_le; lia). lra.
    + rewrite <- MW, EQ, two_Z, <- two_add in VW by lia. assert (2 ^ em <= 2 ^ (p + E)) by (apply two_le; lia). lra.
Qed.

(** [r] is the exact value [v] rounded: off by a relative error of at most 2^-p, plus the
    absolute error [slack] of results below the normal range; or v is too large.  A
    representable v is kept. *)
Definition rounds (slack v : Q) (r : spec_float) : Prop :=
  (valid_binary p em r = true /\ exacts v r) /\
  ((exists c, qval r = Some c /\ Qabs (c - v) <= uround * Qabs v + slack) \/ (qval r = None /\ huge <= Qabs v)).

Lemma rounds_of_aux s A B m ex l slack : inb A B m l -> (ex <= fexp p em (Zdigits2 m + ex))%Z -> (0 <= A)%Z -> 0 <= slack ->
  (l <> loc_Exact \/ (ex < emin p em)%Z -> slack == tiny) ->
  rounds slack (signed s (inject_Z A / inject_Z B * 2 ^ ex)) (binary_round_aux p em s m ex l).
Proof.
  intros H HE PA PS SL. destruct (round_aux_q s A B m ex l H HE) as [VB R]. cbv zeta in R. split; [split; [exact VB|now apply exacts_of_aux]|].
  assert (QB : 0 < inject_Z B) by (rewrite <- (Zlt_Qlt 0); apply H).
  assert (PV : 0 <= inject_Z A / inject_Z B * 2 ^ ex).
  { apply Qmult_le_0_compat; [|apply Qlt_le_weak, two_pos]. apply Qle_shift_div_l; [exact QB|]. rewrite Qmult_0_l. rewrite <- (Zle_Qle 0). exact PA. }
  destruct R as [(c & Q & [D|[D1 D2]])|[-> D]]; [left; exists c; split; [exact Q|]..|right; split; [reflexivity|]]; rewrite signed_abs by exact PV; [..|exact D].
  - lra.
  - rewrite (SL D1). assert (0 <= uround * (inject_Z A / inject_Z B * 2 ^ ex)) by (apply Qmult_le_0_compat; [apply Qlt_le_weak, uround_pos|exact PV]). lra.
Qed.

Lemma rounds_ext slack v w r : v == w -> rounds slack v r -> rounds slack w r.
Proof.
  intros E [[VB X] R]. split; [split; [exact VB|]|].
  { intros V k H1 H2 H3 H4. rewrite <- E in H3, H4. destruct (X V k H1 H2 H3 H4) as (c & Q & D). exists c. split; [exact Q|]. now rewrite <- E. }
  destruct R as [(c & Q & D)|[Q D]]; [left; exists c|right]; (split; [exact Q|]); now rewrite E in D.
Qed.

Lemma align_val m ex ez : (ez <= ex)%Z -> Zpos (fst (shl_align m ex ez)) = (Zpos m * 2 ^ (ex - ez))%Z /\ snd (shl_align m ex ez) = ez.
Proof.
  intros L. unfold shl_align. destruct (ez - ex)%Z as [|d|d] eqn:E; cbn [fst snd]; [|lia|].
  - assert (ex = ez) by lia. subst. rewrite Z.sub_diag, Z.pow_0_r. lia.
  - replace (ex - ez)%Z with (Zpos d) by lia. rewrite shift_pos_correct. rewrite Z.pow_pos_fold. split; [lia|reflexivity].
Qed.
Lemma align_id m ex ez : (ex <= ez)%Z -> shl_align m ex ez = (m, ex).
Proof. intros L. unfold shl_align. destruct (ez - ex)%Z eqn:E; try reflexivity. lia. Qed.

Lemma round_q s m ex slack : 0 <= slack -> ((ex < emin p em)%Z -> slack == tiny) ->
  rounds slack (signed s (inject_Z (Zpos m) * 2 ^ ex)) (binary_round p em s m ex).
Proof.
  intros PS SL. unfold binary_round. set (E0 := fexp p em (Zpos (digits2_pos m) + ex)).
  assert (FE : (E0 = Z.max (Zdigits2 (Zpos m) + ex - p) (emin p em))%Z) by reflexivity.
  destruct (Z.le_gt_cases ex E0) as [L|L].
  - rewrite align_id by exact L. eapply rounds_ext; [|apply (rounds_of_aux s (Zpos m) 1 (Zpos m) ex loc_Exact); [apply inb_exact; lia|exact L|lia|exact PS|]].
    + apply signed_comp. change (inject_Z 1) with 1. field.
    + intros [C|C]; [congruence|auto].
  - destruct (align_val m ex E0 ltac:(lia)) as [V1 V2]. destruct (shl_align m ex E0) as [mz ez]. cbn [fst snd] in *. subst ez.
    assert (DG : Zdigits2 (Zpos mz) = (Zdigits2 (Zpos m) + (ex - E0))%Z) by (rewrite V1; apply digits_shift; lia).
    eapply rounds_ext; [|apply (rounds_of_aux s (Zpos mz) 1 (Zpos mz) E0 loc_Exact); [apply inb_exact; lia| |lia|exact PS|]].
    + apply signed_comp. rewrite V1, inject_Z_mult, two_Z by lia. change (inject_Z 1) with 1.
      replace ex with ((ex - E0) + E0)%Z at 2 by lia. rewrite (two_add (ex - E0) E0). field.
    + unfold fexp. rewrite DG. lia.
    + intros [C|C]; [congruence|lia].
Qed.

Lemma normalize_q z ex b slack : 0 <= slack -> ((ex < emin p em)%Z -> slack == tiny) ->
  rounds slack (inject_Z z * 2 ^ ex) (binary_normalize p em z ex b).
Proof.
  intros PS SL. destruct z as [|m|m]; cbn [binary_normalize].
  - split; [split; [reflexivity|intros V k _ _ _ _; exists 0; split; [reflexivity|change (inject_Z 0) with 0; ring]]|]. left. exists 0. split; [reflexivity|].
    assert (Z0 : inject_Z 0 * 2 ^ ex == 0) by (change (inject_Z 0) with 0; ring). rewrite Z0.
    change (Qabs (0 - 0)) with 0. change (Qabs 0) with 0. lra.
  - apply (round_q false m ex slack PS SL).
  - eapply rounds_ext; [|apply (round_q true m ex slack PS SL)]. cbn [signed]. change (Zneg m) with (- Zpos m)%Z. rewrite inject_Z_opp. ring.
Qed.

Lemma valid_emin s m e : valid_binary p em (S754_finite s m e) = true -> (emin p em <= e <= em - p)%Z /\ (fexp p em (Zdigits2 (Zpos m) + e) = e)%Z.
Proof.
  cbn [valid_binary]. unfold bounded, canonical_mantissa. intros H. apply andb_prop in H as [H1 H2]. apply Zeq_bool_eq in H1. apply Z.leb_le in H2.
  change (Zpos (digits2_pos m)) with (Zdigits2 (Zpos m)) in H1. split; [|exact H1]. unfold fexp in H1. lia.
Qed.

(** ** The operations *)
Definition sfin (s : bool) (m : positive) : Z := if s then Zneg m else Zpos m.

Lemma exact_rounds v r : valid_binary p em r = true -> qval r = Some v -> rounds 0 v r.
Proof.
  intros V Q. split; [split; [exact V|intros ? ? ? ? ? ?; exists v; split; [exact Q|reflexivity]]|]. left. exists v. split; [exact Q|]. setoid_replace (v - v) with 0 by ring.
  pose proof uround_pos. pose proof (Qabs_nonneg v). cbn. nra.
Qed.

Lemma cond_align s m ex ez : (ez <= ex)%Z ->
  inject_Z (cond_Zopp s (Zpos (fst (shl_align m ex ez)))) * 2 ^ ez == inject_Z (if s then Zneg m else Zpos m) * 2 ^ ex.
Proof.
  intros L. destruct (align_val m ex ez L) as [-> _].
  assert (X : inject_Z (Zpos m * 2 ^ (ex - ez)) * 2 ^ ez == inject_Z (Zpos m) * 2 ^ ex).
  { rewrite inject_Z_mult, two_Z by lia. replace ex with ((ex - ez) + ez)%Z at 2 by lia. rewrite (two_add (ex - ez) ez). ring. }
  destruct s; cbn [cond_Zopp]; [|exact X]. rewrite inject_Z_opp. change (Zneg m) with (- Zpos m)%Z. rewrite inject_Z_opp.
  setoid_replace (- inject_Z (Zpos m * 2 ^ (ex - ez)) * 2 ^ ez) with (- (inject_Z (Zpos m * 2 ^ (ex - ez)) * 2 ^ ez)) by ring. rewrite X. ring.
Qed.

(** addition is off by a relative error only *)
Lemma add_q x y a b : valid_binary p em x = true -> valid_binary p em y = true -> qval x = Some a -> qval y = Some b ->
  rounds 0 (a + b) (SFadd p em x y).
Proof.
  intros Vx Vy Qx Qy. destruct x as [sx|sx| |sx mx ex], y as [sy|sy| |sy my ey]; try discriminate; cbn [qval] in Qx, Qy;
    injection Qx as <-; injection Qy as <-; cbn [SFadd].
  - destruct (Bool.eqb sx sy); (eapply rounds_ext; [|apply exact_rounds; [reflexivity|reflexivity]]); ring.
  - eapply rounds_ext; [|apply exact_rounds; [exact Vy|reflexivity]]. ring.
  - eapply rounds_ext; [|apply exact_rounds; [exact Vx|reflexivity]]. ring.
  - apply valid_emin in Vx, Vy. eapply rounds_ext; [|apply (normalize_q _ (Z.min ex ey) false 0); [lra|lia]].
    rewrite inject_Z_plus, Qmult_plus_distr_l, !cond_align by lia. reflexivity.
Qed.

Lemma sub_q x y a b : valid_binary p em x = true -> valid_binary p em y = true -> qval x = Some a -> qval y = Some b ->
  rounds 0 (a - b) (SFsub p em x y).
Proof.
  intros Vx Vy Qx Qy. destruct x as [sx|sx| |sx mx ex], y as [sy|sy| |sy my ey]; try discriminate; cbn [qval] in Qx, Qy;
    injection Qx as <-; injection Qy as <-; cbn [SFsub].
  - destruct (Bool.eqb sx (negb sy)); (eapply rounds_ext; [|apply exact_rounds; [reflexivity|reflexivity]]); ring.
  - eapply rounds_ext; [|apply exact_rounds; [exact Vy|reflexivity]]. destruct sy; cbn [negb].
    + change (Zneg my) with (- Zpos my)%Z. rewrite inject_Z_opp. ring.
    + change (Zneg my) with (- Zpos my)%Z. rewrite inject_Z_opp. ring.
  - eapply rounds_ext; [|apply exact_rounds; [exact Vx|reflexivity]]. ring.
  - apply valid_emin in Vx, Vy. eapply rounds_ext; [|apply (normalize_q _ (Z.min ex ey) false 0); [lra|lia]].
    unfold Z.sub. rewrite inject_Z_plus, inject_Z_opp. setoid_replace
      ((inject_Z (cond_Zopp sx (Zpos (fst (shl_align mx ex (Z.min ex ey))))) + - inject_Z (cond_Zopp sy (Zpos (fst (shl_align my ey (Z.min ex ey)))))) * 2 ^ Z.min ex ey)
      with (inject_Z (cond_Zopp sx (Zpos (fst (shl_align mx ex (Z.min ex ey))))) * 2 ^ Z.min ex ey - inject_Z (cond_Zopp sy (Zpos (fst (shl_align my ey (Z.min ex ey))))) * 2 ^ Z.min ex ey) by ring.
    rewrite !cond_align by lia. reflexivity.
Qed.

Lemma sfin_signed (s : bool) (m : positive) : inject_Z (if s then Zneg m else Zpos m) == signed s (inject_Z (Zpos m)).
Proof. destruct s; cbn [signed]; [|reflexivity]. change (Zneg m) with (- Zpos m)%Z. now rewrite inject_Z_opp. Qed.
Lemma signed_xor s t a b : signed (xorb s t) (a * b) == signed s a * signed t b.
Proof. destruct s, t; cbn [xorb signed]; ring. Qed.

Lemma rounds_zero s : rounds 0 0 (S754_zero s).
Proof. apply exact_rounds; reflexivity. Qed.
Lemma rounds_more s1 s2 v r : s1 <= s2 -> rounds s1 v r -> rounds s2 v r.
Proof. intros L [VB R]. split; [exact VB|]. destruct R as [(c & Q & D)|R]; [left; exists c; split; [exact Q|lra]|now right]. Qed.

Lemma mul_q x y a b : valid_binary p em x = true -> valid_binary p em y = true -> qval x = Some a -> qval y = Some b ->
  rounds tiny (a * b) (SFmul p em x y).
Proof.
  pose proof tiny_pos as TP.
  intros Vx Vy Qx Qy. destruct x as [sx|sx| |sx mx ex], y as [sy|sy| |sy my ey]; try discriminate; cbn [qval] in Qx, Qy;
    injection Qx as <-; injection Qy as <-; cbn [SFmul];
    try (eapply rounds_ext; [|eapply rounds_more; [|apply rounds_zero]]; [ring|lra]).
  apply valid_emin in Vx as [Vx Fx], Vy as [Vy Fy].
  eapply rounds_ext; [|apply (rounds_of_aux (xorb sx sy) (Zpos (mx * my)) 1 (Zpos (mx * my)) (ex + ey) loc_Exact); [apply inb_exact; lia| |lia|lra|reflexivity]].
  - change (inject_Z 1) with 1. rewrite Pos2Z.inj_mul, inject_Z_mult, two_add. rewrite !sfin_signed.
    setoid_replace (inject_Z (Zpos mx) * inject_Z (Zpos my) / 1 * (2 ^ ex * 2 ^ ey)) with ((inject_Z (Zpos mx) * 2 ^ ex) * (inject_Z (Zpos my) * 2 ^ ey)) by field.
    rewrite signed_xor. destruct sx, sy; cbn [signed]; ring.
  - destruct (digits_bounds (Zpos mx) ltac:(lia)) as [[X1 X2] X3]. destruct (digits_bounds (Zpos my) ltac:(lia)) as [[Y1 Y2] Y3].
    assert (DD : (Zdigits2 (Zpos mx) + Zdigits2 (Zpos my) - 1 <= Zdigits2 (Zpos (mx * my)))%Z).
    { pose proof (digits_ge (Zpos (mx * my)) (Zdigits2 (Zpos mx) - 1 + (Zdigits2 (Zpos my) - 1)) ltac:(lia)) as G.
      rewrite pow2_split in G by lia. pose proof (pow2_pos (Zdigits2 (Zpos mx) - 1) ltac:(lia)). pose proof (pow2_pos (Zdigits2 (Zpos my) - 1) ltac:(lia)).
      assert (2 ^ (Zdigits2 (Zpos mx) - 1) * 2 ^ (Zdigits2 (Zpos my) - 1) <= Zpos (mx * my))%Z by (rewrite Pos2Z.inj_mul; apply Z.mul_le_mono_nonneg; lia). lia. }
    unfold fexp, emin in *. lia.
Qed.

Lemma div_q x y a b : valid_binary p em x = true -> valid_binary p em y = true -> qval x = Some a -> qval y = Some b -> ~ b == 0 ->
  rounds tiny (a / b) (SFdiv p em x y).
Proof.
  pose proof tiny_pos as TP.
  intros Vx Vy Qx Qy NZ. destruct x as [sx|sx| |sx mx ex], y as [sy|sy| |sy my ey]; try discriminate; cbn [qval] in Qx, Qy;
    injection Qx as <-; injection Qy as <-; try (now elim NZ); cbn [SFdiv].
  - eapply rounds_ext; [|eapply rounds_more; [|apply rounds_zero]]; [|lra]. unfold Qdiv. ring.
  - unfold SFdiv_core_binary. set (d1 := Zdigits2 (Zpos mx)). set (d2 := Zdigits2 (Zpos my)).
    set (e' := Z.min (fexp p em (d1 + ex - (d2 + ey))) (ex - ey)). set (s := (ex - ey - e')%Z).
    assert (Hs : (0 <= s)%Z) by (unfold s, e'; lia).
    assert (EM : match s with Z0 => Zpos mx | Zpos _ => Z.shiftl (Zpos mx) s | Zneg _ => 0%Z end = (Zpos mx * 2 ^ s)%Z).
    { destruct s as [|s'|s']; [rewrite Z.pow_0_r; lia|now rewrite Z.shiftl_mul_pow2|lia]. }
    rewrite EM. set (m' := (Zpos mx * 2 ^ s)%Z). pose proof (pow2_pos s Hs) as Ps. assert (Pm : (0 < m')%Z) by (unfold m'; lia).
    pose proof (Z_div_mod m' (Zpos my) ltac:(lia)) as DM. pose proof (new_location_spec m' (Zpos my) ltac:(lia) ltac:(lia)) as NL.
    unfold Z.div, Z.modulo in NL. destruct (Z.div_eucl m' (Zpos my)) as [q r]. destruct DM as [DM DR].
    eapply rounds_ext; [|apply (rounds_of_aux (xorb sx sy) m' (Zpos my) q e' (new_location (Zpos my) r)); [exact NL| |lia|lra|reflexivity]].
    + unfold m'. rewrite inject_Z_mult, two_Z by lia. rewrite !sfin_signed.
      assert (P2 : 0 < inject_Z (Zpos my)) by reflexivity. pose proof (two_pos ey) as P3.
      setoid_replace (inject_Z (Zpos mx) * 2 ^ s / inject_Z (Zpos my) * 2 ^ e') with (inject_Z (Zpos mx) * 2 ^ ex * / (inject_Z (Zpos my) * 2 ^ ey)).
      * rewrite signed_xor. destruct sx, sy; cbn [signed]; field; split; lra.
      * replace ex with (s + e' + ey)%Z by (unfold s; lia). rewrite !two_add. field. split; lra.
    + assert (LQ : (d1 + s - d2 <= Zdigits2 q)%Z).
      { assert (0 <= q)%Z by nia. destruct (Z.le_gt_cases (d1 + s - d2) 0) as [L|L].
        - destruct q as [|q|q]; [change (Zdigits2 0) with 0%Z; lia| |lia]. destruct (digits_bounds (Zpos q) ltac:(lia)). lia.
        - destruct (digits_bounds (Zpos mx) ltac:(lia)) as [[X1 X2] X3]. destruct (digits_bounds (Zpos my) ltac:(lia)) as [[Y1 Y2] Y3]. fold d1 in X1, X3. fold d2 in Y2, Y3.
          assert (2 ^ (d1 + s - d2 - 1) * 2 ^ d2 <= m')%Z.
          { rewrite <- pow2_split by lia. replace (d1 + s - d2 - 1 + d2)%Z with ((d1 - 1) + s)%Z by lia. rewrite pow2_split by lia. unfold m'. apply Z.mul_le_mono_nonneg_r; lia. }
          pose proof (pow2_pos (d1 + s - d2 - 1) ltac:(lia)) as PP.
          assert (2 ^ (d1 + s - d2 - 1) <= q)%Z by nia. pose proof (digits_ge q (d1 + s - d2 - 1) ltac:(lia) ltac:(lia)). lia. }
      unfold fexp. assert (e' = Z.min (fexp p em (d1 + ex - (d2 + ey))) (ex - ey)) as Ee by reflexivity. unfold fexp in Ee. unfold s in LQ. lia.
Qed.

Lemma not_finite_add x y : qval x = None \/ qval y = None -> qval (SFadd p em x y) = None.
Proof.
  intros H. destruct x as [sx|sx| |sx mx ex], y as [sy|sy| |sy my ey]; cbn [qval] in H; try (destruct H; discriminate); cbn [SFadd qval]; try reflexivity.
  destruct (Bool.eqb sx sy); reflexivity.
Qed.
End Core.
