(** FloatDot.v: how far a floating-point sum of products is from the exact one, for every
    order of the operations and with or without fused multiply-add. *)
From Coq Require Import List Arith Lia Lqa Bool ZArith QArith Qcanon Qpower Qabs Qminmax Floats.SpecFloat.
From Verif Require Import Base Spec Numeric NumericFacts FloatErr FloatSum.
Import ListNotations.
Close Scope Qc_scope.
Open Scope Q_scope.

(** f32::mul_add and f64::mul_add, vfmaq_f32 and vfmaq_f64: x * y + z rounded once (IEEE 754
    fusedMultiplyAdd).  Used by src/linalg/sum_of_products.rs 110, 129 and
    src/ops/simd_sum_of_products.rs 28-57, 104, 149-161. *)
Definition SFfma (p em : Z) (x y z : spec_float) : spec_float :=
  match x, y with
  | S754_finite sx mx ex, S754_finite sy my ey =>
      match z with
      | S754_finite sz mz ez =>
          let e := Z.min (ex + ey) ez in
          binary_normalize p em (cond_Zopp (xorb sx sy) (Zpos (fst (shl_align (mx * my) (ex + ey) e))) +
                                 cond_Zopp sz (Zpos (fst (shl_align mz ez e)))) e false
      | S754_zero _ => SFmul p em x y
      | _ => z
      end
  | _, _ => SFadd p em (SFmul p em x y) z
  end.
Definition ffma (f : fmt) : spec_float -> spec_float -> spec_float -> spec_float := SFfma (prec f) (emax f).

(** ** A sum of products, term by term: its exact value, the sum of the magnitudes of the
    terms, the same with every factor below 1 replaced by 1, the number of terms, the number
    of terms without infinities and NaN, the number of terms made of bit patterns of the
    format, and the largest number of factors in a term. *)
Record poly := mkPoly { pv : Qc; pm : Qc; pM : Qc; pw : nat; pg : nat; pf : nat; pd : option nat }.
Definition omax (a b : option nat) : option nat :=
  match a, b with Some x, Some y => Some (Nat.max x y) | Some x, None => Some x | None, _ => b end.
Definition oplus (a b : option nat) : option nat := match a, b with Some x, Some y => Some (x + y)%nat | _, _ => None end.
Definition pzero : poly := mkPoly 0%Qc 0%Qc 0%Qc 0 0 0 None.
Definition pone : poly := mkPoly 1%Qc 1%Qc 1%Qc 1 1 1 (Some 0%nat).
Definition padd (a b : poly) : poly :=
  mkPoly (pv a + pv b)%Qc (pm a + pm b)%Qc (pM a + pM b)%Qc (pw a + pw b) (pg a + pg b) (pf a + pf b) (omax (pd a) (pd b)).
Definition pmul (a b : poly) : poly :=
  mkPoly (pv a * pv b)%Qc (pm a * pm b)%Qc (pM a * pM b)%Qc (pw a * pw b) (pg a * pg b) (pf a * pf b) (oplus (pd a) (pd b)).

Lemma poly_csr : is_csr pzero pone padd pmul.
Proof.
  constructor; intros; repeat match goal with x : poly |- _ => destruct x end; unfold padd, pmul, pzero, pone; cbn [pv pm pM pw pg pf pd]; f_equal; try ring; try lia;
    repeat match goal with x : option nat |- _ => destruct x end; cbn [omax oplus]; try reflexivity; f_equal; lia.
Qed.

Definition dg (a : poly) : nat := match pd a with Some n => n | None => 0 end.

Lemma this_add a b : this (a + b)%Qc == this a + this b.
Proof. apply Qred_correct. Qed.
Lemma this_mul a b : this (a * b)%Qc == this a * this b.
Proof. apply Qred_correct. Qed.

(** ** Inequalities *)
Lemma err_abs x v m A : Qabs (x - v) <= A - m -> Qabs v <= m -> Qabs x <= A.
Proof. intros E V. setoid_replace x with ((x - v) + v) by ring. eapply Qle_trans; [apply Qabs_triangle|]. lra. Qed.
Lemma err_mul x y v w m n A B : Qabs (x - v) <= A - m -> Qabs (y - w) <= B - n -> Qabs v <= m -> Qabs w <= n ->
  Qabs (x * y - v * w) <= A * B - m * n.
Proof.
  intros X Y V W.
  assert (T : Qabs (x * y - v * w) <= Qabs (x - v) * Qabs (y - w) + (Qabs v * Qabs (y - w) + Qabs (x - v) * Qabs w)).
  { rewrite <- !Qabs_Qmult. setoid_replace (x * y - v * w) with ((x - v) * (y - w) + (v * (y - w) + (x - v) * w)) by ring.
    eapply Qle_trans; [apply Qabs_triangle|]. apply Qplus_le_r. apply Qabs_triangle. }
  pose proof (Qabs_nonneg (x - v)) as P1. pose proof (Qabs_nonneg (y - w)) as P2. pose proof (Qabs_nonneg v) as P3. pose proof (Qabs_nonneg w) as P4.
  set (ex := Qabs (x - v)) in *. set (ey := Qabs (y - w)) in *. set (av := Qabs v) in *. set (aw := Qabs w) in *. clearbody ex ey av aw.
  assert (Q1 : ex * ey <= (A - m) * (B - n)).
  { eapply Qle_trans; [apply Qmult_le_compat_r; [exact X|exact P2]|]. rewrite !(Qmult_comm (A - m)). apply Qmult_le_compat_r; lra. }
  assert (Q2 : av * ey <= m * (B - n)).
  { eapply Qle_trans; [apply Qmult_le_compat_r; [exact V|exact P2]|]. rewrite !(Qmult_comm m). apply Qmult_le_compat_r; lra. }
  assert (Q3 : ex * aw <= (A - m) * n).
  { eapply Qle_trans; [apply Qmult_le_compat_r; [exact X|exact P4]|]. rewrite !(Qmult_comm (A - m)). apply Qmult_le_compat_r; lra. }
  lra.
Qed.
Lemma mul_mono a b c d : 0 <= a -> 0 <= c -> a <= b -> c <= d -> a * c <= b * d.
Proof. intros A C AB CD. eapply Qle_trans; [apply Qmult_le_compat_r; [exact AB|exact C]|]. rewrite !(Qmult_comm b). apply Qmult_le_compat_r; lra. Qed.
Lemma natQ_add a b : inject_Z (Z.of_nat (a + b)) == inject_Z (Z.of_nat a) + inject_Z (Z.of_nat b).
Proof. now rewrite Nat2Z.inj_add, inject_Z_plus. Qed.
Lemma natQ_mul a b : inject_Z (Z.of_nat (a * b)) == inject_Z (Z.of_nat a) * inject_Z (Z.of_nat b).
Proof. now rewrite Nat2Z.inj_mul, inject_Z_mult. Qed.
Lemma natQ_pos a : 0 <= inject_Z (Z.of_nat a).
Proof. rewrite <- (Zle_Qle 0). lia. Qed.
Lemma natQ_ge1 a : (1 <= a)%nat -> 1 <= inject_Z (Z.of_nat a).
Proof. intros. rewrite <- (Zle_Qle 1). lia. Qed.

Section Dot.
Variables p em : Z.
Hypothesis Hp : (2 <= p)%Z.
Hypothesis He : (p + 2 <= em)%Z.
Let add := SFadd p em.
Let mul := SFmul p em.
Let fma := SFfma p em.
Let vb x := valid_binary p em x = true.
Let u := 2 ^ (- p).
Let t := tiny p em.
Let g := growth p.

Definition tau (d : nat) : Q := (1 + tiny p em) ^ Z.of_nat (pred d).
(** what products below the normal range can lose *)
Definition slack (d w : nat) (M : Q) : Q :=
  if (d <=? 1)%nat then 0 else if (d <=? 2)%nat then inject_Z (Z.of_nat w) * tiny p em else (tau d - 1) * M.
Lemma t_pos : 0 < t. Proof. apply tiny_pos. Qed.
Lemma tau_ge d : 1 <= tau d.
Proof. unfold tau. apply Qpower_1_le; [|lia]. pose proof t_pos. unfold t in *. lra. Qed.
Lemma tau_mul d e : (1 <= d)%nat -> (1 <= e)%nat -> tau (d + e) == (1 + t) * (tau d * tau e).
Proof.
  intros D E. unfold tau. replace (Z.of_nat (pred (d + e))) with (1 + (Z.of_nat (pred d) + Z.of_nat (pred e)))%Z by lia. pose proof t_pos. unfold t in *.
  rewrite !Qpower_plus by lra. now rewrite Qpower_1_r.
Qed.
Lemma tau_mono d e : (d <= e)%nat -> tau d <= tau e.
Proof.
  intros L. unfold tau. apply Qpower_le_compat_l; [lia|]. pose proof t_pos. unfold t in *. lra.
Qed.
Lemma tau_2 : tau 2 == 1 + t.
Proof. unfold tau. cbn [pred Z.of_nat Pos.of_succ_nat]. now rewrite Qpower_1_r. Qed.

Lemma slack_le d w M : inject_Z (Z.of_nat w) <= M -> slack d w M <= (tau d - 1) * M.
Proof.
  intros W. pose proof (tau_ge d) as TG. pose proof (natQ_pos w) as NW. unfold slack. destruct (Nat.leb_spec d 1) as [D|D].
  - apply Qmult_le_0_compat; lra.
  - destruct (Nat.leb_spec d 2) as [D2|D2]; [|apply Qle_refl]. assert (d = 2%nat) as -> by lia. rewrite tau_2. pose proof t_pos. fold t.
    rewrite (Qmult_comm _ t). setoid_replace (1 + t - 1) with t by ring. apply Qmult_le_l; auto.
Qed.
Lemma slack_pos d w M : inject_Z (Z.of_nat w) <= M -> 0 <= slack d w M.
Proof.
  intros W. pose proof (tau_ge d) as TG. pose proof (natQ_pos w) as NW. pose proof t_pos. unfold slack. destruct (d <=? 1)%nat; [lra|].
  destruct (d <=? 2)%nat; apply Qmult_le_0_compat; fold t; lra.
Qed.
Lemma slack_mono d e w M : (d <= e)%nat -> inject_Z (Z.of_nat w) <= M -> slack d w M <= slack e w M.
Proof.
  intros L W. pose proof (natQ_pos w) as NW. destruct (Nat.le_gt_cases e 2) as [E|E].
  - destruct (Nat.leb_spec d 1) as [D|D].
    + unfold slack at 1. rewrite (proj2 (Nat.leb_le d 1) D). now apply slack_pos.
    + replace e with d by lia. apply Qle_refl.
  - eapply Qle_trans; [now apply slack_le|]. unfold slack. rewrite (proj2 (Nat.leb_gt e 1)), (proj2 (Nat.leb_gt e 2)) by lia.
    apply Qmult_le_compat_r; [|lra]. pose proof (tau_mono d e L). lra.
Qed.
Lemma slack_add d w v M N : slack d w M + slack d v N == slack d (w + v) (M + N).
Proof. unfold slack. destruct (d <=? 1)%nat; [ring|]. destruct (d <=? 2)%nat; [rewrite natQ_add|]; ring. Qed.
(** the sum of two slacks *)
Lemma slack_sum d e w v M N : inject_Z (Z.of_nat w) <= M -> inject_Z (Z.of_nat v) <= N ->
  slack d w M + slack e v N <= slack (Nat.max d e) (w + v) (M + N).
Proof.
  intros W V. rewrite <- slack_add. pose proof (slack_mono d (Nat.max d e) w M ltac:(lia) W). pose proof (slack_mono e (Nat.max d e) v N ltac:(lia) V). lra.
Qed.
(** the product: one more rounding below the normal range *)
Lemma slack_prod d e w v m n M N : (1 <= d)%nat -> (1 <= e)%nat -> (1 <= w)%nat -> (1 <= v)%nat ->
  inject_Z (Z.of_nat w) <= M -> inject_Z (Z.of_nat v) <= N -> 0 <= m <= M -> 0 <= n <= N ->
  (m + slack d w M) * (n + slack e v N) + t <= m * n + slack (d + e) (w * v) (M * N).
Proof.
  intros D E W1 V1 W V [m0 mM] [n0 nN]. pose proof t_pos as T. pose proof (natQ_ge1 w W1). pose proof (natQ_ge1 v V1).
  destruct (Nat.eq_dec (d + e) 2) as [Q|Q].
  - assert (d = 1%nat) as -> by lia. assert (e = 1%nat) as -> by lia. unfold slack. cbn [Nat.leb Nat.add]. rewrite !natQ_mul. fold t.
    assert (1 * 1 <= inject_Z (Z.of_nat w) * inject_Z (Z.of_nat v)) by (apply mul_mono; lra).
    pose proof (Qmult_le_compat_r _ _ t H1). lra.
  - pose proof (slack_le d w M W) as S1. pose proof (slack_le e v N V) as S2. pose proof (slack_pos d w M W) as P1. pose proof (slack_pos e v N V) as P2.
    unfold slack at 3. rewrite (proj2 (Nat.leb_gt (d + e) 1)), (proj2 (Nat.leb_gt (d + e) 2)) by lia. rewrite tau_mul by assumption.
    set (s1 := slack d w M) in *. set (s2 := slack e v N) in *. pose proof (tau_ge d) as T1. pose proof (tau_ge e) as T2. set (a := tau d) in *. set (b := tau e) in *. clearbody s1 s2 a b t.
    assert (M1 : 1 <= M) by lra. assert (N1 : 1 <= N) by lra. set (X := M * N) in *.
    assert (X1 : 1 <= X). { unfold X. assert (1 * 1 <= M * N) by (apply mul_mono; lra). lra. }
    assert (A1 : m * s2 <= X * (b - 1)). { assert (m * s2 <= M * ((b - 1) * N)) by (apply mul_mono; lra). unfold X. lra. }
    assert (A2 : s1 * n <= X * (a - 1)). { assert (s1 * n <= ((a - 1) * M) * N) by (apply mul_mono; lra). unfold X. lra. }
    assert (A3 : s1 * s2 <= X * ((a - 1) * (b - 1))). { assert (s1 * s2 <= ((a - 1) * M) * ((b - 1) * N)) by (apply mul_mono; lra). unfold X. lra. }
    assert (A4 : 1 <= a * b). { assert (1 * 1 <= a * b) by (apply mul_mono; lra). lra. }
    assert (A5 : t * 1 <= t * (X * (a * b))). { apply Qmult_le_l; [exact T|]. assert (1 * 1 <= X * (a * b)) by (apply mul_mono; lra). lra. }
    clearbody X. lra.
Qed.

(** ** The relation between floats and sums of products *)
Definition pok (a : poly) : Prop :=
  Qabs (this (pv a)) <= this (pm a) /\ this (pm a) <= this (pM a) /\ inject_Z (Z.of_nat (pw a)) <= this (pM a) /\ (pg a <= pw a /\ pf a <= pw a)%nat /\ (pw a = 0%nat -> this (pM a) == 0).
Definition rounds_done (a : poly) : nat := (pred (pw a) + pred (dg a))%nat.
Definition top_of (a : poly) : Q := growth p (rounds_done a) * (this (pm a) + slack (dg a) (pw a) (this (pM a))).
Definition cap_of (a : poly) : Q := growth p (rounds_done a) * (this (pM a) + slack (dg a) (pw a) (this (pM a))).
Definition close (x : spec_float) (a : poly) : Prop :=
  pok a /\
  (pf a = pw a -> valid_binary p em x = true /\ ((pg a < pw a)%nat -> ~ finite x) /\
    (pg a = pw a -> (pw a = 0%nat -> zero_float x = true) /\
      (finite x -> Qabs (qv x - this (pv a)) <= top_of a - this (pm a)) /\
      (cap_of a < huge p em -> finite x))).
Definition factor (a : poly) : Prop := (1 <= pw a)%nat /\ (1 <= dg a)%nat.

Lemma dg_add a b : dg (padd a b) = Nat.max (dg a) (dg b).
Proof. unfold dg, padd. cbn [pd]. destruct (pd a), (pd b); cbn [omax]; lia. Qed.
Lemma dg_mul a b : (1 <= dg a)%nat -> (1 <= dg b)%nat -> dg (pmul a b) = (dg a + dg b)%nat.
Proof. unfold dg, pmul. cbn [pd]. destruct (pd a), (pd b); cbn [oplus]; lia. Qed.
Lemma dg_one b : dg (pmul pone b) = dg b.
Proof. unfold dg, pmul, pone. cbn [pd]. now destruct (pd b). Qed.

Lemma pok_zero : pok pzero.
Proof. unfold pok, pzero. cbn [pv pm pM pw pg pf]. change (this 0%Qc) with 0. change (Qabs 0) with 0. change (inject_Z (Z.of_nat 0)) with 0. repeat split; try apply Qle_refl; lia. Qed.
Lemma pok_one : pok pone.
Proof. unfold pok, pone. cbn [pv pm pM pw pg pf]. change (this 1%Qc) with 1. change (Qabs 1) with 1. change (inject_Z (Z.of_nat 1)) with 1. repeat split; try apply Qle_refl; try lia. Qed.
Lemma pok_add a b : pok a -> pok b -> pok (padd a b).
Proof.
  intros (A1 & A2 & A3 & A4 & A5) (B1 & B2 & B3 & B4 & B5). unfold pok, padd. cbn [pv pm pM pw pg pf]. rewrite !this_add, natQ_add. repeat split; try lra; try lia.
  - eapply Qle_trans; [apply Qabs_triangle|]. lra.
  - intros W. rewrite A5, B5 by lia. ring.
Qed.
Lemma pok_mul a b : pok a -> pok b -> pok (pmul a b).
Proof.
  intros (A1 & A2 & A3 & A4 & A5) (B1 & B2 & B3 & B4 & B5). unfold pok, pmul. cbn [pv pm pM pw pg pf]. rewrite !this_mul, natQ_mul.
  pose proof (Qabs_nonneg (this (pv a))). pose proof (Qabs_nonneg (this (pv b))). pose proof (natQ_pos (pw a)). pose proof (natQ_pos (pw b)). repeat split.
  - rewrite Qabs_Qmult. apply mul_mono; lra.
  - apply mul_mono; lra.
  - apply mul_mono; lra.
  - apply Nat.mul_le_mono; tauto.
  - apply Nat.mul_le_mono; tauto.
  - intros W. apply Nat.mul_eq_0 in W as [W|W]; [rewrite A5 by exact W|rewrite B5 by exact W]; ring.
Qed.

Lemma top_pos a : pok a -> this (pm a) <= top_of a /\ top_of a <= cap_of a.
Proof.
  intros (A1 & A2 & A3 & A4 & A5). pose proof (slack_pos (dg a) (pw a) _ A3) as S. pose proof (growth_ge p (rounds_done a)) as Gr. unfold top_of, cap_of.
  pose proof (Qabs_nonneg (this (pv a))). set (s := slack _ _ _) in *. set (k := growth p _) in *. clearbody s k. split.
  - assert (1 * (this (pm a) + s) <= k * (this (pm a) + s)) by (apply Qmult_le_compat_r; lra). lra.
  - rewrite !(Qmult_comm k). apply Qmult_le_compat_r; lra.
Qed.

Lemma u_pos : 0 < u. Proof. apply two_pos. Qed.

Lemma close_zero s : close (S754_zero s) pzero.
Proof.
  split; [apply pok_zero|]. intros _. split; [reflexivity|]. split; [cbn; lia|]. intros _. split; [reflexivity|]. split; [|intros _; exact I]. intros _. unfold top_of, rounds_done, slack, qv, dg. cbn [pzero pv pm pM pw pd qval Nat.leb pred plus].
  change (this 0%Qc) with 0. change (Qabs (0 - 0)) with 0. rewrite growth_0. lra.
Qed.

Lemma pg_split a b : pok a -> pok b -> (pg (padd a b) = pw (padd a b) -> pg a = pw a /\ pg b = pw b) /\
  (pf (padd a b) = pw (padd a b) -> pf a = pw a /\ pf b = pw b) /\ ((pg (padd a b) < pw (padd a b))%nat -> (pg a < pw a \/ pg b < pw b)%nat).
Proof. intros (_ & _ & _ & A & _) (_ & _ & _ & B & _). unfold padd. cbn [pg pf pw]. lia. Qed.
Lemma pg_split_mul a b : pok a -> pok b -> factor a -> factor b -> (pg (pmul a b) = pw (pmul a b) -> pg a = pw a /\ pg b = pw b) /\
  (pf (pmul a b) = pw (pmul a b) -> pf a = pw a /\ pf b = pw b) /\ ((pg (pmul a b) < pw (pmul a b))%nat -> (pg a < pw a \/ pg b < pw b)%nat).
Proof.
  intros (_ & _ & _ & [A A'] & _) (_ & _ & _ & [B B'] & _) [W _] [W' _]. unfold pmul. cbn [pg pf pw]. split; [|split]; intros E; [nia|nia|].
  destruct (Nat.eq_dec (pg a) (pw a)) as [Q|]; [|lia]. destruct (Nat.eq_dec (pg b) (pw b)) as [Q'|]; [|lia]. rewrite Q, Q' in E. lia.
Qed.

(** adding nothing *)
Lemma weight0 a : pok a -> pw a = 0%nat -> this (pv a) == 0 /\ this (pm a) == 0 /\ this (pM a) == 0.
Proof.
  intros (A1 & A2 & A3 & A4 & A5) W. specialize (A5 W). pose proof (Qabs_nonneg (this (pv a))). assert (M0 : this (pm a) == 0) by lra. split; [|split; assumption].
  rewrite M0 in A1. apply Qabs_Qle_condition in A1. lra.
Qed.

(** the bound for a part of a sum is at most the part of the bound *)
Lemma grow_le j k m s s' : (j <= k)%nat -> 0 <= m -> 0 <= s -> s <= s' -> growth p j * (m + s) <= growth p k * (m + s').
Proof. intros J M0 S0 S. apply mul_mono; try lra. - pose proof (growth_ge p j). lra. - now apply growth_mono. Qed.
Lemma grow_le1 j k m s s' : (S j <= k)%nat -> 0 <= m -> 0 <= s -> s <= s' -> (1 + u) * (growth p j * (m + s)) <= growth p k * (m + s').
Proof. intros J M0 S0 S. rewrite Qmult_assoc. unfold u. rewrite <- growth_S. now apply grow_le. Qed.

Lemma qv_of r c : qval r = Some c -> qv r = c.
Proof. unfold qv. now intros ->. Qed.
Lemma rounds_close s v r B : rounds p em s v r -> Qabs v <= B -> (finite r -> Qabs (qv r - v) <= u * B + s) /\ (B < huge p em -> finite r).
Proof.
  intros [_ [(c & Q & D)|[Q D]]] V; split.
  - intros _. rewrite (qv_of _ _ Q). fold u in D. unfold uround in D. fold u in D. pose proof u_pos. rewrite <- (Qmult_le_l _ _ u) in V by assumption. lra.
  - intros _. apply finite_qval. eauto.
  - intros F. apply finite_qval in F as (q & F). congruence.
  - intros H. lra.
Qed.

Lemma close_add x a y b : close x a -> close y b -> close (add x y) (padd a b).
Proof.
  intros [Pa Ha] [Pb Hb]. pose proof (pok_add a b Pa Pb) as P. split; [exact P|]. intros FG. destruct (pg_split a b Pa Pb) as (GG & GF & GB). destruct (GF FG) as [Fa Fb].
  destruct (Ha Fa) as (Vx & Nx & Ha'). destruct (Hb Fb) as (Vy & Ny & Hb'). clear Ha Hb.
  split; [now apply add_valid|]. split; [intros B F; destruct (add_finite p em x y F), (GB B); tauto|].
  intros G. destruct (GG G) as [Ga Gb]. destruct (Ha' Ga) as (Zx & Dx & Fx). destruct (Hb' Gb) as (Zy & Dy & Fy). clear Ha' Hb'.
  pose proof Pa as (A1 & A2 & A3 & _ & _). pose proof Pb as (B1 & B2 & B3 & _ & _). pose proof (Qabs_nonneg (this (pv a))) as A0. pose proof (Qabs_nonneg (this (pv b))) as B0.
  assert (SL : slack (dg a) (pw a) (this (pM a)) + slack (dg b) (pw b) (this (pM b)) <= slack (dg (padd a b)) (pw (padd a b)) (this (pM (padd a b)))).
  { rewrite dg_add. eapply Qle_trans; [now apply slack_sum|]. unfold padd. cbn [pw pM]. unfold slack. destruct (_ <=? 1)%nat; [lra|]. destruct (_ <=? 2)%nat; [lra|]. rewrite this_add. lra. }
  pose proof (slack_pos (dg a) (pw a) _ A3) as Sa. pose proof (slack_pos (dg b) (pw b) _ B3) as Sb.
  split.
  { unfold padd. cbn [pw]. intros W. specialize (Zx ltac:(lia)). specialize (Zy ltac:(lia)). destruct x; try discriminate. destruct y; try discriminate. unfold add. cbn. now destruct (Bool.eqb _ _). }
  assert (EM : this (pm (padd a b)) == this (pm a) + this (pm b)) by apply this_add. assert (EMM : this (pM (padd a b)) == this (pM a) + this (pM b)) by apply this_add.
  assert (EV : this (pv (padd a b)) == this (pv a) + this (pv b)) by apply this_add.
  (* a summand without terms *)
  destruct (Nat.eq_dec (pw a) 0) as [Wa|Wa].
  { specialize (Zx Wa). destruct (weight0 a Pa Wa) as (V0 & M0 & MM0).
    assert (RK : (rounds_done b <= rounds_done (padd a b))%nat) by (unfold rounds_done; rewrite dg_add; unfold padd; cbn [pw]; lia).
    assert (TB : top_of b <= top_of (padd a b)). { unfold top_of. rewrite EM, M0, Qplus_0_l. apply grow_le; auto; lra. }
    assert (CB : cap_of b <= cap_of (padd a b)). { unfold cap_of. set (sl := slack (dg (padd _ _)) _ _) in *. rewrite EMM, MM0, Qplus_0_l. apply grow_le; auto; lra. }
    split.
    - intros F. destruct (add_finite p em x y F) as [_ F2]. destruct (add_zero_l p em x y Zx F2) as [_ E]. unfold add. rewrite E, EV, V0, EM, M0, !Qplus_0_l. specialize (Dy F2). lra.
    - intros C. apply (add_zero_l p em x y Zx). apply Fy. lra. }
  destruct (Nat.eq_dec (pw b) 0) as [Wb|Wb].
  { specialize (Zy Wb). destruct (weight0 b Pb Wb) as (V0 & M0 & MM0).
    assert (RK : (rounds_done a <= rounds_done (padd a b))%nat) by (unfold rounds_done; rewrite dg_add; unfold padd; cbn [pw]; lia).
    assert (TB : top_of a <= top_of (padd a b)). { unfold top_of. rewrite EM, M0, Qplus_0_r. apply grow_le; auto; lra. }
    assert (CB : cap_of a <= cap_of (padd a b)). { unfold cap_of. set (sl := slack (dg (padd _ _)) _ _) in *. rewrite EMM, MM0, Qplus_0_r. apply grow_le; auto; lra. }
    split.
    - intros F. destruct (add_finite p em x y F) as [F1 _]. destruct (add_zero_r p em x y Zy F1) as [_ E]. unfold add. rewrite E, EV, V0, EM, M0, !Qplus_0_r. specialize (Dx F1). lra.
    - intros C. apply (add_zero_r p em x y Zy). apply Fx. lra. }
  (* one rounding *)
  assert (RA : (S (rounds_done a) <= rounds_done (padd a b))%nat) by (unfold rounds_done; rewrite dg_add; unfold padd; cbn [pw]; lia).
  assert (RB : (S (rounds_done b) <= rounds_done (padd a b))%nat) by (unfold rounds_done; rewrite dg_add; unfold padd; cbn [pw]; lia).
  pose proof u_pos as U. destruct (top_pos a Pa) as [TA1 TA2]. destruct (top_pos b Pb) as [TB1 TB2].
  assert (TT : (1 + u) * top_of a + (1 + u) * top_of b <= top_of (padd a b)).
  { assert (X1 : (1 + u) * top_of a <= growth p (rounds_done (padd a b)) * (this (pm a) + slack (dg a) (pw a) (this (pM a)))) by (apply grow_le1; auto; lra).
    assert (X2 : (1 + u) * top_of b <= growth p (rounds_done (padd a b)) * (this (pm b) + slack (dg b) (pw b) (this (pM b)))) by (apply grow_le1; auto; lra).
    unfold top_of at 3. pose proof (growth_ge p (rounds_done (padd a b))) as G1. rewrite EM. set (k := growth p (rounds_done (padd a b))) in *.
    assert (X3 : k * (slack (dg a) (pw a) (this (pM a)) + slack (dg b) (pw b) (this (pM b))) <= k * slack (dg (padd a b)) (pw (padd a b)) (this (pM (padd a b)))) by (apply Qmult_le_l; [lra|exact SL]). lra. }
  assert (CC : (1 + u) * cap_of a + (1 + u) * cap_of b <= cap_of (padd a b)).
  { assert (X1 : (1 + u) * cap_of a <= growth p (rounds_done (padd a b)) * (this (pM a) + slack (dg a) (pw a) (this (pM a)))) by (apply grow_le1; auto; lra).
    assert (X2 : (1 + u) * cap_of b <= growth p (rounds_done (padd a b)) * (this (pM b) + slack (dg b) (pw b) (this (pM b)))) by (apply grow_le1; auto; lra).
    unfold cap_of at 3. pose proof (growth_ge p (rounds_done (padd a b))) as G1. set (sl := slack (dg (padd a b)) _ _) in *. rewrite EMM. set (k := growth p (rounds_done (padd a b))) in *.
    assert (X3 : k * (slack (dg a) (pw a) (this (pM a)) + slack (dg b) (pw b) (this (pM b))) <= k * sl) by (apply Qmult_le_l; [lra|exact SL]). lra. }
  set (ta := top_of a) in *. set (tb := top_of b) in *. set (tt := top_of (padd a b)) in *. set (ca := cap_of a) in *. set (cb := cap_of b) in *. set (cc := cap_of (padd a b)) in *. clearbody ta tb tt ca cb cc.
  assert (UA : 0 <= u * ca) by (apply Qmult_le_0_compat; lra). assert (UB : 0 <= u * cb) by (apply Qmult_le_0_compat; lra).
  assert (ROUND : finite x -> finite y -> (finite (add x y) -> Qabs (qv (add x y) - (qv x + qv y)) <= u * (ta + tb) + 0) /\ (ta + tb < huge p em -> finite (add x y))).
  { intros F1 F2. apply rounds_close; [apply add_q; auto using finite_qv|]. eapply Qle_trans; [apply Qabs_triangle|].
    pose proof (err_abs _ _ _ _ (Dx F1) A1). pose proof (err_abs _ _ _ _ (Dy F2) B1). lra. }
  split.
  - intros F. destruct (add_finite p em x y F) as [F1 F2]. destruct (ROUND F1 F2) as [RD _]. specialize (RD F). specialize (Dx F1). specialize (Dy F2). rewrite EV, EM.
    assert (T : Qabs (qv (add x y) - (this (pv a) + this (pv b))) <= Qabs (qv (add x y) - (qv x + qv y)) + (Qabs (qv x - this (pv a)) + Qabs (qv y - this (pv b)))).
    { setoid_replace (qv (add x y) - (this (pv a) + this (pv b))) with ((qv (add x y) - (qv x + qv y)) + ((qv x - this (pv a)) + (qv y - this (pv b)))) by ring.
      eapply Qle_trans; [apply Qabs_triangle|]. apply Qplus_le_r. apply Qabs_triangle. }
    lra.
  - intros C. assert (F1 : finite x) by (apply Fx; lra). assert (F2 : finite y) by (apply Fy; lra). apply (ROUND F1 F2). lra.
Qed.

(** ** Products *)
Lemma mul_valid x y : vb x -> vb y -> vb (mul x y).
Proof.
  intros Vx Vy. destruct (finite_dec x) as [Fx|Nx], (finite_dec y) as [Fy|Ny].
  - apply (mul_q p em Hp He x y (qv x) (qv y)); auto using finite_qv.
  - destruct y; cbn in Ny; try tauto; destruct x; cbn in Fx; try tauto; reflexivity.
  - destruct x; cbn in Nx; try tauto; destruct y; cbn in Fy; try tauto; reflexivity.
  - destruct x, y; cbn in Nx, Ny; try tauto; reflexivity.
Qed.
Lemma mul_finite x y : finite (mul x y) -> finite x /\ finite y.
Proof. unfold mul. destruct x, y; cbn; tauto. Qed.

(** x * y + z, with product of a and b and z standing for c *)
Lemma fma_q x y z a b c : vb x -> vb y -> vb z -> qval x = Some a -> qval y = Some b -> qval z = Some c ->
  rounds p em t (a * b + c) (fma x y z).
Proof.
  intros Vx Vy Vz Qx Qy Qz. pose proof t_pos as T.
  assert (ZERO : forall s, rounds p em t (0 + c) (add (S754_zero s) z)).
  { intros s. eapply rounds_more; [|apply (add_q p em Hp He (S754_zero s) z 0 c); auto; reflexivity]. lra. }
  destruct x as [sx|sx| |sx mx ex], y as [sy|sy| |sy my ey]; try discriminate; cbn [qval] in Qx, Qy;
    injection Qx as <-; injection Qy as <-; unfold fma; cbn [SFfma SFmul];
    try (eapply rounds_ext; [|apply ZERO]; ring).
  destruct z as [sz|sz| |sz mz ez]; try discriminate; cbn [qval] in Qz; injection Qz as <-.
  - eapply rounds_ext; [|apply (mul_q p em Hp He (S754_finite sx mx ex) (S754_finite sy my ey)); try assumption; reflexivity]. ring.
  - cbv zeta. eapply rounds_ext; [|apply (normalize_q p em Hp He _ (Z.min (ex + ey) ez) false t); [lra|intros _; reflexivity]].
    rewrite inject_Z_plus, Qmult_plus_distr_l, !cond_align by lia. rewrite !sfin_signed. rewrite Pos2Z.inj_mul, inject_Z_mult, two_add.
    apply Qplus_comp; [|reflexivity]. rewrite signed_xor. ring.
Qed.
Lemma fma_valid x y z : vb x -> vb y -> vb z -> vb (fma x y z).
Proof.
  intros Vx Vy Vz. destruct (finite_dec x) as [Fx|Nx]; [destruct (finite_dec y) as [Fy|Ny]; [destruct (finite_dec z) as [Fz|Nz]|]|].
  - apply (fma_q x y z (qv x) (qv y) (qv z)); auto using finite_qv.
  - unfold fma, SFfma. destruct x, y; cbn in Fx, Fy; try tauto; try (apply add_valid; auto; now apply mul_valid). destruct z; cbn in Nz; try tauto; exact Vz.
  - unfold fma, SFfma. destruct x; try (apply add_valid; auto; now apply mul_valid). destruct y; cbn in Ny; try tauto; apply add_valid; auto; now apply mul_valid.
  - unfold fma, SFfma. destruct x; cbn in Nx; try tauto; apply add_valid; auto; now apply mul_valid.
Qed.
Lemma fma_finite x y z : finite (fma x y z) -> finite x /\ finite y /\ finite z.
Proof.
  unfold fma, SFfma. destruct x, y; try (intros F; apply add_finite in F as [F F']; cbn in F |- *; tauto).
  destruct z; cbn; tauto.
Qed.

Lemma fma_zero x y z : zero_float z = true -> finite x -> finite y ->
  (finite (fma x y z) <-> finite (mul x y)) /\ qv (fma x y z) == qv (mul x y).
Proof.
  intros Z Fx Fy. destruct z; try discriminate. unfold fma, SFfma, mul. destruct x as [sx|sx| |sx mx ex], y as [sy|sy| |sy my ey]; cbn in Fx, Fy; try tauto; cbn [SFmul SFadd]; try (destruct (eqb (xorb sx sy) s); (split; [split; intros _; exact I|reflexivity])).
  split; reflexivity.
Qed.

Lemma mul_parts a b : pok a -> pok b -> factor a -> factor b ->
  this (pv (pmul a b)) == this (pv a) * this (pv b) /\ this (pm (pmul a b)) == this (pm a) * this (pm b) /\
  (1 + u) * (top_of a * top_of b) + t <= top_of (pmul a b) /\ (1 + u) * (cap_of a * cap_of b) + t <= cap_of (pmul a b) /\
  cap_of a <= cap_of (pmul a b) /\ cap_of b <= cap_of (pmul a b) /\ (1 <= rounds_done (pmul a b))%nat /\
  (S (rounds_done a + rounds_done b) <= rounds_done (pmul a b))%nat.
Proof.
  intros Pa Pb [Wa Da] [Wb Db]. pose proof Pa as (A1 & A2 & A3 & _ & _). pose proof Pb as (B1 & B2 & B3 & _ & _).
  pose proof (Qabs_nonneg (this (pv a))) as A0. pose proof (Qabs_nonneg (this (pv b))) as B0. pose proof t_pos as T. pose proof u_pos as U.
  split; [apply this_mul|]. split; [apply this_mul|].
  assert (RK : (S (rounds_done a + rounds_done b) <= rounds_done (pmul a b))%nat).
  { unfold rounds_done. rewrite dg_mul by assumption. unfold pmul. cbn [pw]. nia. }
  pose proof (growth_mono p _ _ RK) as GM. rewrite growth_S, growth_add in GM. fold u in GM.
  pose proof (growth_ge p (rounds_done a)) as Ga. pose proof (growth_ge p (rounds_done b)) as Gb. pose proof (growth_ge p (rounds_done (pmul a b))) as Gab.
  pose proof (slack_pos (dg a) (pw a) _ A3) as Sa. pose proof (slack_pos (dg b) (pw b) _ B3) as Sb.
  assert (ES : slack (dg (pmul a b)) (pw (pmul a b)) (this (pM (pmul a b))) == slack (dg a + dg b) (pw a * pw b) (this (pM a) * this (pM b))).
  { rewrite dg_mul by assumption. change (pw (pmul a b)) with (pw a * pw b)%nat. unfold slack. destruct (_ <=? 1)%nat; [reflexivity|]. destruct (_ <=? 2)%nat; [reflexivity|].
    apply Qmult_comp; [reflexivity|apply this_mul]. }
  pose proof (slack_prod (dg a) (dg b) (pw a) (pw b) (this (pm a)) (this (pm b)) _ _ Da Db Wa Wb A3 B3 ltac:(lra) ltac:(lra)) as S1.
  pose proof (slack_prod (dg a) (dg b) (pw a) (pw b) (this (pM a)) (this (pM b)) _ _ Da Db Wa Wb A3 B3 ltac:(lra) ltac:(lra)) as S2.
  pose proof (natQ_ge1 _ Wa) as N1. pose proof (natQ_ge1 _ Wb) as N2.
  assert (ONE : forall m n s s' r, 0 <= m -> 0 <= n -> 0 <= s -> 0 <= s' -> (m + s) * (n + s') + t <= m * n + r ->
    (1 + u) * (growth p (rounds_done a) * (m + s) * (growth p (rounds_done b) * (n + s'))) + t <= growth p (rounds_done (pmul a b)) * (m * n + r)).
  { intros m n s s' r M0 N0 S0 S0' H. set (ga := growth p (rounds_done a)) in *. set (gb := growth p (rounds_done b)) in *. set (gab := growth p (rounds_done (pmul a b))) in *.
    assert (X1 : (1 + u) * (ga * gb) * ((m + s) * (n + s')) <= gab * ((m + s) * (n + s'))) by (apply Qmult_le_compat_r; [exact GM|apply Qmult_le_0_compat; lra]).
    assert (X2 : gab * ((m + s) * (n + s') + t) <= gab * (m * n + r)) by (apply Qmult_le_l; [lra|exact H]).
    assert (X3 : 1 * t <= gab * t) by (apply Qmult_le_compat_r; lra). lra. }
  assert (TOP : (1 + u) * (top_of a * top_of b) + t <= top_of (pmul a b)).
  { unfold top_of at 3. rewrite ES. setoid_replace (this (pm (pmul a b))) with (this (pm a) * this (pm b)) by apply this_mul. apply ONE; auto; lra. }
  assert (CAP : (1 + u) * (cap_of a * cap_of b) + t <= cap_of (pmul a b)).
  { unfold cap_of at 3. rewrite ES. setoid_replace (this (pM (pmul a b))) with (this (pM a) * this (pM b)) by apply this_mul. apply ONE; auto; lra. }
  split; [exact TOP|]. split; [exact CAP|].
  assert (C1 : 1 <= cap_of a). { unfold cap_of. assert (1 * 1 <= growth p (rounds_done a) * (this (pM a) + slack (dg a) (pw a) (this (pM a)))) by (apply mul_mono; lra). lra. }
  assert (C2 : 1 <= cap_of b). { unfold cap_of. assert (1 * 1 <= growth p (rounds_done b) * (this (pM b) + slack (dg b) (pw b) (this (pM b)))) by (apply mul_mono; lra). lra. }
  assert (CAP' : cap_of a * cap_of b <= cap_of (pmul a b)). { assert (0 <= u * (cap_of a * cap_of b)) by (apply Qmult_le_0_compat; [lra|apply Qmult_le_0_compat; lra]). lra. }
  split; [|split; [|split; [lia|exact RK]]].
  - assert (cap_of a * 1 <= cap_of a * cap_of b) by (apply Qmult_le_l; lra). lra.
  - assert (1 * cap_of b <= cap_of a * cap_of b) by (apply Qmult_le_compat_r; lra). lra.
Qed.

Lemma close_mul x a y b : close x a -> factor a -> close y b -> factor b -> close (mul x y) (pmul a b).
Proof.
  intros [Pa Ha] Fa [Pb Hb] Fb. pose proof (pok_mul a b Pa Pb) as P. split; [exact P|]. intros FG. destruct (pg_split_mul a b Pa Pb Fa Fb) as (GG & GF & GB). destruct (GF FG) as [Ffa Ffb].
  destruct (Ha Ffa) as (Vx & Nx & Ha'). destruct (Hb Ffb) as (Vy & Ny & Hb'). clear Ha Hb.
  split; [now apply mul_valid|]. split; [intros B F; destruct (mul_finite x y F), (GB B); tauto|].
  intros G. destruct (GG G) as [Ga Gb]. destruct (Ha' Ga) as (_ & Dx & Fx). destruct (Hb' Gb) as (_ & Dy & Fy). clear Ha' Hb'. split; [unfold pmul; cbn [pw]; destruct Fa, Fb; nia|].
  destruct (mul_parts a b Pa Pb Fa Fb) as (EV & EM & TOP & CAP & CA & CB & _ & _). rewrite EV, EM.
  pose proof Pa as (A1 & A2 & A3 & _ & _). pose proof Pb as (B1 & B2 & B3 & _ & _). destruct (top_pos a Pa) as [TA1 TA2]. destruct (top_pos b Pb) as [TB1 TB2].
  pose proof (Qabs_nonneg (this (pv a))) as A0. pose proof (Qabs_nonneg (this (pv b))) as B0. pose proof t_pos as T. pose proof u_pos as U.
  assert (TC : top_of a * top_of b <= cap_of a * cap_of b) by (apply mul_mono; lra).
  assert (TU : 0 <= u * (cap_of a * cap_of b)) by (apply Qmult_le_0_compat; [lra|apply Qmult_le_0_compat; lra]).
  assert (ROUND : finite x -> finite y -> (finite (mul x y) -> Qabs (qv (mul x y) - qv x * qv y) <= u * (top_of a * top_of b) + t) /\ (top_of a * top_of b < huge p em -> finite (mul x y))).
  { intros F1 F2. apply rounds_close; [apply mul_q; auto using finite_qv|]. rewrite Qabs_Qmult. apply mul_mono; try apply Qabs_nonneg; eapply err_abs; eauto. }
  split.
  - intros F. destruct (mul_finite x y F) as [F1 F2]. destruct (ROUND F1 F2) as [RD _]. specialize (RD F). pose proof (err_mul _ _ _ _ _ _ _ _ (Dx F1) (Dy F2) A1 B1) as EMU.
    assert (TR : Qabs (qv (mul x y) - this (pv a) * this (pv b)) <= Qabs (qv (mul x y) - qv x * qv y) + Qabs (qv x * qv y - this (pv a) * this (pv b))).
    { setoid_replace (qv (mul x y) - this (pv a) * this (pv b)) with ((qv (mul x y) - qv x * qv y) + (qv x * qv y - this (pv a) * this (pv b))) by ring. apply Qabs_triangle. }
    lra.
  - intros C. assert (F1 : finite x) by (apply Fx; lra). assert (F2 : finite y) by (apply Fy; lra). apply (ROUND F1 F2). lra.
Qed.

Lemma close_ext x y a : valid_binary p em y = true -> (pw a <> 0%nat) -> (finite x <-> finite y) -> qv x == qv y -> close x a -> close y a.
Proof.
  intros V W F Q [P H]. split; [exact P|]. intros FG. destruct (H FG) as (_ & N & H'). split; [exact V|]. split; [tauto|]. intros G. destruct (H' G) as (_ & D & C). split; [contradiction|]. split; [|tauto].
  intros Fy. rewrite <- Q. tauto.
Qed.

Lemma close_fma x a y b z c : close x a -> factor a -> close y b -> factor b -> close z c -> close (fma x y z) (padd (pmul a b) c).
Proof.
  intros Hx Fa Hy Fb Hz. pose proof (close_mul x a y b Hx Fa Hy Fb) as Hm. destruct Hx as [Pa Ha], Hy as [Pb Hb], Hz as [Pc Hc]. destruct Hm as [Pm Hm].
  set (ab := pmul a b) in *. pose proof (pok_add ab c Pm Pc) as P. split; [exact P|]. intros FG. destruct (pg_split ab c Pm Pc) as (GG & GF & GB). destruct (pg_split_mul a b Pa Pb Fa Fb) as (GG' & GF' & GB'). fold ab in GG', GF', GB'.
  destruct (GF FG) as [Ffm Ffc]. destruct (GF' Ffm) as [Ffa Ffb].
  destruct (Ha Ffa) as (Vx & Nx & Ha'). destruct (Hb Ffb) as (Vy & Ny & Hb'). destruct (Hc Ffc) as (Vz & Nz & Hc'). destruct (Hm Ffm) as (_ & _ & Hm'). clear Ha Hb Hc Hm.
  split; [now apply fma_valid|]. split; [intros B F; destruct (fma_finite x y z F) as (F1 & F2 & F3), (GB B) as [Q|Q]; [destruct (GB' Q)|]; tauto|].
  intros G. destruct (GG G) as [Gm Gc]. destruct (GG' Gm) as [Ga Gb]. destruct (Ha' Ga) as (_ & Dx & Fx). destruct (Hb' Gb) as (_ & Dy & Fy). destruct (Hc' Gc) as (Zz & Dz & Fz). destruct (Hm' Gm) as (_ & Dm & Fm). clear Ha' Hb' Hc' Hm'.
  assert (Wab : (1 <= pw ab)%nat) by (unfold ab, pmul; cbn [pw]; destruct Fa, Fb; nia).
  split; [unfold padd; cbn [pw]; lia|].
  destruct (mul_parts a b Pa Pb Fa Fb) as (EV & EM & TOP & CAP & CA & CB & RK0 & RK). fold ab in EV, EM, TOP, CAP, CA, CB, RK0, RK.
  pose proof Pa as (A1 & A2 & A3 & _ & _). pose proof Pb as (B1 & B2 & B3 & _ & _). pose proof Pc as (C1 & C2 & C3 & _ & _). pose proof Pm as (M1 & M2 & M3 & _ & _).
  destruct (top_pos a Pa) as [TA1 TA2]. destruct (top_pos b Pb) as [TB1 TB2]. destruct (top_pos c Pc) as [TC1 TC2].
  pose proof (Qabs_nonneg (this (pv a))) as A0. pose proof (Qabs_nonneg (this (pv b))) as B0. pose proof (Qabs_nonneg (this (pv c))) as C0. pose proof (Qabs_nonneg (this (pv ab))) as M0. pose proof t_pos as T. pose proof u_pos as U.
  pose proof (slack_pos (dg ab) (pw ab) _ M3) as Sm. pose proof (slack_pos (dg c) (pw c) _ C3) as Sc.
  assert (SL : slack (dg ab) (pw ab) (this (pM ab)) + slack (dg c) (pw c) (this (pM c)) <= slack (dg (padd ab c)) (pw (padd ab c)) (this (pM (padd ab c)))).
  { rewrite dg_add. eapply Qle_trans; [now apply slack_sum|]. unfold padd. cbn [pw pM]. unfold slack. destruct (_ <=? 1)%nat; [lra|]. destruct (_ <=? 2)%nat; [lra|]. rewrite this_add. lra. }
  assert (EMs : this (pm (padd ab c)) == this (pm ab) + this (pm c)) by apply this_add. assert (EMM : this (pM (padd ab c)) == this (pM ab) + this (pM c)) by apply this_add.
  assert (EVs : this (pv (padd ab c)) == this (pv ab) + this (pv c)) by apply this_add.
  destruct (Nat.eq_dec (pw c) 0) as [Wc|Wc].
  { specialize (Zz Wc). destruct (weight0 c Pc Wc) as (V0 & Mm0 & MM0).
    assert (R1 : (rounds_done ab <= rounds_done (padd ab c))%nat) by (unfold rounds_done; rewrite dg_add; unfold padd; cbn [pw]; lia).
    assert (TB : top_of ab <= top_of (padd ab c)). { unfold top_of. rewrite EMs, Mm0, Qplus_0_r. apply grow_le; auto; lra. }
    assert (CB' : cap_of ab <= cap_of (padd ab c)). { unfold cap_of. set (sl := slack (dg (padd _ _)) _ _) in *. rewrite EMM, MM0, Qplus_0_r. apply grow_le; auto; lra. }
    split.
    - intros F. destruct (fma_finite x y z F) as (F1 & F2 & _). destruct (fma_zero x y z Zz F1 F2) as [Q1 Q2]. rewrite Q2, EVs, V0, EMs, Mm0, !Qplus_0_r. apply Q1 in F. specialize (Dm F). lra.
    - intros C. assert (F1 : finite x) by (apply Fx; lra). assert (F2 : finite y) by (apply Fy; lra). apply (fma_zero x y z Zz F1 F2). apply Fm. lra. }
  assert (RC : (S (rounds_done c) <= rounds_done (padd ab c))%nat) by (unfold rounds_done; rewrite dg_add; unfold padd; cbn [pw]; lia).
  assert (RM : (rounds_done ab <= rounds_done (padd ab c))%nat) by (unfold rounds_done; rewrite dg_add; unfold padd; cbn [pw]; lia).
  assert (TT : (1 + u) * (top_of a * top_of b) + t + (1 + u) * top_of c <= top_of (padd ab c)).
  { assert (X1 : top_of ab <= growth p (rounds_done (padd ab c)) * (this (pm ab) + slack (dg ab) (pw ab) (this (pM ab)))) by (apply grow_le; auto; lra).
    assert (X2 : (1 + u) * top_of c <= growth p (rounds_done (padd ab c)) * (this (pm c) + slack (dg c) (pw c) (this (pM c)))) by (apply grow_le1; auto; lra).
    unfold top_of at 4. pose proof (growth_ge p (rounds_done (padd ab c))) as G1. rewrite EMs. set (k := growth p (rounds_done (padd ab c))) in *.
    assert (X3 : k * (slack (dg ab) (pw ab) (this (pM ab)) + slack (dg c) (pw c) (this (pM c))) <= k * slack (dg (padd ab c)) (pw (padd ab c)) (this (pM (padd ab c)))) by (apply Qmult_le_l; [lra|exact SL]). lra. }
  assert (CC : cap_of ab + (1 + u) * cap_of c <= cap_of (padd ab c)).
  { assert (X1 : cap_of ab <= growth p (rounds_done (padd ab c)) * (this (pM ab) + slack (dg ab) (pw ab) (this (pM ab)))) by (apply grow_le; auto; lra).
    assert (X2 : (1 + u) * cap_of c <= growth p (rounds_done (padd ab c)) * (this (pM c) + slack (dg c) (pw c) (this (pM c)))) by (apply grow_le1; auto; lra).
    unfold cap_of at 3. pose proof (growth_ge p (rounds_done (padd ab c))) as G1. set (sl := slack (dg (padd ab c)) _ _) in *. rewrite EMM. set (k := growth p (rounds_done (padd ab c))) in *.
    assert (X3 : k * (slack (dg ab) (pw ab) (this (pM ab)) + slack (dg c) (pw c) (this (pM c))) <= k * sl) by (apply Qmult_le_l; [lra|exact SL]). lra. }
  assert (TC : top_of a * top_of b <= cap_of a * cap_of b) by (apply mul_mono; lra).
  assert (TU : 0 <= u * (cap_of a * cap_of b)) by (apply Qmult_le_0_compat; [lra|apply Qmult_le_0_compat; lra]). assert (TU' : 0 <= u * cap_of c) by (apply Qmult_le_0_compat; lra).
  assert (TU0 : 0 <= cap_of a * cap_of b) by (apply Qmult_le_0_compat; lra).
  assert (ROUND : finite x -> finite y -> finite z -> (finite (fma x y z) -> Qabs (qv (fma x y z) - (qv x * qv y + qv z)) <= u * (top_of a * top_of b + top_of c) + t) /\ (top_of a * top_of b + top_of c < huge p em -> finite (fma x y z))).
  { intros F1 F2 F3. apply rounds_close; [apply fma_q; auto using finite_qv|]. eapply Qle_trans; [apply Qabs_triangle|]. apply Qplus_le_compat; [|eapply err_abs; eauto]. rewrite Qabs_Qmult. apply mul_mono; try apply Qabs_nonneg; eapply err_abs; eauto. }
  split.
  - intros F. destruct (fma_finite x y z F) as (F1 & F2 & F3). destruct (ROUND F1 F2 F3) as [RD _]. specialize (RD F). pose proof (err_mul _ _ _ _ _ _ _ _ (Dx F1) (Dy F2) A1 B1) as EMU. specialize (Dz F3).
    rewrite EVs, EV, EMs, EM.
    assert (TR : Qabs (qv (fma x y z) - (this (pv a) * this (pv b) + this (pv c))) <= Qabs (qv (fma x y z) - (qv x * qv y + qv z)) + (Qabs (qv x * qv y - this (pv a) * this (pv b)) + Qabs (qv z - this (pv c)))).
    { setoid_replace (qv (fma x y z) - (this (pv a) * this (pv b) + this (pv c))) with ((qv (fma x y z) - (qv x * qv y + qv z)) + ((qv x * qv y - this (pv a) * this (pv b)) + (qv z - this (pv c)))) by ring.
      eapply Qle_trans; [apply Qabs_triangle|]. apply Qplus_le_r. apply Qabs_triangle. }
    lra.
  - intros C. assert (F1 : finite x) by (apply Fx; lra). assert (F2 : finite y) by (apply Fy; lra). assert (F3 : finite z) by (apply Fz; lra). apply (ROUND F1 F2 F3). lra.
Qed.

(** ** One *)
Lemma mul_one o y : rep o 1 -> vb y -> (finite (mul o y) <-> finite y) /\ qv (mul o y) == qv y.
Proof.
  intros O V. destruct o as [s|s| |s m e]; cbn [rep] in O; try tauto; [lia|]. destruct O as (_ & -> & E & Em). change (1 <? 0)%Z with false. change (Z.abs 1) with 1%Z in Em.
  unfold mul. destruct y as [sy|sy| |sy my ey]; cbn [SFmul]; try (split; [tauto|reflexivity]).
  replace (xorb false sy) with sy by (now destruct sy). apply valid_emin in V as [V1 V2]; [|assumption..]. set (k := (- e)%Z) in *. assert (K : (0 <= k)%Z) by lia. pose proof (pow2_pos k K) as PK.
  assert (DG : Zdigits2 (Zpos (m * my)) = (Zdigits2 (Zpos my) + k)%Z). { rewrite Pos2Z.inj_mul, Em. replace (1 * 2 ^ k * Zpos my)%Z with (Zpos my * 2 ^ k)%Z by ring. apply digits_shift; lia. }
  assert (FE : fexp p em (Zdigits2 (Zpos (m * my)) + (e + ey)) = ey) by (rewrite DG; replace (Zdigits2 (Zpos my) + k + (e + ey))%Z with (Zdigits2 (Zpos my) + ey)%Z by lia; exact V2).
  destruct (round_aux_core p em Hp He sy (Zpos (m * my)) 1 (Zpos (m * my)) (e + ey) loc_Exact (inb_exact (Zpos (m * my)) ltac:(lia)) ltac:(lia)) as (M & MB & R2 & _ & _ & VB & R).
  rewrite FE in R2, R. replace (ey - (e + ey))%Z with k in R2 by lia. rewrite Pos2Z.inj_mul, Em in R2.
  assert (EM : M = Zpos my) by nia.
  destruct R as [[R _]|[(_ & mf & ef & R & D)|[_ D]]].
  - lia.
  - rewrite R. split; [cbn; tauto|]. unfold qv. cbn [qval]. destruct D as [[-> D]|[-> D]].
    + rewrite D, EM in *. assert (mf = my) as -> by lia. reflexivity.
    + rewrite EM in D. rewrite two_succ. rewrite !sfin_signed. rewrite <- D, inject_Z_mult. change (inject_Z 2) with 2. destruct sy; cbn [signed]; ring.
  - exfalso. destruct D as [[D _]|[D D']]; [lia|]. rewrite EM in D'.
    assert (Zdigits2 (Zpos my) <= p)%Z by (unfold fexp, emin in V2; lia). destruct (digits_bounds (Zpos my) ltac:(lia)) as [[_ B] _].
    assert (2 ^ Zdigits2 (Zpos my) <= 2 ^ p)%Z by (apply Z.pow_le_mono_r; lia). lia.
Qed.
Lemma one_facts o : rep o 1 -> finite o /\ qv o == 1.
Proof.
  intros O. destruct o as [s|s| |s m e]; cbn [rep] in O; try tauto; [lia|]. destruct O as (_ & -> & E & Em). split; [exact I|]. unfold qv. cbn [qval]. change (1 <? 0)%Z with false. cbn iota.
  rewrite Em. replace (Z.abs 1 * 2 ^ (- e))%Z with (2 ^ (- e))%Z by lia. rewrite two_Z by lia. rewrite <- two_add. replace (- e + e)%Z with 0%Z by lia. reflexivity.
Qed.
Lemma close_one o : rep o 1 -> vb o -> close o pone.
Proof.
  intros O V. destruct (one_facts o O) as [F Q]. split; [apply pok_one|]. intros _. split; [exact V|]. split; [cbn; lia|]. intros _. split; [discriminate|]. split; [|auto].
  intros _. rewrite Q. unfold top_of, rounds_done, slack, dg. cbn [pone pv pm pM pw pd Nat.leb pred plus]. change (this 1%Qc) with 1. change (Qabs (1 - 1)) with 0. rewrite growth_0. lra.
Qed.
Lemma close_mul_one o y b : rep o 1 -> vb o -> close y b -> factor b -> close (mul o y) (pmul pone b).
Proof.
  intros O VO H [W D]. rewrite (csr_mul_1 _ _ _ _ poly_csr). destruct H as [P H]. split; [exact P|]. intros FG. destruct (H FG) as (V & N & H').
  destruct (mul_one o y O V) as [F Q]. split; [now apply mul_valid|].
  split; [tauto|]. intros G. destruct (H' G) as (_ & DD & C). split; [lia|]. split; [|tauto]. intros Fy. rewrite Q. tauto.
Qed.
End Dot.
