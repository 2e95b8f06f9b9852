(** PropsFloatRange.v: C71, how many points arange and linspace of floats return and how
    far each of them is from the exact one. *)
From Coq Require Import List Arith Lia Lqa Bool ZArith QArith Qpower Qabs Qround Floats.SpecFloat.
From Verif Require Import Base Spec Layout SpecFacts LayoutFacts Views HeapFacts KernelFacts OpFacts Numeric NumericFacts
  PropsNumeric FloatErr FloatSum PropsFloatSum.
Import ListNotations.
Open Scope Q_scope.

(** ** Specification *)
(** a float of the format f with the exact value v *)
Definition has_value (f : fmt) (x : spec_float) (v : Q) : Prop :=
  valid_binary (prec f) (emax f) x = true /\ exists w, qval x = Some w /\ w == v.

Definition natq (i : nat) : Q := inject_Z (Z.of_nat i).

(** the i-th item of l is a finite float no further from p i than e i *)
Definition points_within (f : fmt) (l : list spec_float) (p e : nat -> Q) : Prop :=
  forall i, (i < length l)%nat -> exists x v, nth_error l i = Some x /\ has_value f x v /\ Qabs (v - p i) <= e i.

(** ** Arithmetic *)
Lemma abs_near x y e : Qabs (x - y) <= e -> Qabs x <= Qabs y + e.
Proof.
  intros H. pose proof (Qabs_triangle (x - y) y) as T. assert (E : x - y + y == x) by ring. rewrite E in T. lra.
Qed.
Lemma abs_near' x y e : Qabs (x - y) <= e -> Qabs y <= Qabs x + e.
Proof. intros H. apply abs_near. now rewrite Qabs_Qminus. Qed.
Lemma abs_chain x y z e1 e2 : Qabs (x - y) <= e1 -> Qabs (y - z) <= e2 -> Qabs (x - z) <= e1 + e2.
Proof.
  intros H1 H2. pose proof (Qabs_triangle (x - y) (y - z)) as T. assert (E : x - y + (y - z) == x - z) by ring. rewrite E in T. lra.
Qed.
Lemma abs_pos x : ~ x == 0 -> 0 < Qabs x.
Proof.
  intros N. destruct (Qlt_le_dec 0 (Qabs x)) as [H|H]; [exact H|]. exfalso. apply N.
  apply Qabs_Qle_condition in H. lra.
Qed.
Lemma pos_abs x : 0 < Qabs x -> ~ x == 0.
Proof. intros H E. rewrite E in H. cbn in H. lra. Qed.

(** dividing two rounded numbers *)
Lemma quotient_near (d s D s2 : Q) (al be ga : Q) :
  0 < Qabs s -> 0 <= al -> 0 <= be -> 0 <= ga -> 2 * ga <= 1 ->
  Qabs (D - d) <= al * Qabs d + be * Qabs s -> Qabs (s2 - s) <= ga * Qabs s ->
  ~ s2 == 0 /\ Qabs (D / s2 - d / s) <= (1 + 2 * ga) * ((al + ga) * Qabs (d / s) + be).
Proof.
  intros Ps A0 B0 G0 G1 HD Hs. pose proof (abs_near' _ _ _ Hs) as L.
  assert (S2 : (1 - ga) * Qabs s <= Qabs s2) by lra.
  assert (Gs : 0 <= (1 - ga) * Qabs s) by (apply Qmult_le_0_compat; lra).
  assert (Ps2 : 0 < Qabs s2).
  { apply Qlt_le_trans with ((1 - ga) * Qabs s); [|exact S2]. assert (0 < (1 - ga) * Qabs s); [|assumption]. apply Qmult_lt_0_compat; lra. }
  pose proof (pos_abs _ Ps) as Ns. pose proof (pos_abs _ Ps2) as Ns2. split; [exact Ns2|].
  set (Q := d / s). set (r := D / s2).
  assert (EQ : Q * s == d) by (unfold Q; field; exact Ns).
  assert (Er : r * s2 == D) by (unfold r; field; exact Ns2).
  assert (E : (r - Q) * s2 == (D - d) - Q * (s2 - s)).
  { setoid_replace ((r - Q) * s2) with (r * s2 - Q * s2) by ring. rewrite Er, <- EQ at 1. ring. }
  assert (T : Qabs (r - Q) * Qabs s2 <= (al * Qabs d + be * Qabs s) + Qabs Q * (ga * Qabs s)).
  { rewrite <- Qabs_Qmult, E. unfold Qminus at 1. eapply Qle_trans; [apply Qabs_triangle|]. rewrite Qabs_opp, Qabs_Qmult.
    apply Qplus_le_compat; [exact HD|]. rewrite (Qmult_comm (Qabs Q)), (Qmult_comm (Qabs Q)).
    apply Qmult_le_compat_r; [exact Hs|apply Qabs_nonneg]. }
  assert (Ed : Qabs d == Qabs Q * Qabs s) by (rewrite <- EQ, Qabs_Qmult; reflexivity).
  rewrite Ed in T.
  assert (T2 : Qabs (r - Q) * ((1 - ga) * Qabs s) <= ((al + ga) * Qabs Q + be) * Qabs s).
  { apply Qle_trans with (Qabs (r - Q) * Qabs s2).
    - rewrite !(Qmult_comm (Qabs (r - Q))). apply Qmult_le_compat_r; [exact S2|apply Qabs_nonneg].
    - eapply Qle_trans; [exact T|]. apply Qle_lteq. right. ring. }
  assert (T3 : Qabs (r - Q) * (1 - ga) <= (al + ga) * Qabs Q + be).
  { apply (Qmult_le_r _ _ (Qabs s) Ps). eapply Qle_trans; [|exact T2]. apply Qle_lteq. right. ring. }
  pose proof (Qabs_nonneg (r - Q)) as R0. pose proof (Qabs_nonneg Q) as Q0.
  set (X := Qabs (r - Q)) in *. set (Y := (al + ga) * Qabs Q + be) in *.
  assert (Y0 : 0 <= Y) by (unfold Y; assert (0 <= (al + ga) * Qabs Q) by (apply Qmult_le_0_compat; lra); lra).
  (* X <= (1+2ga)(1-ga) X  since (1+2ga)(1-ga) = 1 + ga - 2 ga^2 >= 1 *)
  assert (K : 1 <= (1 + 2 * ga) * (1 - ga)) by nra.
  apply Qle_trans with (X * ((1 + 2 * ga) * (1 - ga))).
  - rewrite <- (Qmult_1_r X) at 1. rewrite !(Qmult_comm X). apply Qmult_le_compat_r; assumption.
  - setoid_replace (X * ((1 + 2 * ga) * (1 - ga))) with ((X * (1 - ga)) * (1 + 2 * ga)) by ring.
    rewrite (Qmult_comm (1 + 2 * ga)). apply Qmult_le_compat_r; [exact T3|lra].
Qed.

(** ** Rounding up *)
Lemma ceiling_unique (x : Q) (c : Z) : inject_Z (c - 1) < x -> x <= inject_Z c -> Qceiling x = c.
Proof.
  intros H1 H2. pose proof (Qle_ceiling x) as A. pose proof (Qceiling_lt x) as B.
  assert (c - 1 < Qceiling x)%Z by (rewrite Zlt_Qlt; lra).
  assert (Qceiling x - 1 < c)%Z by (rewrite Zlt_Qlt; lra). lia.
Qed.

Lemma ceil_Z_value m e : ceil_Z m e = Qceiling (inject_Z m * 2 ^ e).
Proof.
  symmetry. unfold ceil_Z. destruct (Z.leb_spec 0 e) as [H|H].
  - assert (E : inject_Z m * 2 ^ e == inject_Z (m * 2 ^ e)) by (rewrite inject_Z_mult, two_Z by exact H; reflexivity).
    rewrite E. apply Qceiling_Z.
  - set (k := (2 ^ (- e))%Z). assert (Pk : (0 < k)%Z) by (apply Z.pow_pos_nonneg; lia).
    pose proof (Z.div_mod (- m) k ltac:(lia)) as D. pose proof (Z.mod_pos_bound (- m) k Pk) as M.
    set (q := (- m / k)%Z) in *. set (r := ((- m) mod k)%Z) in *.
    assert (E : inject_Z m == inject_Z m * 2 ^ e * inject_Z k).
    { unfold k. rewrite two_Z by lia. rewrite <- Qmult_assoc, <- two_add. replace (e + - e)%Z with 0%Z by lia. change (2 ^ 0) with 1. ring. }
    assert (PQ : 0 < inject_Z k) by (change 0 with (inject_Z 0); rewrite <- Zlt_Qlt; exact Pk).
    apply ceiling_unique.
    + apply (Qmult_lt_r _ _ _ PQ). rewrite <- E, <- inject_Z_mult, <- Zlt_Qlt. nia.
    + apply (Qmult_le_r _ _ _ PQ). rewrite <- E, <- inject_Z_mult, <- Zle_Qle. nia.
Qed.

Lemma ceil_usize_value x v : qval x = Some v ->
  ceil_usize x = if ((0 <=? Qceiling v) && (Qceiling v <? 2 ^ 64))%Z then Ok (Qceiling v) else Panic.
Proof.
  destruct x as [s|s| |s m e]; cbn [qval]; intros E; try discriminate; injection E as <-.
  - reflexivity.
  - cbn [ceil_usize]. rewrite ceil_Z_value. reflexivity.
Qed.

(** ** Operations of the two formats *)
Lemma std_huge f : std f -> 2 ^ 127 <= huge (prec f) (emax f).
Proof. intros [-> | ->]; vm_compute; discriminate. Qed.
Lemma std_tiny f : std f -> tiny (prec f) (emax f) <= uround (prec f) * 2 ^ (-126).
Proof. intros [-> | ->]; vm_compute; discriminate. Qed.
Lemma std_tiny' f : std f -> tiny (prec f) (emax f) <= 2 ^ (-24) * 2 ^ (-126).
Proof. intros [-> | ->]; vm_compute; discriminate. Qed.
Lemma std_u f : std f -> uround (prec f) <= 2 ^ (-24).
Proof. intros [-> | ->]; vm_compute; discriminate. Qed.

Lemma rounded f slack v r : std f -> rounds (prec f) (emax f) slack v r -> Qabs v < 2 ^ 127 ->
  exists c, has_value f r c /\ Qabs (c - v) <= uround (prec f) * Qabs v + slack.
Proof.
  intros S ((V & _) & [(c & E & H)|(E & H)]) B.
  - exists c. split; [|exact H]. split; [exact V|]. exists c. now split.
  - exfalso. pose proof (std_huge f S). lra.
Qed.

Lemma has_value_ext f x v w : v == w -> has_value f x v -> has_value f x w.
Proof. intros E (V & c & Q & H). split; [exact V|]. exists c. split; [exact Q|]. now rewrite H. Qed.

Section Ops.
  Variable f : fmt.
  Hypothesis S : std f.
  Let u := uround (prec f).
  Let t := tiny (prec f) (emax f).

  Lemma op_sub x y a b : has_value f x a -> has_value f y b -> Qabs (a - b) < 2 ^ 127 ->
    exists c, has_value f (fsub f x y) c /\ Qabs (c - (a - b)) <= u * Qabs (a - b).
  Proof.
    intros (Vx & a' & Qx & Ea) (Vy & b' & Qy & Eb) B. pose proof (std_bounds f S) as SB.
    destruct (rounded f 0 (a - b) (fsub f x y) S) as (c & V & H); [|exact B|].
    - eapply rounds_ext; [|apply sub_q; try eassumption; lia]. now rewrite Ea, Eb.
    - exists c. split; [exact V|]. fold u in H. lra.
  Qed.
  Lemma op_add x y a b : has_value f x a -> has_value f y b -> Qabs (a + b) < 2 ^ 127 ->
    exists c, has_value f (fadd f x y) c /\ Qabs (c - (a + b)) <= u * Qabs (a + b).
  Proof.
    intros (Vx & a' & Qx & Ea) (Vy & b' & Qy & Eb) B. pose proof (std_bounds f S) as SB.
    destruct (rounded f 0 (a + b) (fadd f x y) S) as (c & V & H); [|exact B|].
    - eapply rounds_ext; [|apply add_q; try eassumption; lia]. now rewrite Ea, Eb.
    - exists c. split; [exact V|]. fold u in H. lra.
  Qed.
  Lemma op_mul x y a b : has_value f x a -> has_value f y b -> Qabs (a * b) < 2 ^ 127 ->
    exists c, has_value f (fmul f x y) c /\ Qabs (c - (a * b)) <= u * Qabs (a * b) + t.
  Proof.
    intros (Vx & a' & Qx & Ea) (Vy & b' & Qy & Eb) B. pose proof (std_bounds f S) as SB.
    apply (rounded f t (a * b) (fmul f x y) S); [|exact B].
    eapply rounds_ext; [|apply mul_q; try eassumption; lia]. now rewrite Ea, Eb.
  Qed.
  Lemma op_div x y a b : has_value f x a -> has_value f y b -> ~ b == 0 -> Qabs (a / b) < 2 ^ 127 ->
    exists c, has_value f (fdiv f x y) c /\ Qabs (c - (a / b)) <= u * Qabs (a / b) + t.
  Proof.
    intros (Vx & a' & Qx & Ea) (Vy & b' & Qy & Eb) N B. pose proof (std_bounds f S) as SB.
    apply (rounded f t (a / b) (fdiv f x y) S); [|exact B].
    eapply rounds_ext; [|apply div_q; try eassumption; try lia]. now rewrite Ea, Eb. now rewrite Eb.
  Qed.
  Lemma op_convert x a : (exists w, qval x = Some w /\ w == a) -> Qabs a < 2 ^ 127 ->
    exists c, has_value f (convert f x) c /\ Qabs (c - a) <= u * Qabs a + t.
  Proof.
    intros (a' & Qx & Ea) B. pose proof (std_bounds f S) as SB. pose proof (tiny_pos (prec f) (emax f)) as TP.
    apply (rounded f t a (convert f x) S); [|exact B]. apply (rounds_ext _ _ _ a' a); [exact Ea|].
    destruct x as [s|s| |s m e]; cbn [qval] in Qx; try discriminate; injection Qx as <-.
    - cbn [convert]. apply (rounds_more _ _ 0 t); [unfold t; lra|]. apply rounds_zero.
    - cbn [convert]. eapply rounds_ext; [|apply round_q; try lia]; [rewrite sfin_signed; destruct s; cbn [signed]; ring|unfold t; lra|reflexivity].
  Qed.
  Lemma op_int z : (Z.abs z < 2 ^ 24)%Z -> has_value f (of_Z f z) (inject_Z z).
  Proof.
    intros B. pose proof (std_bounds f S) as SB. pose proof (std_pow f S).
    destruct (rep_finite (of_Z f z) z) as [F V]; [apply of_Z_rep; lia|]. split.
    - pose proof (normalize_q (prec f) (emax f) ltac:(lia) ltac:(lia) z 0 false 0 ltac:(lra)) as R.
      destruct R as [[R _] _]; [|exact R]. unfold emin. lia.
    - exists (qv (of_Z f z)). split; [now apply finite_qv|exact V].
  Qed.
End Ops.

(** ** The number of points *)
Definition U : Q := 2 ^ (-24).
Lemma U_small : 0 < U /\ U * 1000000 <= 1. Proof. split; vm_compute; [reflexivity|discriminate]. Qed.
Lemma scale x y : x <= y -> U * x <= U * y.
Proof. intros H. rewrite !(Qmult_comm U). apply Qmult_le_compat_r; [exact H|vm_compute; discriminate]. Qed.
Lemma scale_u (u x : Q) : u <= U -> 0 <= x -> u * x <= U * x.
Proof. intros. now apply Qmult_le_compat_r. Qed.

(** the quotient whose ceiling is the number of points *)
Definition quotient (f : fmt) (start stop step : spec_float) : spec_float :=
  fdiv f (to_float (float_type f) (fsub f stop start)) (to_float (float_type f) step).

(** the conversion through f32 *)
Lemma to_float_near f x v : std f -> has_value f x v -> Qabs v <= 2 ^ 124 ->
  exists c, has_value f (to_float (float_type f) x) c /\ Qabs (c - v) <= (2 * U + U * U) * Qabs v + 3 * (U * 2 ^ (-126)).
Proof.
  intros S V B. pose proof U_small as [U0 U1]. assert (S32 : std f32) by now left.
  unfold to_float. cbn [n_float n_to_f32 float_type].
  assert (K : 2 ^ 124 * 4 < 2 ^ 127) by (vm_compute; reflexivity).
  assert (L : 4 * (U * 2 ^ (-126)) <= 2 ^ 124) by (vm_compute; discriminate).
  destruct (op_convert f32 S32 x v (proj2 V) ltac:(lra)) as (c1 & V1 & H1).
  change (uround (prec f32)) with U in H1. pose proof (std_tiny' f32 S32) as T1. fold U in T1.
  pose proof (abs_near _ _ _ H1) as B1. pose proof (Qabs_nonneg v) as N0. pose proof (Qabs_nonneg c1) as N1.
  assert (UV : U * Qabs v <= Qabs v) by nra.
  destruct (op_convert f S (convert f32 x) c1 (proj2 V1)) as (c & V2 & H2); [lra|].
  pose proof (std_tiny' f S) as T2. fold U in T2. pose proof (scale_u _ _ (std_u f S) N1) as X.
  exists c. split; [exact V2|]. pose proof (abs_chain _ _ _ _ _ H2 H1) as C.
  assert (Y : U * Qabs c1 <= U * (Qabs v + (U * Qabs v + U * 2 ^ (-126)))) by (apply scale; lra).
  assert (Z : U * (U * 2 ^ (-126)) <= U * 2 ^ (-126)) by (vm_compute; discriminate).
  lra.
Qed.

Lemma quotient_value f start stop step a b s : std f -> has_value f start a -> has_value f stop b -> has_value f step s ->
  Qabs (b - a) <= 2 ^ 122 -> 2 ^ (-126) <= Qabs s -> Qabs s <= 2 ^ 120 -> Qabs ((b - a) / s) <= 2 ^ 120 ->
  exists q, has_value f (quotient f start stop step) q /\
    Qabs (q - (b - a) / s) <= 2 ^ (-20) * (1 + Qabs ((b - a) / s)).
Proof.
  intros S Va Vb Vs BD LS BS BQ. pose proof U_small as [U0 U1]. set (d := b - a) in *.
  assert (Ps : 0 < Qabs s) by (eapply Qlt_le_trans; [|exact LS]; reflexivity).
  assert (K1 : 2 ^ 122 < 2 ^ 127) by reflexivity.
  destruct (op_sub f S stop start b a Vb Va) as (D & VD & HD); [fold d; lra|]. fold d in HD.
  pose proof (Qabs_nonneg d) as N0. pose proof (scale_u _ _ (std_u f S) N0) as X0.
  pose proof (abs_near _ _ _ HD) as BD1. pose proof (Qabs_nonneg D) as ND.
  assert (UD : U * Qabs d <= Qabs d) by nra.
  assert (K2 : 2 ^ 122 * 2 <= 2 ^ 124) by (vm_compute; discriminate).
  destruct (to_float_near f _ _ S VD) as (D2 & VD2 & HD2); [lra|].
  assert (K3 : 2 ^ 120 <= 2 ^ 124) by (vm_compute; discriminate).
  destruct (to_float_near f _ _ S Vs) as (s2 & Vs2 & Hs2); [lra|].
  pose proof (abs_chain _ _ _ _ _ HD2 HD) as CD.
  pose proof (scale _ _ LS) as LU.
  assert (E1 : (2 * U + U * U) * Qabs D <= (2 * U + U * U) * ((1 + U) * Qabs d)).
  { rewrite !(Qmult_comm (2 * U + U * U)). apply Qmult_le_compat_r; [lra|]. nra. }
  assert (UU : U * U <= U * (1 # 1000000)) by (vm_compute; discriminate).
  assert (E2 : (2 * U + U * U) * ((1 + U) * Qabs d) <= (3 * U) * Qabs d).
  { rewrite Qmult_assoc. apply Qmult_le_compat_r; [vm_compute; discriminate|exact N0]. }
  assert (E3 : (2 * U + U * U) * Qabs s <= (3 * U) * Qabs s).
  { apply Qmult_le_compat_r; [vm_compute; discriminate|lra]. }
  destruct (quotient_near d s D2 s2 (4 * U) (3 * U) (6 * U)) as [Ns2 HQ]; try lra.
  set (Q := d / s) in *. pose proof (Qabs_nonneg Q) as NQ.
  assert (HQ2 : Qabs (D2 / s2 - Q) <= (11 * U) * Qabs Q + 4 * U).
  { eapply Qle_trans; [exact HQ|].
    setoid_replace ((1 + 2 * (6 * U)) * ((4 * U + 6 * U) * Qabs Q + 3 * U)) with
      (((1 + 2 * (6 * U)) * (4 * U + 6 * U)) * Qabs Q + (1 + 2 * (6 * U)) * (3 * U)) by ring.
    apply Qplus_le_compat; [|vm_compute; discriminate]. apply Qmult_le_compat_r; [vm_compute; discriminate|exact NQ]. }
  pose proof (abs_near _ _ _ HQ2) as BQ2.
  assert (K4 : 2 ^ 120 * 3 < 2 ^ 127) by (vm_compute; reflexivity).
  assert (UQ : U * Qabs Q <= (1 # 1000000) * Qabs Q) by (apply Qmult_le_compat_r; [vm_compute; discriminate|exact NQ]).
  destruct (op_div f S _ _ D2 s2 VD2 Vs2 Ns2) as (q & Vq & Hq).
  { assert (4 * U < 2 ^ 120) by (vm_compute; reflexivity). lra. }
  exists q. split; [exact Vq|].
  pose proof (abs_chain _ _ _ _ _ Hq HQ2) as C.
  pose proof (scale_u _ _ (std_u f S) (Qabs_nonneg (D2 / s2))) as X1. pose proof (scale _ _ BQ2) as X2.
  pose proof (std_tiny' f S) as T. fold U in T. assert (T' : U * 2 ^ (-126) <= U) by (vm_compute; discriminate).
  assert (E4 : U * (U * Qabs Q) <= U * ((1 # 1000000) * Qabs Q)) by (apply scale; exact UQ). pose proof (scale _ _ NQ) as E5.
  assert (K5 : 2 ^ (-20) == 16 * U) by (vm_compute; reflexivity). rewrite K5. 
  assert (X3 : U * (4 * U) <= U) by (vm_compute; discriminate).
  lra.
Qed.

(** ** One point *)
Lemma item_value f start step a s i : std f -> has_value f start a -> has_value f step s ->
  (Z.of_nat i < 2 ^ 24)%Z -> 2 ^ (-126) <= Qabs s -> Qabs a <= 2 ^ 124 -> natq i * Qabs s <= 2 ^ 124 ->
  exists x v, arange_item (float_type f) start step i = Ok x /\ has_value f x v /\
    Qabs (v - (a + natq i * s)) <= 4 * 2 ^ (- prec f) * (Qabs a + natq i * Qabs s).
Proof.
  intros S Va Vs Bi LS Ba Bis. unfold arange_item. cbn [n_of_usize n_mul n_add float_type bind].
  pose proof (op_int f S (Z.of_nat i) ltac:(lia)) as Vi. fold (natq i) in Vi.
  set (u := uround (prec f)) in *. change (2 ^ (- prec f)) with u.
  assert (u0 : 0 < u) by apply uround_pos. pose proof (std_u f S) as u1. fold u in u1.
  assert (u2 : u * 1000000 <= 1) by (pose proof U_small as [_ X]; unfold U in X; lra).
  assert (K1 : 2 ^ 124 * 4 < 2 ^ 127) by reflexivity.
  assert (NI : 0 <= natq i) by (unfold natq; change 0 with (inject_Z 0); rewrite <- Zle_Qle; lia).
  assert (EI : Qabs (natq i * s) == natq i * Qabs s) by (rewrite Qabs_Qmult, (Qabs_pos (natq i)) by exact NI; reflexivity).
  set (W := natq i * Qabs s) in *. pose proof (Qabs_nonneg a) as NA. 
  assert (NW : 0 <= W) by (unfold W; apply Qmult_le_0_compat; [exact NI|apply Qabs_nonneg]).
  assert (UW : u * W <= (1 # 1000000) * W) by (apply Qmult_le_compat_r; [lra|exact NW]).
  assert (P : exists p, has_value f (fmul f (of_Z f (Z.of_nat i)) step) p /\ Qabs (p - natq i * s) <= 2 * (u * W)).
  { destruct i as [|i].
    - exists 0. unfold W. destruct Vs as (Vs & w & Qs & Ew). assert (EZ : of_Z f (Z.of_nat 0) = S754_zero false) by reflexivity.
      rewrite EZ. split.
      + destruct step as [y|y| |y m e]; cbn [qval] in Qs; try discriminate;
          (split; [reflexivity|exists 0; split; [reflexivity|reflexivity]]).
      + assert (EE : Qabs (0 - natq 0 * s) == 0) by (change (natq 0) with 0; setoid_replace (0 - 0 * s) with 0 by ring; reflexivity).
        rewrite EE. change (natq 0) with 0. apply Qle_lteq. right. ring.
    - destruct (op_mul f S _ _ _ _ Vi Vs) as (p & Vp & Hp); [rewrite EI; lra|].
      exists p. split; [exact Vp|]. rewrite EI in Hp. fold W in Hp. fold u in Hp.
      pose proof (std_tiny f S) as T. fold u in T.
      assert (L : 2 ^ (-126) <= W).
      { unfold W. apply Qle_trans with (1 * Qabs s); [lra|]. apply Qmult_le_compat_r; [|apply Qabs_nonneg].
        unfold natq. change 1 with (inject_Z 1). rewrite <- Zle_Qle. lia. }
      assert (u * 2 ^ (-126) <= u * W) by (rewrite !(Qmult_comm u); apply Qmult_le_compat_r; lra). lra. }
  destruct P as (p & Vp & Hp). pose proof (abs_near _ _ _ Hp) as Bp. rewrite EI in Bp. fold W in Bp.
  pose proof (Qabs_triangle p a) as Tpa.
  destruct (op_add f S _ _ _ _ Vp Va) as (v & Vv & Hv); [lra|]. fold u in Hv.
  exists (fadd f (fmul f (of_Z f (Z.of_nat i)) step) start), v. split; [reflexivity|]. split; [exact Vv|].
  assert (E : Qabs (p + a - (a + natq i * s)) <= 2 * (u * W)) by (setoid_replace (p + a - (a + natq i * s)) with (p - natq i * s) by ring; exact Hp).
  pose proof (abs_chain _ _ _ _ _ Hv E) as C.
  assert (X : u * Qabs (p + a) <= u * (W + 2 * (u * W) + Qabs a)) by (rewrite !(Qmult_comm u); apply Qmult_le_compat_r; lra).
  assert (Y : u * (u * W) <= u * ((1 # 1000000) * W)) by (rewrite !(Qmult_comm u); apply Qmult_le_compat_r; lra).
  assert (0 <= u * W) by (apply Qmult_le_0_compat; lra). assert (0 <= u * Qabs a) by (apply Qmult_le_0_compat; lra). lra.
Qed.

(** ** The whole buffer *)
Lemma natq_nonneg i : 0 <= natq i.
Proof. unfold natq. change 0 with (inject_Z 0). rewrite <- Zle_Qle. lia. Qed.

Lemma arange_count_eq f start stop step q : has_value f (quotient f start stop step) q ->
  exists q', q' == q /\ arange_count (float_type f) start stop step =
    if ((0 <=? Qceiling q') && (Qceiling q' <? 2 ^ 64))%Z then Ok (Qceiling q') else Panic.
Proof.
  intros (_ & w & Qw & E). exists w. split; [exact E|]. unfold arange_count. cbn [n_sub float_type bind n_float].
  now apply ceil_usize_value.
Qed.

Lemma ratio_abs d s : ~ s == 0 -> Qabs (d / s) * Qabs s == Qabs d.
Proof. intros N. rewrite <- Qabs_Qmult. setoid_replace (d / s * s) with d by (field; exact N). reflexivity. Qed.

Lemma arange_data_near f start stop step a b s : std f -> has_value f start a -> has_value f stop b -> has_value f step s ->
  Qabs a <= 2 ^ 120 -> Qabs b <= 2 ^ 121 -> 2 ^ (-126) <= Qabs s -> Qabs s <= 2 ^ 120 ->
  0 <= (b - a) / s -> (b - a) / s <= 2 ^ 20 ->
  exists l q, arange_data (float_type f) start stop step = Ok l /\
    Z.of_nat (length l) = Qceiling q /\ Qabs (q - (b - a) / s) <= 2 ^ (-20) * (1 + (b - a) / s) /\
    points_within f l (fun i => a + natq i * s) (fun i => 4 * 2 ^ (- prec f) * (Qabs a + natq i * Qabs s)).
Proof.
  intros S Va Vb Vs Ba Bb LS BS Q0 BQ.
  assert (Ps : 0 < Qabs s) by (eapply Qlt_le_trans; [|exact LS]; reflexivity). pose proof (pos_abs _ Ps) as Ns.
  assert (BD : Qabs (b - a) <= 2 ^ 120 + 2 ^ 121).
  { pose proof (Qabs_triangle b (- a)) as T. rewrite Qabs_opp in T. unfold Qminus. lra. }
  assert (AQ : Qabs ((b - a) / s) == (b - a) / s) by (apply Qabs_pos; exact Q0).
  assert (K1 : 2 ^ 120 + 2 ^ 121 <= 2 ^ 122) by (vm_compute; discriminate).
  assert (K2 : 2 ^ 20 <= 2 ^ 120) by (vm_compute; discriminate).
  destruct (quotient_value f start stop step a b s S Va Vb Vs) as (q & Vq & Hq); try lra.
  rewrite AQ in Hq. pose proof (ratio_abs (b - a) s Ns) as RA. rewrite AQ in RA.
  set (Q := (b - a) / s) in *. destruct (arange_count_eq _ _ _ _ _ Vq) as (q' & Eq & EC).
  assert (HE : 2 ^ (-20) * (1 + Q) <= 2 ^ (-20) * (1 + 2 ^ 20)).
  { rewrite !(Qmult_comm (2 ^ (-20))). apply Qmult_le_compat_r; [lra|vm_compute; discriminate]. }
  assert (K3 : 2 ^ (-20) * (1 + 2 ^ 20) <= 1 + (1 # 1000)) by (vm_compute; discriminate).
  assert (HL : 2 ^ (-20) * (1 + Q) <= (1 # 1000) * (1 + Q)) by (apply Qmult_le_compat_r; [vm_compute; discriminate|lra]).
  assert (HI : Qabs (q' - Q) <= 2 ^ (-20) * (1 + Q)) by (rewrite Eq; exact Hq).
  pose proof HI as HI'. apply Qabs_Qle_condition in HI'. destruct HI' as [HI1 HI2].
  pose proof (Qle_ceiling q') as C1. pose proof (Qceiling_lt q') as C2.
  assert (C0 : (0 <= Qceiling q')%Z).
  { assert (-1 < Qceiling q')%Z; [|lia]. rewrite Zlt_Qlt. change (inject_Z (-1)) with (-1). lra. }
  assert (C3 : (Qceiling q' - 1 < 2 ^ 20 + 2)%Z).
  { rewrite Zlt_Qlt. eapply Qlt_trans; [exact C2|]. rewrite inject_Z_plus, two_Z by lia. change (inject_Z 2) with 2. lra. }
  assert (G : ((0 <=? Qceiling q') && (Qceiling q' <? 2 ^ 64))%Z = true) by (apply andb_true_iff; rewrite Z.leb_le, Z.ltb_lt; split; lia).
  rewrite G in EC. set (n := Z.to_nat (Qceiling q')).
  assert (IT : forall i, (i < n)%nat -> exists x v, arange_item (float_type f) start step i = Ok x /\ has_value f x v /\
    Qabs (v - (a + natq i * s)) <= 4 * 2 ^ (- prec f) * (Qabs a + natq i * Qabs s)).
  { intros i Hi. apply item_value; try assumption.
    - unfold n in Hi. lia.
    - assert (2 ^ 120 <= 2 ^ 124) by (vm_compute; discriminate). lra.
    - assert (NI : natq i <= Q + 3).
      { assert (X : natq i <= inject_Z (Qceiling q' - 1)) by (unfold natq; rewrite <- Zle_Qle; unfold n in Hi; lia). lra. }
      apply Qle_trans with ((Q + 3) * Qabs s); [apply Qmult_le_compat_r; [exact NI|lra]|].
      setoid_replace ((Q + 3) * Qabs s) with (Q * Qabs s + 3 * Qabs s) by ring. rewrite RA.
      assert (2 ^ 120 + 2 ^ 121 + 3 * 2 ^ 120 <= 2 ^ 124) by (vm_compute; discriminate). lra. }
  destruct (mapM_Ok (arange_item (float_type f) start step) (seq 0 n)) as (l & El).
  { intros i Hi. apply in_seq in Hi. destruct (IT i ltac:(lia)) as (x & v & E & _). eauto. }
  pose proof (mapM_length _ _ _ El) as LL. rewrite seq_length in LL.
  exists l, q'. split; [unfold arange_data; rewrite EC; cbn [bind]; exact El|].
  split; [rewrite LL; unfold n; lia|]. split; [exact HI|].
  intros i Hi. rewrite LL in Hi. destruct (IT i Hi) as (x & v & E & V & H).
  exists x, v. split; [|split; assumption].
  assert (SN : nth_error (seq 0 n) i = Some i).
  { rewrite (nth_error_nth' _ 0%nat) by (rewrite seq_length; exact Hi). now rewrite seq_nth by exact Hi. }
  destruct (mapM_nth _ _ _ _ _ El SN) as (y & Ey & Ny). congruence.
Qed.

(** ** C71: arange *)
Theorem C71_arange : forall f (h : heap spec_float) start stop step a b s, std f ->
  has_value f start a -> has_value f stop b -> has_value f step s ->
  Qabs a <= 2 ^ 120 -> Qabs b <= 2 ^ 120 -> 2 ^ (-126) <= Qabs s -> Qabs s <= 2 ^ 120 ->
  0 <= (b - a) / s -> (b - a) / s <= 2 ^ 20 ->
  exists h' r l, nd_arange_with_step (float_type f) h start stop step = Ok (h', r) /\ new_list h h' r l /\
    (Qceiling ((b - a) / s - 2 ^ (-20) * (1 + (b - a) / s)) <= Z.of_nat (length l) <=
     Qceiling ((b - a) / s + 2 ^ (-20) * (1 + (b - a) / s)))%Z /\
    points_within f l (fun i => a + natq i * s) (fun i => 4 * 2 ^ (- prec f) * (Qabs a + natq i * Qabs s)).
Proof.
  intros f h start stop step a b s S Va Vb Vs Ba Bb LS BS Q0 BQ.
  destruct (arange_data_near f start stop step a b s S Va Vb Vs Ba) as (l & q & E & LL & HQ & PW); try assumption.
  { assert (2 ^ 120 <= 2 ^ 121) by (vm_compute; discriminate). lra. }
  unfold nd_arange_with_step. rewrite E. cbn [bind].
  pose proof (from_buffer_new h l) as F. destruct (from_buffer h [length l] l) as [h' r].
  exists h', r, l. split; [reflexivity|]. split; [exact F|]. split; [|exact PW].
  rewrite LL. apply Qabs_Qle_condition in HQ. split; apply Qceiling_resp_le; lra.
Qed.
Print Assumptions C71_arange.

(** a range walked the wrong way by two steps or more *)
Theorem C71_wrong_way : forall f (h : heap spec_float) start stop step a b s, std f ->
  has_value f start a -> has_value f stop b -> has_value f step s ->
  Qabs a <= 2 ^ 120 -> Qabs b <= 2 ^ 120 -> 2 ^ (-126) <= Qabs s -> Qabs s <= 2 ^ 120 ->
  - 2 ^ 120 <= (b - a) / s -> (b - a) / s <= - (2) ->
  nd_arange_with_step (float_type f) h start stop step = Panic.
Proof.
  intros f h start stop step a b s S Va Vb Vs Ba Bb LS BS Q0 BQ.
  assert (BD : Qabs (b - a) <= 2 ^ 120 + 2 ^ 120).
  { pose proof (Qabs_triangle b (- a)) as T. rewrite Qabs_opp in T. unfold Qminus. lra. }
  assert (K1 : 2 ^ 120 + 2 ^ 120 <= 2 ^ 122) by (vm_compute; discriminate).
  assert (AQ : Qabs ((b - a) / s) == - ((b - a) / s)) by (apply Qabs_neg; lra).
  destruct (quotient_value f start stop step a b s S Va Vb Vs) as (q & Vq & Hq); try lra.
  rewrite AQ in Hq. set (Q := (b - a) / s) in *.
  destruct (arange_count_eq _ _ _ _ _ Vq) as (q' & Eq & EC).
  rewrite <- Eq in Hq. apply Qabs_Qle_condition in Hq. destruct Hq as [_ Hq].
  assert (HL : 2 ^ (-20) * (1 + - Q) <= (1 # 1000) * (1 + - Q)) by (apply Qmult_le_compat_r; [vm_compute; discriminate|lra]).
  pose proof (Qceiling_lt q') as C2.
  assert (C : (Qceiling q' - 1 < -1)%Z) by (rewrite Zlt_Qlt; change (inject_Z (-1)) with (-1); lra).
  assert (G : ((0 <=? Qceiling q') && (Qceiling q' <? 2 ^ 64))%Z = false) by (apply andb_false_iff; left; apply Z.leb_gt; lia).
  rewrite G in EC. unfold nd_arange_with_step, arange_data. rewrite EC. reflexivity.
Qed.
Print Assumptions C71_wrong_way.

Example C71_wrong_way_ex : exists a b s, has_value f32 (of_Z f32 5) a /\ has_value f32 (of_Z f32 0) b /\ has_value f32 (of_Z f32 1) s /\
  - 2 ^ 120 <= (b - a) / s /\ (b - a) / s <= - (2) /\ 2 ^ (-126) <= Qabs s.
Proof.
  exists 5, 0, 1. repeat (split; [try (split; [reflexivity|eexists; split; [vm_compute; reflexivity|reflexivity]]); try (vm_compute; discriminate)|]).
  vm_compute. discriminate.
Qed.

(** a step of zero, and ends that are not finite *)
Theorem C71_zero_step : forall f (h : heap spec_float) start stop z, std f ->
  nd_arange_with_step (float_type f) h start stop (S754_zero z) = Panic.
Proof.
  intros f h start stop z S. unfold nd_arange_with_step, arange_data, arange_count.
  cbn [n_sub float_type bind n_float]. unfold to_float. cbn [n_to_f32 n_float float_type convert].
  unfold fdiv. destruct (convert f (convert f32 (fsub f stop start))) as [y|y| |y m e]; reflexivity.
Qed.
Print Assumptions C71_zero_step.

Lemma sub_not_finite f x y : qval x = None \/ qval y = None -> qval (fsub f x y) = None.
Proof.
  intros H. unfold fsub. destruct x as [s|s| |s m e], y as [s'|s'| |s' m' e']; cbn [qval] in H; destruct H; try discriminate; try reflexivity;
    cbn; destruct (Bool.eqb _ _); reflexivity.
Qed.

Theorem C71_infinite_ends : forall f (h : heap spec_float) start stop step, std f ->
  qval start = None \/ qval stop = None ->
  nd_arange_with_step (float_type f) h start stop step = Panic.
Proof.
  intros f h start stop step S H. unfold nd_arange_with_step, arange_data, arange_count.
  cbn [n_sub float_type bind n_float]. unfold to_float. cbn [n_to_f32 n_float float_type].
  assert (N : qval (fsub f stop start) = None) by (apply sub_not_finite; tauto).
  destruct (fsub f stop start) as [y|y| |y m e]; cbn [qval] in N; try discriminate; cbn [convert]; unfold fdiv;
    destruct (convert f (convert f32 step)) as [z|z| |z m' e']; reflexivity.
Qed.
Print Assumptions C71_infinite_ends.

(** ** linspace *)
(** the step linspace computes is close to the exact one *)
Lemma step_near f start stop count a b k : std f -> has_value f start a -> has_value f stop b -> has_value f count k ->
  1 <= k -> Qabs a <= 2 ^ 118 -> Qabs b <= 2 ^ 118 -> 2 ^ (-125) <= Qabs (b - a) / k ->
  exists s, has_value f (fdiv f (fsub f stop start) count) s /\
    Qabs (s - (b - a) / k) <= 3 * 2 ^ (- prec f) * Qabs ((b - a) / k) /\ 2 ^ (-126) <= Qabs s /\ Qabs s <= 2 ^ 120.
Proof.
  intros S Va Vb Vk K1 Ba Bb LS. set (u := uround (prec f)) in *. change (2 ^ (- prec f)) with u.
  assert (u0 : 0 < u) by apply uround_pos. pose proof (std_u f S) as u1. fold u in u1.
  assert (u2 : u * 1000000 <= 1) by (pose proof U_small as [_ X]; unfold U in X; lra).
  set (d := b - a) in *. assert (Nk : ~ k == 0) by lra.
  assert (Ak : Qabs (d / k) == Qabs d / k).
  { unfold Qdiv. rewrite Qabs_Qmult, (Qabs_pos (/ k)); [reflexivity|]. apply Qinv_le_0_compat. lra. }
  assert (BD : Qabs d <= 2 ^ 119).
  { pose proof (Qabs_triangle b (- a)) as T. rewrite Qabs_opp in T. fold (b - a) in T. fold d in T.
    assert (2 ^ 118 + 2 ^ 118 <= 2 ^ 119) by (vm_compute; discriminate). lra. }
  set (W := Qabs (d / k)) in *. rewrite <- Ak in LS. fold W in LS.
  assert (EW : W * k == Qabs d) by (rewrite Ak; field; exact Nk).
  assert (NW : 0 <= W) by (unfold W; apply Qabs_nonneg).
  assert (BW : W <= 2 ^ 119) by (apply Qle_trans with (W * k); [nra|lra]).
  assert (C1 : 2 ^ 119 < 2 ^ 127) by reflexivity.
  destruct (op_sub f S stop start b a Vb Va) as (D & VD & HD); [fold d; lra|]. fold d in HD. fold u in HD.
  assert (HDk : Qabs (D / k - d / k) <= u * W).
  { setoid_replace (D / k - d / k) with ((D - d) / k) by (field; exact Nk). unfold Qdiv at 1. rewrite Qabs_Qmult, (Qabs_pos (/ k)) by (apply Qinv_le_0_compat; lra).
    apply Qle_trans with (u * Qabs d * / k); [apply Qmult_le_compat_r; [exact HD|apply Qinv_le_0_compat; lra]|].
    rewrite Ak. apply Qle_lteq. right. field. exact Nk. }
  assert (UW : u * W <= (1 # 1000000) * W) by (apply Qmult_le_compat_r; [lra|exact NW]).
  pose proof (abs_near _ _ _ HDk) as BDk. fold W in BDk.
  assert (C2 : 2 * 2 ^ 119 < 2 ^ 127) by reflexivity.
  destruct (op_div f S _ _ D k VD Vk Nk) as (s & Vs & Hs); [lra|]. fold u in Hs.
  exists s. split; [exact Vs|]. pose proof (abs_chain _ _ _ _ _ Hs HDk) as C.
  pose proof (std_tiny f S) as T. fold u in T.
  assert (T2 : 2 ^ (-126) == (1 # 2) * 2 ^ (-125)) by reflexivity.
  assert (TW : u * 2 ^ (-126) <= u * ((1 # 2) * W)) by (rewrite !(Qmult_comm u); apply Qmult_le_compat_r; lra).
  assert (X : u * Qabs (D / k) <= u * (W + u * W)) by (rewrite !(Qmult_comm u); apply Qmult_le_compat_r; lra).
  assert (Y : u * (u * W) <= u * ((1 # 1000000) * W)) by (rewrite !(Qmult_comm u); apply Qmult_le_compat_r; lra).
  assert (P : 0 <= u * W) by (apply Qmult_le_0_compat; lra).
  assert (H : Qabs (s - d / k) <= 3 * u * W) by lra.
  split; [exact H|]. pose proof (abs_near _ _ _ H) as B1. pose proof (abs_near' _ _ _ H) as B2. fold W in B1, B2.
  assert (C3 : 2 * 2 ^ 119 <= 2 ^ 120) by (vm_compute; discriminate). split; lra.
Qed.

(** points spaced by the computed step, seen from the exact points *)
Lemma points_exact f l a s S0 : std f -> Qabs (s - S0) <= 3 * 2 ^ (- prec f) * Qabs S0 ->
  points_within f l (fun i => a + natq i * s) (fun i => 4 * 2 ^ (- prec f) * (Qabs a + natq i * Qabs s)) ->
  points_within f l (fun i => a + natq i * S0) (fun i => 8 * 2 ^ (- prec f) * (Qabs a + natq i * Qabs S0)).
Proof.
  intros S HS P i Hi. destruct (P i Hi) as (x & v & E & V & H). exists x, v. split; [exact E|]. split; [exact V|].
  set (u := 2 ^ (- prec f)) in *. pose proof (std_u f S) as u1. change (uround (prec f)) with u in u1.
  assert (u0 : 0 < u) by apply two_pos. assert (u2 : u * 1000000 <= 1) by (pose proof U_small as [_ X]; unfold U in X; lra).
  pose proof (natq_nonneg i) as NI. pose proof (Qabs_nonneg S0) as NS. pose proof (Qabs_nonneg a) as NA.
  pose proof (abs_near _ _ _ HS) as B.
  assert (H2 : Qabs (a + natq i * s - (a + natq i * S0)) <= natq i * (3 * u * Qabs S0)).
  { setoid_replace (a + natq i * s - (a + natq i * S0)) with (natq i * (s - S0)) by ring.
    rewrite Qabs_Qmult, (Qabs_pos (natq i)) by exact NI. rewrite !(Qmult_comm (natq i)). now apply Qmult_le_compat_r. }
  pose proof (abs_chain _ _ _ _ _ H H2) as C.
  set (W := natq i * Qabs S0) in *. assert (NW : 0 <= W) by (unfold W; now apply Qmult_le_0_compat).
  assert (B2 : natq i * Qabs s <= (1 + 3 * u) * W).
  { unfold W. setoid_replace ((1 + 3 * u) * (natq i * Qabs S0)) with (natq i * (Qabs S0 + 3 * u * Qabs S0)) by ring.
    rewrite !(Qmult_comm (natq i)). now apply Qmult_le_compat_r. }
  assert (UW : u * W <= (1 # 1000000) * W) by (apply Qmult_le_compat_r; [lra|exact NW]).
  assert (X : u * (natq i * Qabs s) <= u * (W + 3 * (u * W))) by (rewrite !(Qmult_comm u); apply Qmult_le_compat_r; lra).
  assert (Y : u * (u * W) <= u * ((1 # 1000000) * W)) by (rewrite !(Qmult_comm u); apply Qmult_le_compat_r; lra).
  assert (0 <= u * W) by (apply Qmult_le_0_compat; lra). assert (0 <= u * Qabs a) by (apply Qmult_le_0_compat; lra).
  setoid_replace (natq i * (3 * u * Qabs S0)) with (3 * (u * W)) in C by (unfold W; ring). lra.
Qed.

(** the quotient of the exact span by the computed step *)
Lemma span_ratio d k s (u : Q) : 1 <= k -> 0 < Qabs d -> 0 < u -> 6 * u <= 1 ->
  Qabs (s - d / k) <= 3 * u * Qabs (d / k) -> ~ s == 0 /\ Qabs (d / s - k) <= 6 * u * k.
Proof.
  intros K Pd u0 u1 H. assert (Nk : ~ k == 0) by lra. pose proof (pos_abs _ Pd) as Nd.
  set (S0 := d / k) in *. assert (ES : S0 * k == d) by (unfold S0; field; exact Nk).
  assert (PS : 0 < Qabs S0).
  { apply abs_pos. intros E. apply Nd. rewrite <- ES, E. ring. }
  pose proof (abs_near' _ _ _ H) as L.
  assert (X : 6 * u * Qabs S0 <= Qabs S0) by nra.
  assert (Ls : (1 # 2) * Qabs S0 <= Qabs s) by lra.
  assert (Ps : 0 < Qabs s) by lra. pose proof (pos_abs _ Ps) as Ns. split; [exact Ns|].
  assert (E : (d / s - k) * s == - (k * (s - S0))).
  { setoid_replace ((d / s - k) * s) with (d - k * s) by (field; exact Ns). rewrite <- ES at 1. ring. }
  apply (Qmult_le_r _ _ (Qabs s) Ps). rewrite <- Qabs_Qmult, E, Qabs_opp, Qabs_Qmult, (Qabs_pos k) by lra.
  apply Qle_trans with (k * (3 * u * Qabs S0)); [rewrite !(Qmult_comm k); apply Qmult_le_compat_r; [exact H|lra]|].
  assert (3 * u * k * Qabs S0 <= 3 * u * k * (2 * Qabs s)); [|lra].
  rewrite !(Qmult_comm (3 * u * k)). apply Qmult_le_compat_r; [lra|]. nra.
Qed.

Lemma count_value f num : std f -> (2 <= num)%nat -> (Z.of_nat num <= 2 ^ 19)%Z ->
  has_value f (fsub f (of_Z f (Z.of_nat num)) (of_Z f 1)) (natq num - 1).
Proof.
  intros S N2 NB. pose proof (std_bounds f S) as SB. pose proof (std_pow f S) as SP.
  assert (R : rep (fsub f (of_Z f (Z.of_nat num)) (of_Z f 1)) (Z.of_nat num - 1)).
  { apply sub_rep; try lia; apply of_Z_rep; lia. }
  destruct (rep_finite _ _ R) as [F V].
  pose proof (op_int f S (Z.of_nat num) ltac:(lia)) as V1. pose proof (op_int f S 1 ltac:(lia)) as V2.
  destruct (op_sub f S _ _ _ _ V1 V2) as (c & (Vc & _) & _).
  - unfold Qminus. rewrite <- inject_Z_opp, <- inject_Z_plus.
    rewrite Qabs_pos by (change 0 with (inject_Z 0); rewrite <- Zle_Qle; lia).
    change (2 ^ 127) with (inject_Z (2 ^ 127)). rewrite <- Zlt_Qlt. lia.
  - split; [exact Vc|]. exists (qv (fsub f (of_Z f (Z.of_nat num)) (of_Z f 1))). split; [now apply finite_qv|].
    rewrite V. unfold natq, Qminus. change (- (1)) with (inject_Z (-1)). rewrite <- inject_Z_plus. reflexivity.
Qed.

Lemma natq_le n (z : Z) : (Z.of_nat n <= z)%Z -> natq n <= inject_Z z.
Proof. intros H. unfold natq. rewrite <- Zle_Qle. exact H. Qed.

(** a quotient less than one away from n has n or n + 1 below it *)
Lemma ceiling_near q n m : Qabs (q - natq n) < 1 -> Z.of_nat m = Qceiling q -> m = n \/ m = S n.
Proof.
  intros H E. apply Qabs_Qlt_condition in H. destruct H as [H1 H2].
  pose proof (Qle_ceiling q) as C1. pose proof (Qceiling_lt q) as C2. rewrite <- E in C1, C2.
  assert (Z.of_nat n - 1 < Z.of_nat m)%Z.
  { rewrite Zlt_Qlt. replace (Z.of_nat n - 1)%Z with (Z.of_nat n + -1)%Z by lia. rewrite inject_Z_plus. fold (natq n).
    change (inject_Z (-1)) with (- (1)). lra. }
  assert (Z.of_nat m - 1 < Z.of_nat n + 1)%Z.
  { rewrite Zlt_Qlt. rewrite inject_Z_plus. fold (natq n). change (inject_Z 1) with 1. lra. }
  lia.
Qed.

Theorem C71_linspace : forall f (h : heap spec_float) start stop num a b, std f ->
  has_value f start a -> has_value f stop b -> Qabs a <= 2 ^ 118 -> Qabs b <= 2 ^ 118 ->
  (2 <= num)%nat -> (Z.of_nat num <= 2 ^ 19)%Z ->
  2 ^ (-125) <= Qabs (b - a) / (natq num - 1) -> Qabs b * (natq num - 1) <= 2 ^ 20 * Qabs (b - a) ->
  exists h' r l, nd_linspace f h start stop num = Ok (h', r) /\ new_list h h' r l /\
    (length l = num \/ length l = S num) /\
    points_within f l (fun i => a + natq i * ((b - a) / (natq num - 1)))
      (fun i => 8 * 2 ^ (- prec f) * (Qabs a + natq i * Qabs ((b - a) / (natq num - 1)))).
Proof.
  intros f h start stop num a b S Va Vb Ba Bb N2 NB LS HB.
  set (k := natq num - 1) in *. set (d := b - a) in *.
  assert (Kk : 1 <= k) by (unfold k, natq; assert (inject_Z 2 <= inject_Z (Z.of_nat num)) by (rewrite <- Zle_Qle; lia); change (inject_Z 2) with 2 in *; lra).
  assert (Bk : k <= 2 ^ 19 - 1) by (unfold k; pose proof (natq_le num _ NB) as X; change (inject_Z (2 ^ 19)) with (2 ^ 19) in X; lra).
  destruct (step_near f start stop _ a b k S Va Vb (count_value f num S N2 NB) Kk Ba Bb LS) as (s & Vs & Hs & Ls & Bs).
  fold d in Hs. unfold nd_linspace, linspace_data.
  rewrite (proj2 (Nat.ltb_lt 0 num)) by lia. cbn [guard bind]. rewrite (proj2 (Nat.eqb_neq num 1)) by lia.
  set (step := fdiv f (fsub f stop start) (fsub f (of_Z f (Z.of_nat num)) (of_Z f 1))) in *.
  set (u := uround (prec f)) in *. change (2 ^ (- prec f)) with u in *.
  assert (u0 : 0 < u) by apply uround_pos. pose proof (std_u f S) as u1. fold u in u1. fold U in u1.
  assert (C3 : 2 ^ 118 + 2 ^ 120 < 2 ^ 121) by reflexivity. assert (C4 : 2 ^ 121 < 2 ^ 127) by reflexivity.
  pose proof (Qabs_triangle b s) as Tbs.
  destruct (op_add f S _ _ _ _ Vb Vs) as (e & Ve & He); [lra|]. fold u in He.
  pose proof (abs_near _ _ _ He) as Be.
  assert (u2 : u * 1000000 <= 1) by (pose proof U_small as [_ X]; lra).
  assert (UB : u * Qabs (b + s) <= (1 # 1000000) * (2 ^ 118 + 2 ^ 120)).
  { apply Qle_trans with ((1 # 1000000) * Qabs (b + s)); [apply Qmult_le_compat_r; [lra|apply Qabs_nonneg]|]. lra. }
  assert (C5 : (1 # 1000000) * (2 ^ 118 + 2 ^ 120) + (2 ^ 118 + 2 ^ 120) <= 2 ^ 121) by (vm_compute; discriminate).
  assert (Ps : 0 < Qabs s) by (eapply Qlt_le_trans; [|exact Ls]; reflexivity).
  assert (Pd : 0 < Qabs d).
  { assert (X : 0 < Qabs d / k) by (eapply Qlt_le_trans; [|exact LS]; reflexivity).
    assert (Y : 0 < Qabs d / k * k) by (apply Qmult_lt_0_compat; lra).
    setoid_replace (Qabs d / k * k) with (Qabs d) in Y by (field; lra). exact Y. }
  destruct (span_ratio d k s u Kk Pd u0 ltac:(lra) Hs) as [Ns HR].
  (* the span actually walked *)
  assert (EQ : (e - a) / s == d / s + 1 + (e - (b + s)) / s) by (unfold d; field; exact Ns).
  assert (HE : Qabs ((e - (b + s)) / s) <= (1 # 4)).
  { unfold Qdiv. rewrite Qabs_Qmult. apply (Qmult_le_r _ _ (Qabs s) Ps). rewrite <- Qmult_assoc, <- Qabs_Qmult.
    setoid_replace (/ s * s) with 1 by (field; exact Ns). change (Qabs 1) with 1. rewrite Qmult_1_r.
    assert (Kb : Qabs b <= 2 ^ 20 * (Qabs d / k)).
    { apply (Qmult_le_r _ _ k); [lra|]. setoid_replace (2 ^ 20 * (Qabs d / k) * k) with (2 ^ 20 * Qabs d) by (field; lra). exact HB. }
    assert (Ak : Qabs (d / k) == Qabs d / k).
    { unfold Qdiv. rewrite Qabs_Qmult, (Qabs_pos (/ k)); [reflexivity|]. apply Qinv_le_0_compat. lra. }
    pose proof (abs_near' _ _ _ Hs) as L. rewrite <- Ak in Kb. set (W := Qabs (d / k)) in *. assert (NW : 0 <= W) by apply Qabs_nonneg.
    assert (X : 3 * u * W <= (1 # 2) * W) by (apply Qmult_le_compat_r; lra).
    assert (Wb : W <= 2 * Qabs s) by lra.
    eapply Qle_trans; [exact He|].
    apply Qle_trans with (U * Qabs (b + s)); [apply scale_u; [exact u1|apply Qabs_nonneg]|].
    apply Qle_trans with (U * ((2 ^ 20 * 2 + 1) * Qabs s)); [apply scale; lra|].
    rewrite Qmult_assoc. apply Qmult_le_compat_r; [vm_compute; discriminate|lra]. }
  assert (UK : 6 * u * k <= (3 # 16)).
  { apply Qle_trans with (6 * U * k); [apply Qmult_le_compat_r; lra|]. rewrite Qmult_comm.
    apply Qle_trans with ((2 ^ 19 - 1) * (6 * U)); [apply Qmult_le_compat_r; [exact Bk|vm_compute; discriminate]|vm_compute; discriminate]. }
  assert (HN : Qabs ((e - a) / s - natq num) <= (7 # 16)).
  { rewrite EQ. setoid_replace (d / s + 1 + (e - (b + s)) / s - natq num) with ((d / s - k) + (e - (b + s)) / s) by (unfold k; ring).
    eapply Qle_trans; [apply Qabs_triangle|]. lra. }
  pose proof HN as HN'. apply Qabs_Qle_condition in HN'. destruct HN' as [HN1 HN2].
  assert (EK : natq num == k + 1) by (unfold k; ring).
  assert (C6 : 2 ^ 19 + 1 <= 2 ^ 20) by (vm_compute; discriminate).
  assert (C7 : 2 ^ 118 <= 2 ^ 120) by (vm_compute; discriminate).
  destruct (arange_data_near f start (fadd f stop step) step a e s S Va Ve Vs) as (l & q & E & LL & HQ & PW); try lra.
  fold step. rewrite E. cbn [bind].
  pose proof (from_buffer_new h l) as F. destruct (from_buffer h [length l] l) as [h' r].
  exists h', r, l. split; [reflexivity|]. split; [exact F|]. split.
  - apply (ceiling_near q); [|exact LL]. pose proof (abs_chain _ _ _ _ _ HQ HN) as C.
    assert (X : 2 ^ (-20) * (1 + (e - a) / s) <= 2 ^ (-20) * (2 ^ 19 + 2)).
    { rewrite !(Qmult_comm (2 ^ (-20))). apply Qmult_le_compat_r; [lra|vm_compute; discriminate]. }
    assert (Y : 2 ^ (-20) * (2 ^ 19 + 2) + (7 # 16) < 1) by (vm_compute; reflexivity). lra.
  - apply (points_exact f l a s (d / k) S Hs PW).
Qed.
Print Assumptions C71_linspace.

Theorem C71_linspace_exclusive : forall f (h : heap spec_float) start stop num a b, std f ->
  has_value f start a -> has_value f stop b -> Qabs a <= 2 ^ 118 -> Qabs b <= 2 ^ 118 ->
  (2 <= num)%nat -> (Z.of_nat num <= 2 ^ 19)%Z -> 2 ^ (-125) <= Qabs (b - a) / natq num ->
  exists h' r l, nd_linspace_exclusive f h start stop num = Ok (h', r) /\ new_list h h' r l /\
    (length l = num \/ length l = S num) /\
    points_within f l (fun i => a + natq i * ((b - a) / natq num))
      (fun i => 8 * 2 ^ (- prec f) * (Qabs a + natq i * Qabs ((b - a) / natq num))).
Proof.
  intros f h start stop num a b S Va Vb Ba Bb N2 NB LS.
  set (k := natq num) in *. set (d := b - a) in *.
  assert (Kk : 2 <= k) by (unfold k, natq; assert (inject_Z 2 <= inject_Z (Z.of_nat num)) by (rewrite <- Zle_Qle; lia); change (inject_Z 2) with 2 in *; lra).
  assert (Bk : k <= 2 ^ 19) by (unfold k; pose proof (natq_le num _ NB) as X; change (inject_Z (2 ^ 19)) with (2 ^ 19) in X; lra).
  destruct (step_near f start stop _ a b k S Va Vb (op_int f S (Z.of_nat num) ltac:(lia)) ltac:(lra) Ba Bb LS) as (s & Vs & Hs & Ls & Bs).
  fold d in Hs. unfold nd_linspace_exclusive, linspace_exclusive_data.
  rewrite (proj2 (Nat.ltb_lt 0 num)) by lia. cbn [guard bind]. rewrite (proj2 (Nat.eqb_neq num 1)) by lia.
  set (step := fdiv f (fsub f stop start) (of_Z f (Z.of_nat num))) in *.
  set (u := uround (prec f)) in *. change (2 ^ (- prec f)) with u in *.
  assert (u0 : 0 < u) by apply uround_pos. pose proof (std_u f S) as u1. fold u in u1. fold U in u1.
  assert (u2 : u * 1000000 <= 1) by (pose proof U_small as [_ X]; lra).
  assert (Pd : 0 < Qabs d).
  { assert (X : 0 < Qabs d / k) by (eapply Qlt_le_trans; [|exact LS]; reflexivity).
    assert (Y : 0 < Qabs d / k * k) by (apply Qmult_lt_0_compat; lra).
    setoid_replace (Qabs d / k * k) with (Qabs d) in Y by (field; lra). exact Y. }
  destruct (span_ratio d k s u ltac:(lra) Pd u0 ltac:(lra) Hs) as [Ns HR].
  assert (UK : 6 * u * k <= (3 # 16)).
  { apply Qle_trans with (6 * U * k); [apply Qmult_le_compat_r; lra|]. rewrite Qmult_comm.
    apply Qle_trans with (2 ^ 19 * (6 * U)); [apply Qmult_le_compat_r; [exact Bk|vm_compute; discriminate]|vm_compute; discriminate]. }
  assert (HN : Qabs (d / s - natq num) <= (3 # 16)) by (fold k; lra).
  pose proof HN as HN'. apply Qabs_Qle_condition in HN'. destruct HN' as [HN1 HN2]. fold k in HN1, HN2.
  assert (C6 : 2 ^ 19 + 1 <= 2 ^ 20) by (vm_compute; discriminate).
  assert (C7 : 2 ^ 118 <= 2 ^ 120) by (vm_compute; discriminate).
  assert (C8 : 2 ^ 118 <= 2 ^ 121) by (vm_compute; discriminate).
  destruct (arange_data_near f start stop step a b s S Va Vb Vs) as (l & q & E & LL & HQ & PW); fold d; try lra.
  fold d in HQ. fold step. rewrite E. cbn [bind].
  pose proof (from_buffer_new h l) as F. destruct (from_buffer h [length l] l) as [h' r].
  exists h', r, l. split; [reflexivity|]. split; [exact F|]. split.
  - apply (ceiling_near q); [|exact LL]. pose proof (abs_chain _ _ _ _ _ HQ HN) as C.
    assert (X : 2 ^ (-20) * (1 + d / s) <= 2 ^ (-20) * (2 ^ 19 + 2)).
    { rewrite !(Qmult_comm (2 ^ (-20))). apply Qmult_le_compat_r; [lra|vm_compute; discriminate]. }
    assert (Y : 2 ^ (-20) * (2 ^ 19 + 2) + (3 # 16) < 1) by (vm_compute; reflexivity). lra.
  - apply (points_exact f l a s (d / k) S Hs PW).
Qed.
Print Assumptions C71_linspace_exclusive.

(** ** Concrete cases *)
(** arange_with_step(0f64, 0.3, 0.1): the quotient is within the bound of three, and four
    points come back *)
Example C71_arange_ex : exists a b s l, has_value f64 (of_Z f64 0) a /\ has_value f64 lit_0_3 b /\ has_value f64 lit_0_1 s /\
  Qabs a <= 2 ^ 120 /\ Qabs b <= 2 ^ 120 /\ 2 ^ (-126) <= Qabs s /\ Qabs s <= 2 ^ 120 /\
  0 <= (b - a) / s /\ (b - a) / s <= 2 ^ 20 /\
  arange_data (float_type f64) (of_Z f64 0) lit_0_3 lit_0_1 = Ok l /\ length l = 4%nat /\
  Qceiling ((b - a) / s - 2 ^ (-20) * (1 + (b - a) / s)) = 3%Z /\ Qceiling ((b - a) / s + 2 ^ (-20) * (1 + (b - a) / s)) = 4%Z.
Proof.
  eexists _, _, _, _.
  split; [split; [reflexivity|eexists; split; [vm_compute; reflexivity|reflexivity]]|].
  split; [split; [reflexivity|eexists; split; [vm_compute; reflexivity|reflexivity]]|].
  split; [split; [reflexivity|eexists; split; [vm_compute; reflexivity|reflexivity]]|].
  repeat (split; [vm_compute; first [discriminate|reflexivity]|]). vm_compute. reflexivity.
Qed.

(** linspace_exclusive(0f64, 1, 25) returns 26 *)
Example C71_exclusive_ex : exists a b l, has_value f64 (of_Z f64 0) a /\ has_value f64 (of_Z f64 1) b /\
  Qabs a <= 2 ^ 118 /\ Qabs b <= 2 ^ 118 /\ 2 ^ (-125) <= Qabs (b - a) / natq 25 /\
  linspace_exclusive_data f64 (of_Z f64 0) (of_Z f64 1) 25 = Ok l /\ length l = 26%nat.
Proof.
  eexists _, _, _.
  split; [split; [reflexivity|eexists; split; [vm_compute; reflexivity|reflexivity]]|].
  split; [split; [reflexivity|eexists; split; [vm_compute; reflexivity|reflexivity]]|].
  repeat (split; [vm_compute; first [discriminate|reflexivity]|]). vm_compute. reflexivity.
Qed.

(** linspace(0f64, 1, 6) meets the hypotheses and returns seven points *)
Example C71_linspace_ex : exists a b l, has_value f64 (of_Z f64 0) a /\ has_value f64 (of_Z f64 1) b /\
  Qabs a <= 2 ^ 118 /\ Qabs b <= 2 ^ 118 /\ 2 ^ (-125) <= Qabs (b - a) / (natq 6 - 1) /\
  Qabs b * (natq 6 - 1) <= 2 ^ 20 * Qabs (b - a) /\
  linspace_data f64 (of_Z f64 0) (of_Z f64 1) 6 = Ok l /\ length l = 7%nat.
Proof.
  eexists _, _, _.
  split; [split; [reflexivity|eexists; split; [vm_compute; reflexivity|reflexivity]]|].
  split; [split; [reflexivity|eexists; split; [vm_compute; reflexivity|reflexivity]]|].
  repeat (split; [vm_compute; first [discriminate|reflexivity]|]). vm_compute. reflexivity.
Qed.

(** Why the ends must not be large against the step: linspace(2^24 f32, 2^24 + 2, 5) adds half
    to the end, which is lost in rounding, and returns four points. *)
Theorem C71_large_ends : exists (start stop : spec_float) (l : list spec_float) a b,
  has_value f32 start a /\ has_value f32 stop b /\ Qabs a <= 2 ^ 118 /\ Qabs b <= 2 ^ 118 /\
  2 ^ (-125) <= Qabs (b - a) / (natq 5 - 1) /\
  linspace_data f32 start stop 5 = Ok l /\ length l = 4%nat.
Proof.
  exists (of_Z f32 16777216), (of_Z f32 16777218). eexists _, _, _.
  split; [split; [reflexivity|eexists; split; [vm_compute; reflexivity|reflexivity]]|].
  split; [split; [reflexivity|eexists; split; [vm_compute; reflexivity|reflexivity]]|].
  repeat (split; [vm_compute; first [discriminate|reflexivity]|]). vm_compute. reflexivity.
Qed.
Print Assumptions C71_large_ends.

(** Why the bounds on the magnitudes are those of f32 in both formats: f64 numbers outside its
    range make arange panic, here from 0 to 3 * 2^200 in steps of 2^200. *)
Theorem C71_f64_beyond_f32 : exists (stop step : spec_float) a s,
  has_value f64 stop a /\ has_value f64 step s /\ a / s == 3 /\
  forall h : heap spec_float, nd_arange_with_step (float_type f64) h (of_Z f64 0) stop step = Panic.
Proof.
  exists (of_Z f64 (3 * 2 ^ 200)), (of_Z f64 (2 ^ 200)). eexists _, _.
  split; [split; [reflexivity|eexists; split; [vm_compute; reflexivity|reflexivity]]|].
  split; [split; [reflexivity|eexists; split; [vm_compute; reflexivity|reflexivity]]|].
  split; [vm_compute; reflexivity|]. intros h. vm_compute. reflexivity.
Qed.
Print Assumptions C71_f64_beyond_f32.
