(** FloatCert.v: the operations on floats respect the bounds of SpecCert.v. *)
From Coq Require Import List Arith Lia Lqa Bool ZArith QArith Qcanon Qabs Qpower Qround Qminmax Floats.SpecFloat.
From Verif Require Import Base Layout Views Kernels Access Reduce Einsum SpecGrad Autograd Numeric NumericFacts FloatErr FloatSum FloatDot
  Param Blackbox BlackboxGrad BuildsGrad BlackboxKern SpecCert PropsGrad.
Import ListNotations.
Close Scope Qc_scope.
Open Scope res_scope.
Open Scope Q_scope.

(** ** The engine on floats: matrix products use mul_add (src/linalg/sum_of_products.rs 110, 129),
    which rounds once *)
Definition fused_kern {T} (N : num T) (fma : T -> T -> T -> T) : kern T :=
  mkKern (a_bin N) (a_scal N) (a_neg N) (a_dot N)
    (nd_matmul (n0 N) (n1 N) (lift2 (nadd N)) (lift2 (nmul N)) (fun x y z => Ok (fma x y z)))
    (nd_bmm (n0 N) (n1 N) (lift2 (nadd N)) (lift2 (nmul N)) (fun x y z => Ok (fma x y z)))
    (nd_assign (lift2 (nadd N))).
(** f32 and f64 (IEEE 754, round to nearest even) *)
Definition float_num (f : fmt) : num spec_float :=
  mkNum (S754_zero false) (of_Z f 1) (fadd f) (fsub f) (fmul f) (fdiv f) SFopp.
Definition float_kern (f : fmt) : kern spec_float := fused_kern (float_num f) (ffma f).

Lemma fused_rel {T U} (R : T -> U -> Prop) N N' D fma fma' : num_rel R N N' D ->
  (forall x x' y y' z z', R x x' -> R y y' -> R z z' -> R (fma x y z) (fma' x' y' z')) -> kern_rel R D (fused_kern N fma) (fused_kern N' fma').
Proof.
  intros NR FM.
  assert (AD : forall x x' y y', R x x' -> R y y' -> rres R (lift2 (nadd N) x y) (lift2 (nadd N') x' y')) by (intros; cbn; now apply (nr_bop _ _ _ _ NR BAdd)).
  assert (MU : forall x x' y y', R x x' -> R y y' -> rres R (lift2 (nmul N) x y) (lift2 (nmul N') x' y')) by (intros; cbn; now apply (nr_bop _ _ _ _ NR BMul)).
  assert (FX : forall x x' y y' z z', R x x' -> R y y' -> R z z' -> rres R (Ok (fma x y z)) (Ok (fma' x' y' z'))) by (intros; cbn; auto).
  split; cbn [fused_kern k_bin k_scal k_neg k_dot k_matmul k_bmm k_add]; intros.
  - now apply (bg_bin R N N' D NR).
  - now apply (bg_scal R N N' D NR).
  - now apply (bg_neg R N N' D NR).
  - now apply (bg_dot R N N' D NR).
  - apply (bb_nd_matmul R _ _ _ _ _ _ _ _ _ _ (nr_0 _ _ _ _ NR) (nr_1 _ _ _ _ NR) AD MU FX); auto.
  - apply (bb_nd_bmm R _ _ _ _ _ _ _ _ _ _ (nr_0 _ _ _ _ NR) (nr_1 _ _ _ _ NR) AD MU FX); auto.
  - apply (bb_nd_assign R _ _ AD); auto.
Qed.

(** ** A float and a certified number *)
Section Float.
  Variable f : fmt.
  Hypothesis ST : std f.
  Local Notation p := (prec f).
  Local Notation em := (emax f).
  Let Hp : (2 <= p)%Z. Proof. destruct ST as [-> | ->]; cbn; lia. Qed.
  Let He : (p + 2 <= em)%Z. Proof. destruct ST as [-> | ->]; cbn; lia. Qed.

  Definition stands (x : spec_float) (c : cert) : Prop :=
    match c_err c with
    | Some e => valid_binary p em x = true /\ exists q, qval x = Some q /\ Qabs (q - c_val c) <= e
    | None => True
    end.

  Lemma coarse_ge e : e <= coarse f e.
  Proof.
    unfold coarse. rewrite Qred_correct. assert (P : 0 < half_least f) by (unfold half_least; now apply Qpower_0_lt).
    pose proof (Qle_ceiling (e / half_least f)) as H. setoid_replace e with ((e / half_least f) * half_least f) at 1 by (field; lra). apply Qmult_le_compat_r; [exact H|lra].
  Qed.
  Lemma fits_ok v : fits f v = true -> exists V k, (Z.abs V < 2 ^ p)%Z /\ (emin p em <= k)%Z /\ this v == inject_Z V * 2 ^ k /\ Qabs v < 2 ^ em.
  Proof.
    unfold fits. cbv zeta. set (n := Qnum v). set (d := Qden v). set (j := Z.log2 (Zpos d)). set (l := Z.log2 (Z.abs n)). set (t := Z.max 0 (l + 1 - p)).
    intros H. apply andb_prop in H as [H H4]. apply andb_prop in H as [H H3]. apply andb_prop in H as [H1 H2].
    apply Z.eqb_eq in H1, H2. apply Z.leb_le in H3. apply Z.ltb_lt in H4.
    assert (Tn : (0 <= t)%Z) by (unfold t; lia). assert (Jn : (0 <= j)%Z) by apply Z.log2_nonneg. assert (Ln : (0 <= l)%Z) by apply Z.log2_nonneg.
    pose proof (pow2_pos t Tn) as Pt.
    assert (NV : (n = n / 2 ^ t * 2 ^ t)%Z) by (pose proof (Z.div_mod n (2 ^ t) ltac:(lia)); lia).
    assert (AN : (Z.abs n < 2 ^ (l + 1))%Z).
    { destruct (Z.eq_dec n 0) as [E|N]; [rewrite E; apply pow2_pos; lia|]. apply (Z.log2_spec (Z.abs n)). lia. }
    assert (VQ : this v == inject_Z n * 2 ^ (- j)).
    { assert (X : this v == inject_Z n / inject_Z (Zpos d)) by (unfold n, d; destruct (this v) as [a b]; cbn [Qnum Qden]; apply Qmake_Qdiv).
      rewrite X, H1, two_Z by lia. rewrite Qpower_opp. reflexivity. }
    exists (n / 2 ^ t)%Z, (t - j)%Z. split; [|split; [exact H3|split]].
    - assert (LP : (2 ^ (l + 1) <= 2 ^ p * 2 ^ t)%Z) by (rewrite <- pow2_split by lia; apply Z.pow_le_mono_r; unfold t; lia).
      assert (Z.abs n = Z.abs (n / 2 ^ t) * 2 ^ t)%Z by (rewrite NV at 1; rewrite Z.abs_mul, (Z.abs_eq (2 ^ t)); lia). nia.
    - rewrite VQ, NV at 1. rewrite inject_Z_mult, two_Z by lia. unfold Z.sub. rewrite two_add. ring.
    - assert (X : Qabs v == inject_Z (Z.abs n) * 2 ^ (- j)). { rewrite VQ, Qabs_Qmult, (Qabs_pos (2 ^ (- j))) by (apply Qlt_le_weak, two_pos). reflexivity. }
      rewrite X. apply Qlt_le_trans with (inject_Z (2 ^ (l + 1)) * 2 ^ (- j)).
      + apply Qmult_lt_r; [apply two_pos|]. rewrite <- Zlt_Qlt. exact AN.
      + rewrite two_Z by lia. rewrite <- two_add. apply two_le. lia.
  Qed.
  Lemma rounded_ok r v (w : Q) slack a : rounds p em slack a r -> Qabs (a - this v) <= w -> stands r (rounded f v w slack).
  Proof.
    intros RD W. unfold stands, rounded. cbv zeta. cbn [c_err]. destruct (Qeq_bool w 0 && fits f v) eqn:EX.
    { apply andb_prop in EX as [W0 FT]. apply Qeq_bool_iff in W0. rewrite W0 in W.
      assert (AV : a == v). { assert (X := Qle_Qabs (a - v)). assert (Y := Qle_Qabs (- (a - v))). rewrite Qabs_opp in Y. lra. }
      destruct (fits_ok v FT) as (V & k & F1 & F2 & F3 & F4). destruct RD as [[VB EXA] _]. split; [exact VB|]. rewrite <- AV in F3, F4.
      destruct (EXA V k F1 F2 F3 F4) as (c & Q & E). exists c. split; [exact Q|]. cbn [c_val]. rewrite E, AV. setoid_replace (v - v) with 0 by ring. apply Qle_refl. }
    destruct (Qle_bool (limit f) (Qabs v + w)) eqn:L; [exact I|].
    assert (LT : Qabs v + w < limit f). { apply Qnot_le_lt. intros H. apply Qle_bool_iff in H. congruence. }
    assert (AB : Qabs a <= Qabs v + w).
    { setoid_replace a with (v + (a - v)) by ring. eapply Qle_trans; [apply Qabs_triangle|]. lra. }
    split; [apply (proj1 RD)|]. destruct RD as [_ [(c & Q & E)|[Q E]]].
    - exists c. split; [exact Q|]. cbn [c_val]. eapply Qle_trans; [|apply coarse_ge].
      setoid_replace (c - v) with ((c - a) + (a - v)) by ring. eapply Qle_trans; [apply Qabs_triangle|].
      assert (U : uround p * Qabs a <= unit_roundoff f * (Qabs v + w)). { change (unit_roundoff f) with (uround p). rewrite Qmult_le_l; [exact AB|apply uround_pos]. }
      lra.
    - change (limit f) with (huge p em) in LT. lra.
  Qed.
  Lemma half_tiny : half_least f = tiny p em.
  Proof. unfold half_least, tiny, emin. f_equal. lia. Qed.
  Lemma this_sub (a b : Qc) : this (a - b)%Qc == this a - this b.
  Proof. unfold Qcminus. rewrite this_add. unfold Qcopp. cbn [this Q2Qc]. rewrite Qred_correct. reflexivity. Qed.
  Lemma this_opp (a : Qc) : this (- a)%Qc == - this a.
  Proof. unfold Qcopp. cbn [this Q2Qc]. apply Qred_correct. Qed.
  Lemma this_div (a b : Qc) : this (a / b)%Qc == this a / this b.
  Proof. unfold Qcdiv. rewrite this_mul. unfold Qcinv. cbn [this Q2Qc]. rewrite Qred_correct. reflexivity. Qed.

  Lemma stands_add x c y d : stands x c -> stands y d -> stands (fadd f x y) (c_add f c d).
  Proof.
    intros X Y. unfold c_add. unfold stands in X, Y. destruct (c_err c) as [a|]; [|exact I]. destruct (c_err d) as [b|]; [|exact I].
    destruct X as (Vx & q & Qx & Ex), Y as (Vy & r & Qy & Ey). eapply rounded_ok; [apply (add_q p em Hp He x y q r); auto|].
    rewrite this_add. setoid_replace (q + r - (c_val c + c_val d)) with ((q - c_val c) + (r - c_val d)) by ring. eapply Qle_trans; [apply Qabs_triangle|]. lra.
  Qed.
  Lemma stands_sub x c y d : stands x c -> stands y d -> stands (fsub f x y) (c_sub f c d).
  Proof.
    intros X Y. unfold c_sub. unfold stands in X, Y. destruct (c_err c) as [a|]; [|exact I]. destruct (c_err d) as [b|]; [|exact I].
    destruct X as (Vx & q & Qx & Ex), Y as (Vy & r & Qy & Ey). eapply rounded_ok; [apply (sub_q p em Hp He x y q r); auto|].
    rewrite this_sub. setoid_replace (q - r - (c_val c - c_val d)) with ((q - c_val c) + - (r - c_val d)) by ring. eapply Qle_trans; [apply Qabs_triangle|]. rewrite Qabs_opp. lra.
  Qed.
  Lemma prod_err q v a r w b : Qabs (q - v) <= a -> Qabs (r - w) <= b -> Qabs (q * r - v * w) <= Qabs v * b + Qabs w * a + a * b.
  Proof.
    intros A B. setoid_replace (q * r - v * w) with (v * (r - w) + w * (q - v) + (q - v) * (r - w)) by ring.
    eapply Qle_trans; [apply Qabs_triangle|]. apply Qplus_le_compat; [eapply Qle_trans; [apply Qabs_triangle|]; apply Qplus_le_compat|]; rewrite Qabs_Qmult.
    - rewrite (Qmult_comm (Qabs v)), (Qmult_comm (Qabs v)). apply Qmult_le_compat_r; [exact B|apply Qabs_nonneg].
    - rewrite (Qmult_comm (Qabs w)), (Qmult_comm (Qabs w)). apply Qmult_le_compat_r; [exact A|apply Qabs_nonneg].
    - apply mul_mono; auto using Qabs_nonneg.
  Qed.
  Lemma stands_mul x c y d : stands x c -> stands y d -> stands (fmul f x y) (c_mul f c d).
  Proof.
    intros X Y. unfold c_mul. unfold stands in X, Y. destruct (c_err c) as [a|]; [|exact I]. destruct (c_err d) as [b|]; [|exact I].
    destruct X as (Vx & q & Qx & Ex), Y as (Vy & r & Qy & Ey). eapply rounded_ok; [rewrite half_tiny; apply (mul_q p em Hp He x y q r); auto|].
    rewrite this_mul. now apply prod_err.
  Qed.
  Lemma stands_fma x c y d z e : stands x c -> stands y d -> stands z e -> stands (ffma f x y z) (c_fma f c d e).
  Proof.
    intros X Y Z. unfold c_fma. unfold stands in X, Y, Z. destruct (c_err c) as [a|]; [|exact I]. destruct (c_err d) as [b|]; [|exact I]. destruct (c_err e) as [g|]; [|exact I].
    destruct X as (Vx & q & Qx & Ex), Y as (Vy & r & Qy & Ey), Z as (Vz & s & Qz & Ez). eapply rounded_ok; [rewrite half_tiny; apply (fma_q p em Hp He x y z q r s); auto|].
    rewrite this_add, this_mul. setoid_replace (q * r + s - (c_val c * c_val d + c_val e)) with ((q * r - c_val c * c_val d) + (s - c_val e)) by ring.
    eapply Qle_trans; [apply Qabs_triangle|]. apply Qplus_le_compat; [now apply prod_err|exact Ez].
  Qed.
  Lemma stands_neg x c : stands x c -> stands (SFopp x) (c_neg c).
  Proof.
    unfold stands, c_neg. cbn [c_err c_val]. destruct (c_err c) as [a|]; [|auto]. intros (V & q & Q & E). split; [destruct x; exact V|].
    assert (X : exists q', qval (SFopp x) = Some q' /\ q' == - q).
    { destruct x as [s|s| |s m ex]; try discriminate; cbn [SFopp qval] in *; injection Q as <-; eexists; (split; [reflexivity|]); [reflexivity|].
      destruct s; cbn [negb cond_Zopp]; rewrite <- (inject_Z_opp (Z.pos m)) || change (Z.neg m) with (- Z.pos m)%Z; rewrite ?inject_Z_opp; ring. }
    destruct X as (q' & Q' & E'). exists q'. split; [exact Q'|].
    rewrite E', this_opp. setoid_replace (- q - - c_val c) with (- (q - c_val c)) by ring. rewrite Qabs_opp. exact E.
  Qed.
  Lemma quot_err q v a r w b : Qabs (q - v) <= a -> Qabs (r - w) <= b -> b < Qabs w ->
    ~ r == 0 /\ Qabs (q / r - v / w) <= (a * Qabs w + Qabs v * b) / ((Qabs w - b) * Qabs w).
  Proof.
    intros A B W. assert (B0 : 0 <= b) by (eapply Qle_trans; [apply Qabs_nonneg|exact B]).
    assert (RL : Qabs w - b <= Qabs r).
    { pose proof (Qabs_triangle r (w - r)) as H. setoid_replace (r + (w - r)) with w in H by ring. rewrite (Qabs_Qminus w r) in H. lra. }
    assert (R0 : ~ r == 0). { intros Z. rewrite Z in RL. change (Qabs 0) with 0 in RL. lra. }
    assert (W0 : ~ w == 0). { intros Z. rewrite Z in W. change (Qabs 0) with 0 in W. lra. }
    split; [exact R0|].
    setoid_replace (q / r - v / w) with (((q - v) * w + - (v * (r - w))) / (r * w)) by (field; auto).
    unfold Qdiv. rewrite Qabs_Qmult, Qabs_Qinv, Qabs_Qmult.
    assert (P1 : 0 < (Qabs w - b) * Qabs w) by (apply Qmult_lt_0_compat; lra).
    assert (P2 : (Qabs w - b) * Qabs w <= Qabs r * Qabs w) by (apply Qmult_le_compat_r; lra).
    assert (NUM : Qabs ((q - v) * w + - (v * (r - w))) <= a * Qabs w + Qabs v * b).
    { eapply Qle_trans; [apply Qabs_triangle|]. rewrite Qabs_opp, !Qabs_Qmult. apply Qplus_le_compat.
      - apply Qmult_le_compat_r; [exact A|apply Qabs_nonneg].
      - rewrite (Qmult_comm (Qabs v)), (Qmult_comm (Qabs v)). apply Qmult_le_compat_r; [exact B|apply Qabs_nonneg]. }
    apply mul_mono; auto using Qabs_nonneg.
    - apply Qinv_le_0_compat. lra.
    - set (s := (Qabs w - b) * Qabs w) in *. set (t := Qabs r * Qabs w) in *. clearbody s t. assert (T0 : 0 < t) by lra.
      setoid_replace (/ t) with (1 / t) by (field; lra). setoid_replace (/ s) with (1 / s) by (field; lra).
      apply Qle_shift_div_l; [exact P1|]. setoid_replace (1 / t * s) with (s / t) by (field; lra). apply Qle_shift_div_r; [exact T0|]. lra.
  Qed.
  Lemma stands_div x c y d : stands x c -> stands y d -> stands (fdiv f x y) (c_div f c d).
  Proof.
    intros X Y. unfold c_div. unfold stands in X, Y. destruct (c_err c) as [a|]; [|exact I]. destruct (c_err d) as [b|]; [|exact I].
    destruct (Qle_bool (Qabs (c_val d)) b) eqn:L; [exact I|]. assert (LT : b < Qabs (c_val d)). { apply Qnot_le_lt. intros H. apply Qle_bool_iff in H. congruence. }
    destruct X as (Vx & q & Qx & Ex), Y as (Vy & r & Qy & Ey). destruct (quot_err q (c_val c) a r (c_val d) b Ex Ey LT) as [R0 E].
    eapply rounded_ok; [rewrite half_tiny; apply (div_q p em Hp He x y q r); auto|]. rewrite this_div. exact E.
  Qed.

  (** a float as a certified number *)
  Definition certify (x : spec_float) : cert :=
    mkCert (Q2Qc (qv x)) (match qval x with Some _ => if valid_binary p em x then Some 0 else None | None => None end).
  Lemma stands_certify x : stands x (certify x).
  Proof.
    unfold stands, certify. cbn [c_err c_val]. unfold qv. destruct (qval x) as [q|]; [|exact I]. destruct (valid_binary p em x); [|exact I]. split; [reflexivity|].
    exists q. split; [reflexivity|]. cbn [this Q2Qc]. rewrite Qred_correct. setoid_replace (q - q) with 0 by ring. apply Qle_refl.
  Qed.

  Lemma stands_num : num_rel stands (float_num f) (cert_num f) True.
  Proof.
    split; cbn [float_num cert_num n0 n1 nneg].
    - split; [reflexivity|]. exists 0. split; [reflexivity|]. cbn. apply Qle_refl.
    - assert (V : valid_binary p em (of_Z f 1) = true) by (destruct ST as [E|E]; rewrite E; reflexivity).
      assert (Q : exists q, qval (of_Z f 1) = Some q /\ q == 1) by (destruct ST as [E|E]; rewrite E; eexists; (split; [reflexivity|]); reflexivity).
      split; [exact V|]. destruct Q as (q & Q & E). exists q. split; [exact Q|]. rewrite E. apply Qle_refl.
    - intros o x x' y y' _ X Y. destruct o; cbn [bopf nadd nsub nmul ndiv float_num cert_num]; auto using stands_add, stands_sub, stands_mul, stands_div.
    - apply stands_neg.
  Qed.
  Lemma stands_kern : kern_rel stands True (float_kern f) (fused_kern (cert_num f) (c_fma f)).
  Proof. apply fused_rel; [apply stands_num|]. intros. now apply stands_fma. Qed.

  (** ** a certified number and its exact value *)
  Definition means (c : cert) (q : Qc) : Prop := c_val c = q.
  Lemma means_rounded v w s : c_val (rounded f v w s) = v. Proof. reflexivity. Qed.
  Lemma means_num : num_rel means (cert_num f) QN True.
  Proof.
    split; cbn [QN cert_num n0 n1 nneg]; try reflexivity.
    - intros o x x' y y' _ <- <-. unfold means. destruct o; cbn [bopf nadd nsub nmul ndiv cert_num QN]; unfold c_add, c_sub, c_mul, c_div;
        destruct (c_err x), (c_err y); try reflexivity. destruct (Qle_bool _ _); reflexivity.
    - intros x x' <-. reflexivity.
  Qed.
  Lemma means_kern : kern_rel means True (fused_kern (cert_num f) (c_fma f)) (plain_kern QN).
  Proof.
    change (plain_kern QN) with (fused_kern QN (fun x y z => Qcplus (Qcmult x y) z)). apply fused_rel; [apply means_num|].
    intros x x' y y' z z' <- <- <-. unfold means, c_fma. destruct (c_err x), (c_err y), (c_err z); reflexivity.
  Qed.
End Float.
