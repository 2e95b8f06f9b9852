(** FloatSum.v: how far a floating-point sum is from the exact sum, for every order of
    the additions. *)
From Coq Require Import List Arith Lia Lqa Bool ZArith QArith Qpower Qabs Permutation Floats.SpecFloat.
From Verif Require Import Base Numeric NumericFacts FloatErr SimdRed.
Import ListNotations.
Open Scope Q_scope.

Definition finite (x : spec_float) : Prop := match x with S754_zero _ | S754_finite _ _ _ => True | _ => False end.
(** the value of a finite float *)
Definition qv (x : spec_float) : Q := match qval x with Some q => q | None => 0 end.
Definition qsum (l : list Q) : Q := fold_right Qplus 0 l.
Definition zero_float (x : spec_float) : bool := match x with S754_zero _ => true | _ => false end.

Lemma finite_qval x : finite x <-> exists q, qval x = Some q.
Proof. destruct x; cbn; split; intros H; eauto; try tauto; destruct H; discriminate. Qed.
Lemma finite_qv x : finite x -> qval x = Some (qv x).
Proof. intros H. apply finite_qval in H as (q & E). unfold qv. now rewrite E. Qed.
Lemma not_finite_qval x : ~ finite x -> qval x = None.
Proof. destruct x; cbn; tauto. Qed.
Lemma finite_dec x : {finite x} + {~ finite x}.
Proof. destruct x; cbn; auto. Qed.

Lemma qsum_app l m : qsum (l ++ m) == qsum l + qsum m.
Proof. induction l as [|x l IH]; cbn [app qsum fold_right]; [now rewrite Qplus_0_l|]. fold (qsum (l ++ m)) (qsum l). rewrite IH. ring. Qed.
Lemma qsum_perm l m : Permutation l m -> qsum l == qsum m.
Proof.
  induction 1; cbn [qsum fold_right] in *; [reflexivity| | |].
  - fold (qsum l) (qsum l'). now rewrite IHPermutation.
  - ring.
  - now rewrite IHPermutation1.
Qed.
Lemma qsum_abs_nonneg (l : list spec_float) : 0 <= qsum (map (fun x => Qabs (qv x)) l).
Proof. induction l as [|x l IH]; cbn [map qsum fold_right]; [lra|]. fold (qsum (map (fun x => Qabs (qv x)) l)). pose proof (Qabs_nonneg (qv x)). lra. Qed.
Lemma qsum_abs_le (l : list spec_float) : Qabs (qsum (map qv l)) <= qsum (map (fun x => Qabs (qv x)) l).
Proof.
  induction l as [|x l IH]; cbn [map qsum fold_right]; [cbn; lra|]. fold (qsum (map qv l)) (qsum (map (fun x => Qabs (qv x)) l)).
  eapply Qle_trans; [apply Qabs_triangle|]. lra.
Qed.

(** (1 + 2^-p)^k *)
Definition growth (p : Z) (k : nat) : Q := (1 + 2 ^ (- p)) ^ Z.of_nat k.

Lemma growth_0 p : growth p 0 == 1. Proof. reflexivity. Qed.
Lemma growth_add p j k : growth p (j + k) == growth p j * growth p k.
Proof. unfold growth. rewrite Nat2Z.inj_add. apply Qpower_plus. pose proof (two_pos (- p)). lra. Qed.
Lemma growth_S p k : growth p (S k) == (1 + 2 ^ (- p)) * growth p k.
Proof. change (S k) with (1 + k)%nat. rewrite growth_add. unfold growth at 1. now rewrite Qpower_1_r. Qed.
Lemma growth_ge p k : 1 <= growth p k.
Proof. unfold growth. apply Qpower_1_le; [|lia]. pose proof (two_pos (- p)). lra. Qed.
Lemma growth_mono p j k : (j <= k)%nat -> growth p j <= growth p k.
Proof. intros L. replace k with (j + (k - j))%nat by lia. rewrite growth_add. pose proof (growth_ge p (k - j)). pose proof (growth_ge p j). nra. Qed.

(** (1 + u)^k - 1 <= 2ku as long as ku <= 1: the usual reading of the bound *)
Lemma growth_le p k : inject_Z (Z.of_nat k) * 2 ^ (- p) <= 1 -> growth p k - 1 <= 2 * inject_Z (Z.of_nat k) * 2 ^ (- p).
Proof.
  pose proof (two_pos (- p)) as U. set (u := 2 ^ (- p)) in *.
  enough (G : forall k, inject_Z (Z.of_nat k) * u <= 1 -> growth p k <= 1 + inject_Z (Z.of_nat k) * u + (inject_Z (Z.of_nat k) * u) * (inject_Z (Z.of_nat k) * u)).
  { intros L. specialize (G k L). set (w := inject_Z (Z.of_nat k) * u) in *. assert (0 <= w).
    { unfold w. apply Qmult_le_0_compat; [|lra]. rewrite <- (Zle_Qle 0). lia. }
    setoid_replace (2 * inject_Z (Z.of_nat k) * u) with (2 * w) by (unfold w; ring). clearbody w. nra. }
  clear k. induction k as [|k IH]; intros L.
  - change (inject_Z (Z.of_nat 0)) with 0. rewrite growth_0. lra.
  - rewrite growth_S. fold u. rewrite Nat2Z.inj_succ in *. unfold Z.succ in *. rewrite inject_Z_plus in *. change (inject_Z 1) with 1 in *.
    set (n := inject_Z (Z.of_nat k)) in *. assert (N : 0 <= n) by (unfold n; rewrite <- (Zle_Qle 0); lia).
    assert (L' : n * u <= 1) by nra. specialize (IH L'). set (w := n * u) in *. assert (0 <= w) by (unfold w; nra).
    assert (LW : w + u <= 1) by (unfold w; lra).
    setoid_replace ((n + 1) * u) with (w + u) by (unfold w; ring).
    assert (X1 : (1 + u) * growth p k <= (1 + u) * (1 + w + w * w)) by (apply Qmult_le_l; [lra|exact IH]).
    clearbody w. generalize dependent (growth p k). intros g _ X1. assert (X2 : w * w <= w) by nra. assert (X3 : u * (w * w) <= u * w) by (apply Qmult_le_l; [exact U|exact X2]).
    assert (X4 : 0 <= u * w) by nra. clearbody u. nra.
Qed.

Section Sum.
Variables p em : Z.
Hypothesis Hp : (2 <= p)%Z.
Hypothesis He : (p + 2 <= em)%Z.
Let add := SFadd p em.
Let vb x := valid_binary p em x = true.

(** number of leaves that are not a zero *)
Definition weight (l : list spec_float) : nat := length (filter (fun x => negb (zero_float x)) l).

Lemma zero_value x : finite x -> qv x == 0 -> zero_float x = true.
Proof.
  destruct x as [s|s| |s m e]; cbn [finite]; try tauto. intros _. unfold qv. cbn [qval]. intros E. exfalso.
  pose proof (two_pos e). destruct s; [change (inject_Z (Zneg m)) with (- inject_Z (Zpos m)) in E|]; assert (0 < inject_Z (Zpos m)) by reflexivity; nra.
Qed.

Lemma weight_zero l : weight l = 0%nat -> qsum (map qv l) == 0 /\ qsum (map (fun x => Qabs (qv x)) l) == 0.
Proof.
  unfold weight. induction l as [|x l IH]; intros W; [split; reflexivity|]. cbn [filter] in W. destruct (zero_float x) eqn:Z; [|discriminate].
  cbn [negb] in W. destruct (IH W) as [I1 I2]. destruct x; try discriminate. cbn [map qsum fold_right]. fold (qsum (map qv l)) (qsum (map (fun x => Qabs (qv x)) l)).
  rewrite I1, I2. split; reflexivity.
Qed.
Lemma weight_app l m : weight (l ++ m) = (weight l + weight m)%nat.
Proof. unfold weight. now rewrite filter_app, app_length. Qed.

Lemma add_zero_l x y : zero_float x = true -> finite y -> finite (add x y) /\ qv (add x y) == qv y.
Proof. intros Z F. destruct x; try discriminate. destruct y; cbn [finite] in F; try tauto; cbn; [destruct (Bool.eqb s s0); cbn; split; [exact I|reflexivity..]|split; [exact I|reflexivity]]. Qed.
Lemma add_zero_r x y : zero_float y = true -> finite x -> finite (add x y) /\ qv (add x y) == qv x.
Proof. intros Z F. destruct y; try discriminate. destruct x; cbn [finite] in F; try tauto; cbn; [destruct (Bool.eqb s0 s); cbn; split; [exact I|reflexivity..]|split; [exact I|reflexivity]]. Qed.
Lemma add_valid x y : vb x -> vb y -> vb (add x y).
Proof.
  intros Vx Vy. destruct (finite_dec x) as [Fx|Nx], (finite_dec y) as [Fy|Ny].
  - apply (add_q p em Hp He x y (qv x) (qv y)); auto using finite_qv.
  - destruct y; cbn in Ny; try tauto; destruct x as [| [] | |]; cbn in Fx; try tauto; try reflexivity.
  - destruct x; cbn in Nx; try tauto; destruct y as [| [] | |]; cbn in Fy; try tauto; try reflexivity.
  - destruct x, y; cbn in Nx, Ny; try tauto; unfold vb, add; cbn; try reflexivity. destruct (Bool.eqb _ _); reflexivity.
Qed.
Lemma add_finite x y : finite (add x y) -> finite x /\ finite y.
Proof.
  intros F. split.
  - destruct (finite_dec x) as [|N]; [assumption|]. pose proof (not_finite_add p em x y (or_introl (not_finite_qval x N))) as E. apply finite_qval in F as (q & F). unfold add in F. congruence.
  - destruct (finite_dec y) as [|N]; [assumption|]. pose proof (not_finite_add p em x y (or_intror (not_finite_qval y N))) as E. apply finite_qval in F as (q & F). unfold add in F. congruence.
Qed.

(** one tree of additions *)
Lemma tree_err t : Forall vb (leaves t) ->
  vb (teval add t) /\
  (finite (teval add t) ->
    Forall finite (leaves t) /\
    Qabs (qv (teval add t) - qsum (map qv (leaves t))) <= (growth p (pred (weight (leaves t))) - 1) * qsum (map (fun x => Qabs (qv x)) (leaves t))) /\
  (Forall finite (leaves t) -> growth p (pred (weight (leaves t))) * qsum (map (fun x => Qabs (qv x)) (leaves t)) < huge p em -> finite (teval add t)).
Proof.
  induction t as [x|l IHl r IHr]; intros V; cbn [teval leaves] in *.
  - inversion V; subst. split; [assumption|]. split.
    + intros F. split; [auto|]. cbn [map qsum fold_right]. setoid_replace (qv x - (qv x + 0)) with 0 by ring. change (Qabs 0) with 0.
      pose proof (growth_ge p (pred (weight [x]))). pose proof (Qabs_nonneg (qv x)). nra.
    + intros F _. now inversion F.
  - apply Forall_app in V as [Vl Vr]. destruct (IHl Vl) as (VBl & Fl & Ol). destruct (IHr Vr) as (VBr & Fr & Or). clear IHl IHr.
    set (el := teval add l) in *. set (er := teval add r) in *.
    set (Sl := qsum (map qv (leaves l))) in *. set (Sr := qsum (map qv (leaves r))) in *.
    pose proof (qsum_abs_nonneg (leaves l)) as PAl. pose proof (qsum_abs_nonneg (leaves r)) as PAr.
    pose proof (qsum_abs_le (leaves l)) as SAl. pose proof (qsum_abs_le (leaves r)) as SAr.
    set (Al := qsum (map (fun x => Qabs (qv x)) (leaves l))) in *. set (Ar := qsum (map (fun x => Qabs (qv x)) (leaves r))) in *.
    fold Sl in SAl. fold Sr in SAr.
    assert (ES : qsum (map qv (leaves l ++ leaves r)) == Sl + Sr) by (rewrite map_app; apply qsum_app).
    assert (EA : qsum (map (fun x => Qabs (qv x)) (leaves l ++ leaves r)) == Al + Ar) by (rewrite map_app; apply qsum_app).
    rewrite weight_app. set (kl := weight (leaves l)) in *. set (kr := weight (leaves r)) in *.
    pose proof (growth_ge p (pred kl)) as Gl. pose proof (growth_ge p (pred kr)) as Gr. pose proof (growth_ge p (pred (kl + kr))) as G.
    pose proof (two_pos (- p)) as PU.
    (* what the halves are *)
    assert (BL : finite el -> Qabs (qv el) <= growth p (pred kl) * Al).
    { intros F. destruct (Fl F) as [_ D]. setoid_replace (qv el) with ((qv el - Sl) + Sl) by ring. eapply Qle_trans; [apply Qabs_triangle|]. lra. }
    assert (BR : finite er -> Qabs (qv er) <= growth p (pred kr) * Ar).
    { intros F. destruct (Fr F) as [_ D]. setoid_replace (qv er) with ((qv er - Sr) + Sr) by ring. eapply Qle_trans; [apply Qabs_triangle|]. lra. }
    assert (Zl : kl = 0%nat -> finite el -> zero_float el = true /\ Sl == 0 /\ Al == 0).
    { intros K F. destruct (weight_zero _ K) as [Z1 Z2]. fold Sl in Z1. fold Al in Z2. split; [|auto]. apply zero_value; [exact F|].
      specialize (BL F). rewrite Z2 in BL. pose proof (Qabs_nonneg (qv el)) as N0. assert (Q0 : Qabs (qv el) <= 0) by lra.
      apply Qabs_Qle_condition in Q0. lra. }
    assert (Zr : kr = 0%nat -> finite er -> zero_float er = true /\ Sr == 0 /\ Ar == 0).
    { intros K F. destruct (weight_zero _ K) as [Z1 Z2]. fold Sr in Z1. fold Ar in Z2. split; [|auto]. apply zero_value; [exact F|].
      specialize (BR F). rewrite Z2 in BR. pose proof (Qabs_nonneg (qv er)) as N0. assert (Q0 : Qabs (qv er) <= 0) by lra.
      apply Qabs_Qle_condition in Q0. lra. }
    split; [now apply add_valid|]. split.
    + intros F. destruct (add_finite el er F) as [F1 F2]. destruct (Fl F1) as [FFl Dl]. destruct (Fr F2) as [FFr Dr].
      split; [apply Forall_app; auto|]. rewrite ES, EA.
      destruct (Nat.eq_dec kl 0) as [K|Kl].
      * destruct (Zl K F1) as (Z & Z1 & Z2). destruct (add_zero_l el er Z F2) as [_ ->]. rewrite K, Z1, Z2. cbn [Nat.add].
        setoid_replace (qv er - (0 + Sr)) with (qv er - Sr) by ring. setoid_replace (0 + Ar) with Ar by ring. exact Dr.
      * destruct (Nat.eq_dec kr 0) as [K|Kr].
        -- destruct (Zr K F2) as (Z & Z1 & Z2). destruct (add_zero_r el er Z F1) as [_ ->]. rewrite K, Z1, Z2. rewrite Nat.add_0_r.
           setoid_replace (qv el - (Sl + 0)) with (qv el - Sl) by ring. setoid_replace (Al + 0) with Al by ring. exact Dl.
        -- destruct (add_q p em Hp He el er (qv el) (qv er) VBl VBr (finite_qv _ F1) (finite_qv _ F2)) as [_ [(c & Qc & D)|[N _]]].
           2:{ apply finite_qval in F as (q & F). unfold add in F. congruence. }
           assert (EC : qv (add el er) = c) by (unfold qv, add; now rewrite Qc). rewrite EC. unfold uround in D.
           replace (pred (kl + kr)) with (S (pred kl + pred kr)) by lia. rewrite growth_S, growth_add.
           specialize (BL F1). specialize (BR F2). pose proof (Qabs_triangle (qv el) (qv er)) as TR.
           set (gl := growth p (pred kl)) in *. set (gr := growth p (pred kr)) in *. set (u := 2 ^ (- p)) in *.
           assert (T1 : Qabs (c - (Sl + Sr)) <= Qabs (c - (qv el + qv er)) + (Qabs (qv el - Sl) + Qabs (qv er - Sr))).
           { setoid_replace (c - (Sl + Sr)) with ((c - (qv el + qv er)) + ((qv el - Sl) + (qv er - Sr))) by ring.
             eapply Qle_trans; [apply Qabs_triangle|]. apply Qplus_le_r. apply Qabs_triangle. }
           assert (T2 : Qabs (c - (qv el + qv er)) <= u * (gl * Al + gr * Ar)) by nra.
           assert (T3 : Qabs (c - (Sl + Sr)) <= ((1 + u) * gl - 1) * Al + ((1 + u) * gr - 1) * Ar) by lra.
           assert (W1 : (1 + u) * gl <= (1 + u) * (gl * gr)) by (apply Qmult_le_l; [lra|clear - Gl Gr; nra]). assert (W2 : (1 + u) * gr <= (1 + u) * (gl * gr)) by (apply Qmult_le_l; [lra|clear - Gl Gr; nra]).
           pose proof (Qmult_le_compat_r _ _ Al W1 PAl). pose proof (Qmult_le_compat_r _ _ Ar W2 PAr). lra.
    + intros FF O. apply Forall_app in FF as [FF1 FF2]. rewrite EA in O.
      assert (GL : growth p (pred kl) <= growth p (pred (kl + kr))) by (apply growth_mono; lia).
      assert (GR : growth p (pred kr) <= growth p (pred (kl + kr))) by (apply growth_mono; lia).
      assert (F1 : finite el) by (apply Ol; [exact FF1|nra]). assert (F2 : finite er) by (apply Or; [exact FF2|nra]).
      destruct (add_q p em Hp He el er (qv el) (qv er) VBl VBr (finite_qv _ F1) (finite_qv _ F2)) as [_ [(c & Qc & D)|[N B]]].
      * apply finite_qval. now exists c.
      * exfalso. specialize (BL F1). specialize (BR F2). pose proof (Qabs_triangle (qv el) (qv er)) as TR.
        pose proof (Qmult_le_compat_r _ _ Al GL PAl). pose proof (Qmult_le_compat_r _ _ Ar GR PAr). lra.
Qed.
End Sum.
